(** C13: replacing the variables of a true clause by terms of the right types gives a true clause;
    replacement is simultaneous and captures nothing. *)
From Coq Require Import List Arith NArith Bool Lia.
Import ListNotations.
From Verif Require Import Term LocalContext Semantics TermProofs SemFacts FiniteModel Literal Clause ClauseSem
  Typing TypingProofs FiniteTyping VariableMap VariableMapProofs RenumberProofs.

(** The value of the instance is the value of the term with every mapped variable standing for the
    value of its replacement, evaluated outside all binders, all at the same time; and the instance is
    well formed if the term and the replacements are. *)
Theorem instantiation_is_simultaneous : forall M m t rho bs,
  (forall i r, vget m i = Some r -> lc r) ->
  eval M rho bs (apply_to_term m t) =
    eval M (fun i => match vget m i with Some r => ev M rho r | None => rho i end) bs t /\
  ((forall i r, In i (vars t) -> vget m i = Some r -> swt M rho (nobs M) r) ->
   swt M (fun i => match vget m i with Some r => ev M rho r | None => rho i end) bs t ->
   swt M rho bs (apply_to_term m t)) /\
  specialize_term m t = apply_to_term m t.
Proof.
  intros M m t rho bs H. split; [apply (eval_apply M m t H)|]. split; [|apply specialize_apply].
  intros Hr W. apply (swt_apply M (anydom M) m t H); auto.
Qed.
Print Assumptions instantiation_is_simultaneous.

(** [x0 = x1] with [x0 := x1, x1 := x0], and a variable below a binder *)
Example instantiation_is_simultaneous_case :
  apply_to_term [Some (TVar 1); Some (TVar 0)] (teq tbool (TVar 0) (TVar 1)) = teq tbool (TVar 1) (TVar 0) /\
  apply_to_term [Some (TVar 7)] (TBind KAll tbool (teq tbool (TBound 0) (TVar 0)))
    = TBind KAll tbool (teq tbool (TBound 0) (TVar 7)).
Proof. split; reflexivity. Qed.

(** Replacements that are not closed under binders do get captured, so the side condition is needed;
    [match_terms] never produces them (see P_Matching.v). *)
Theorem escaping_replacement_is_captured : exists m t t',
  vget m 0 = Some (TBound 0) /\ apply_to_term m t = t' /\ t = TBind KAll tbool (TVar 0) /\ lc t' /\
  t' = TBind KAll tbool (TBound 0).
Proof. exists [Some (TBound 0)]. do 2 eexists. repeat (split; [reflexivity|]). reflexivity. Qed.
Print Assumptions escaping_replacement_is_captured.

(** [specialize_clause] and [specialize_clause_with_replacement_context] *)
Definition specialized (al : aliases) (m : vmap) (cl c' : clause) : Prop :=
  specialize_clause al m cl = Some c' \/ exists rc, specialize_clause_with_replacement_context al m cl rc = Some c'.
Lemma specialized_shape al m cl c' : specialized al m cl c' ->
  exists out, c' = Clause (map (specialize_literal al m) (literals cl)) (keep_unmapped m (context cl) out).
Proof.
  intros [H|[rc H]]; unfold specialize_clause, specialize_clause_with_replacement_context in H;
    [destruct (build_output_context m (context cl)) as [o|]
    |destruct (build_output_context_from_replacement_context m rc) as [o|]]; simpl in H; try discriminate;
    injection H as <-; eauto.
Qed.

(** Sound for the interpretation at hand.  The replacements have the right types: under every
    assignment for the new context the value of the replacement for [x_i : T] is in the value of the
    instance of [T].  An unmapped variable must not have a mapped one in its type, since the code
    leaves its type as it is. *)
Theorem specialized_clause_valid_partial : forall M al m cl c', specialized al m cl c' ->
  aliases_ok M al -> (forall i r, vget m i = Some r -> lc r) ->
  (forall i T v, get_var_type (context cl) i = Some T -> vget m i = None -> In v (vars T) -> vget m v = None) ->
  (forall rho, valid_env M (context c') rho -> forall i T r, get_var_type (context cl) i = Some T ->
     vget m i = Some r -> mem M (ev M rho r) (ev M rho (apply_to_term m T))) ->
  (valid M cl -> valid M c') /\
  ((forall rho, valid_env M (context c') rho -> forall i r, vget m i = Some r -> wt M rho r) ->
   clause_wt M cl -> clause_wt M c').
Proof.
  intros M al m cl c' H Ha Hm Hu Hr. apply specialized_shape in H. split.
  - apply (specialized_valid M al m cl c'); auto.
  - intros Hw. apply (specialized_wt M al m cl c'); auto.
Qed.
Print Assumptions specialized_clause_valid_partial.

(** The same with the types the code computes. *)
Theorem typed_specialized_clause_valid_partial : forall K al m cl c', specialized al m cl c' ->
  (forall i r, vget m i = Some r -> lc r) ->
  (forall i T v, get_var_type (context cl) i = Some T -> vget m i = None -> In v (vars T) -> vget m v = None) ->
  ctx_closed (context c') ->
  (forall i r, vget m i = Some r -> valterm r = true /\ (forall v, In v (vars r) -> v < length (context c')) /\
     forall T, get_var_type (context cl) i = Some T -> get_type K (context c') r = Some (apply_to_term m T)) ->
  forall M, respects M K -> aliases_ok M al ->
    (forall rho, valid_env M (context c') rho -> forall i r, vget m i = Some r -> wt M rho r) ->
    (valid M cl -> valid M c') /\ (clause_wt M cl -> clause_wt M c').
Proof.
  intros K al m cl c' H Hm Hu Hc HT M R Ha Hw.
  destruct (specialized_clause_valid_partial M al m cl c' H Ha Hm Hu) as [H1 H2]; auto.
  intros rho Hrho i T r Hi Hr. destruct (HT i r Hr) as (V1 & V2 & V3).
  eapply (typing_sound M (tsize r) K (context c')); [apply V3; eauto|auto|auto|auto|auto|auto|eauto].
Qed.
Print Assumptions typed_specialized_clause_valid_partial.

(** ** A concrete instance, and the failure for a partial map *)
Definition in_K : kctx :=
  {| k_type := fun _ _ => type0;
     k_global := fun _ i => if N.eqb i 0 then TBind KPi type0 tbool else tbool;
     k_scoped := fun _ => tbool;
     k_instance := fun _ _ _ => false; k_extends := fun _ _ => false; k_value_params := fun _ => false |}.
Definition no_aliases : aliases := {| al_params := fun _ => None; al_lookup := fun _ _ => None |}.
Definition in_unit := TSym (SType 1 1).
Definition in_sorts (k : N) : list V := [VBool; VBase 0 0 1].
(** [f] holds of the type with one element only *)
Definition in_I (s : symbol) : V :=
  match s with
  | SType _ _ => VBase 0 0 1
  | SGlobal _ i => if N.eqb i 0 then VFun (VSort 0) [VFalse; VTrue] else VTrue
  | _ => VTrue
  end.
Definition in_M : Model := fin_model in_sorts in_I.
Definition in_f (t : term) := TApp (TSym (SGlobal 0 0)) t.
(** [not f(x0) or x1 = x2] with [x1, x2 : x0] *)
Definition in_cl : clause :=
  Clause [Lit false (in_f (TVar 0)) ttrue; Lit true (TVar 1) (TVar 2)] [Some type0; Some (TVar 0); Some (TVar 0)].

Lemma in_respects : respects in_M in_K.
Proof.
  apply fin_respects.
  - left; reflexivity.
  - intros x Hx. vm_compute in Hx. repeat (destruct Hx as [<-|Hx]; [exact Logic.I|]). contradiction.
  - intros; exact Logic.I.
  - intros m i rho. cbn [in_K k_global]. destruct (N.eqb i 0); vm_compute; tauto.
  - intros; exact Logic.I.
  - intros m i rho. vm_compute. tauto.
  - intros m i rho. cbn [in_I in_K k_global]. destruct (N.eqb_spec i 0) as [->|H0]; vm_compute; tauto.
  - intros i rho. vm_compute; tauto.
Qed.
Lemma in_valid : valid in_M in_cl.
Proof.
  intros rho H. assert (E : rho 0 = VBool \/ rho 0 = VBase 0 0 1).
  { specialize (H 0 _ eq_refl). vm_compute in H. intuition. }
  destruct E as [E|E].
  - eexists. split; [left; reflexivity|]. unfold lit_holds, ev, in_f. cbn [positive left right eval]. rewrite E. vm_compute. discriminate.
  - eexists. split; [right; left; reflexivity|].
    pose proof (H 1 _ eq_refl) as H1. pose proof (H 2 _ eq_refl) as H2.
    unfold ev in H1, H2. cbn [eval] in H1, H2. rewrite E in H1, H2. vm_compute in H1, H2.
    unfold lit_holds, ev. cbn [positive left right eval]. destruct H1 as [<-|[]], H2 as [<-|[]]. reflexivity.
Qed.
Lemma in_wt : clause_wt in_M in_cl.
Proof.
  intros rho H. assert (E : rho 0 = VBool \/ rho 0 = VBase 0 0 1).
  { specialize (H 0 _ eq_refl). vm_compute in H. intuition. }
  intros l [<-|[<-|[]]]; split; unfold wt, swt, in_f; cbn [swtg left right]; try exact Logic.I;
    destruct E as [E|E]; cbn [eval]; rewrite ?E; vm_compute; tauto.
Qed.

(** [x0 := unit, x1 := x4, x2 := x3] where the new context has [x3, x4 : unit] *)
Definition in_map : vmap := [Some in_unit; Some (TVar 4); Some (TVar 3)].
Definition in_rc : lctx := [None; None; None; Some in_unit; Some in_unit].
Definition in_result : clause :=
  Clause [Lit false (in_f in_unit) ttrue; Lit true (TVar 3) (TVar 4)] [None; None; None; Some in_unit; Some in_unit].
Example specialized_clause_valid_case :
  specialize_clause_with_replacement_context no_aliases in_map in_cl in_rc = Some in_result /\ valid in_M in_result.
Proof.
  assert (E : specialize_clause_with_replacement_context no_aliases in_map in_cl in_rc = Some in_result) by reflexivity.
  split; [exact E|].
  apply (typed_specialized_clause_valid_partial in_K no_aliases in_map in_cl in_result); [right; eauto| | | | |apply in_respects| | |apply in_valid].
  - intros [|[|[|[|i]]]] r H; unfold vget in H; simpl in H; try discriminate; injection H as <-; reflexivity.
  - intros [|[|[|[|i]]]] T v H; unfold get_var_type in H; simpl in H; discriminate.
  - intros i T v H Hv. do 6 (destruct i as [|i]; [unfold get_var_type in H; simpl in H; try discriminate; injection H as <-; vm_compute in Hv; tauto|]).
    unfold get_var_type in H; simpl in H; destruct i; discriminate.
  - intros [|[|[|[|i]]]] r H; unfold vget in H; simpl in H; try discriminate; injection H as <-;
      (split; [reflexivity|]; split; [intros v Hv; vm_compute in Hv; intuition; subst; simpl; lia|]);
      intros T HT; unfold get_var_type in HT; simpl in HT; injection HT as <-; reflexivity.
  - intros s l s' H; discriminate H.
  - intros rho _ [|[|[|[|i]]]] r H; unfold vget in H; simpl in H; try discriminate; injection H as <-; vm_compute; tauto.
Qed.

(** With [x0 := unit] alone the variables [x1] and [x2] keep the type [x0], which now is any type: the
    result is [not f(unit) or x1 = x2] for elements of an arbitrary type. *)
Theorem partial_specialization_refuted : exists K M m cl c',
  specialize_clause no_aliases m cl = Some c' /\ respects M K /\ aliases_ok M no_aliases /\
  (forall i r, vget m i = Some r -> lc r) /\
  (forall i r T, vget m i = Some r -> get_var_type (context cl) i = Some T -> checked_type K (context c') r = Some (apply_to_term m T)) /\
  validate_variable_ordering (context cl) = true /\ clause_wt M cl /\ valid M cl /\ ~ valid M c'.
Proof.
  exists in_K, in_M, [Some in_unit], in_cl. eexists. split; [reflexivity|].
  split; [exact in_respects|]. split; [intros s l s' H; discriminate H|]. split.
  { intros [|i] r H; unfold vget in H; simpl in H; [injection H as <-; reflexivity|]. destruct i; discriminate. }
  split.
  { intros [|i] r T H HT; unfold vget in H; simpl in H; [|destruct i; discriminate]. injection H as <-.
    unfold get_var_type in HT. simpl in HT. injection HT as <-. reflexivity. }
  split; [reflexivity|]. split; [exact in_wt|]. split; [exact in_valid|].
  intros H. destruct (H (fun i => match i with 0 => VBool | 1 => VTrue | _ => VFalse end)) as (l & Hl & E).
  - intros i T Hi. destruct i as [|[|[|i]]]; unfold get_var_type in Hi; simpl in Hi; try discriminate;
      try (injection Hi as <-; vm_compute; tauto). destruct i; discriminate.
  - destruct Hl as [<-|[<-|[]]]; vm_compute in E; try discriminate; apply E; reflexivity.
Qed.
Print Assumptions partial_specialization_refuted.

(** The output context gives exactly the variables of the replacements, with their types. *)
Lemma collect_typed_get c l : forall r, collect_typed c l = Some r ->
  map fst r = l /\ forall v T, In (v, T) r -> get_var_type c v = Some T.
Proof.
  induction l as [|v l IH]; intros r H; cbn [collect_typed] in H; [injection H as <-; split; [auto|intros ? ? []]|].
  destruct (get_var_type c v) as [T|] eqn:E; [|discriminate]. destruct (collect_typed c l) as [r'|]; [|discriminate].
  injection H as <-. destruct (IH r' eq_refl) as [H1 H2]. split; [simpl; congruence|].
  intros w U [Hw|Hw]; [congruence|auto].
Qed.
Lemma set_types_get f c l : (forall v T, In (v, T) l -> get_var_type c v = Some T) -> forall out w,
  get_var_type (set_types f l out) w =
    if in_dec Nat.eq_dec w (map fst l) then option_map f (get_var_type c w) else get_var_type out w.
Proof.
  unfold set_types. induction l as [|[v T] l IH]; intros H out w; [reflexivity|].
  cbn [fold_left map fst]. rewrite IH by (intros; apply H; right; auto).
  rewrite get_var_set_type. pose proof (H v T (or_introl eq_refl)) as E.
  destruct (in_dec Nat.eq_dec w (map fst l)) as [I1|I1], (in_dec Nat.eq_dec w (v :: map fst l)) as [I2|I2].
  - auto.
  - exfalso. apply I2. right; auto.
  - destruct I2 as [->|I2]; [|contradiction]. rewrite Nat.eqb_refl, E. reflexivity.
  - destruct (Nat.eqb_spec v w) as [->|]; auto. exfalso. apply I2. left; auto.
Qed.
Lemma output_context_get f c m : forall out0 out, output_context_from f c m out0 = Some out -> forall w,
  ((exists i r, vget m i = Some r /\ In w (vars r)) -> exists T, get_var_type c w = Some T /\ get_var_type out w = Some (f T)) /\
  ((forall i r, vget m i = Some r -> ~ In w (vars r)) -> get_var_type out w = get_var_type out0 w).
Proof.
  induction m as [|x m IH]; intros out0 out H w.
  - injection H as <-. split; auto. intros (i & r & E & _). unfold vget in E. destruct i; discriminate.
  - assert (G : exists out1, output_context_from f c m out1 = Some out /\
      match x with
      | None => out1 = out0
      | Some t => exists l, collect_typed c (vars t) = Some l /\ out1 = set_types f l out0
      end).
    { destruct x as [t|]; cbn [output_context_from] in H; [|eauto]. destruct (collect_typed c (vars t)) as [l|]; [eauto|discriminate]. }
    destruct G as (out1 & Hout & Hx). destruct (IH _ _ Hout w) as [A B].
    destruct (existsb (fun o => match o with Some r => existsb (Nat.eqb w) (vars r) | None => false end) m) eqn:Ex.
    + apply existsb_exists in Ex. destruct Ex as ([r|] & Hr & Hw); [|discriminate].
      apply existsb_exists in Hw. destruct Hw as (w' & Hw & Ew). apply Nat.eqb_eq in Ew. subst w'.
      apply In_nth_error in Hr. destruct Hr as [i Hi].
      assert (Hv : vget m i = Some r) by (unfold vget; rewrite Hi; auto).
      split; [intros _; apply A; eauto|]. intros Hn. exfalso. apply (Hn (S i) r); [exact Hv|auto].
    + assert (N : forall i r, vget m i = Some r -> ~ In w (vars r)).
      { intros i r Hv Hw. apply Bool.not_true_iff_false in Ex. apply Ex. apply existsb_exists. exists (Some r). split.
        - unfold vget in Hv. destruct (nth_error m i) as [[?|]|] eqn:E; [|discriminate|discriminate]. injection Hv as ->. eapply nth_error_In; eauto.
        - apply existsb_exists. exists w. split; [auto|apply Nat.eqb_refl]. }
      specialize (B N). rewrite B. destruct x as [t|].
      * destruct Hx as (l & Hl & ->). apply collect_typed_get in Hl. destruct Hl as [L1 L2].
        rewrite (set_types_get f c l L2), L1. split.
        { intros (i & r & Hi & Hw). destruct i as [|i]; [|exfalso; apply (N i r); auto].
          injection Hi as <-. destruct (in_dec Nat.eq_dec w (vars t)) as [_|]; [|contradiction].
          assert (In w (map fst l)) by (rewrite L1; auto). apply in_map_iff in H0. destruct H0 as ([w' T] & E & Hin). simpl in E. subst w'.
          exists T. rewrite (L2 _ _ Hin). auto. }
        { intros Hn. destruct (in_dec Nat.eq_dec w (vars t)) as [Hw|]; auto. exfalso. apply (Hn 0 t); auto. }
      * subst out1. split; auto. intros (i & r & Hi & Hw). destruct i as [|i]; [discriminate|]. exfalso; apply (N i r); auto.
Qed.
Theorem output_context_types : forall m c out,
  (build_output_context m c = Some out ->
   forall w, ((exists i r, vget m i = Some r /\ In w (vars r)) ->
              exists T, get_var_type c w = Some T /\ get_var_type out w = Some (apply_to_term m T)) /\
             ((forall i r, vget m i = Some r -> ~ In w (vars r)) -> get_var_type out w = None)) /\
  (build_output_context_from_replacement_context m c = Some out ->
   forall w, ((exists i r, vget m i = Some r /\ In w (vars r)) ->
              exists T, get_var_type c w = Some T /\ get_var_type out w = Some T) /\
             ((forall i r, vget m i = Some r -> ~ In w (vars r)) -> get_var_type out w = None)).
Proof.
  assert (E : forall w, get_var_type [] w = None) by (intros [|w]; reflexivity).
  intros m c out. split; intros H w; destruct (output_context_get _ _ _ _ _ H w) as [A B]; rewrite E in B; auto.
Qed.
Print Assumptions output_context_types.
Example output_context_types_case :
  build_output_context_from_replacement_context in_map in_rc = Some [None; None; None; Some in_unit; Some in_unit] /\
  build_output_context in_map in_rc = Some [None; None; None; Some in_unit; Some in_unit].
Proof. split; reflexivity. Qed.

(** ** [replace_variables] *)
Fixpoint as_map (l : list (nat * term)) : vmap :=
  match l with [] => [] | (id, v) :: r => vset (as_map r) id v end.

(** It is the simultaneous replacement if no replaced variable occurs in a replacement that comes
    before it. *)
Theorem replace_variables_simultaneous_partial : forall l t,
  NoDup (map fst l) ->
  (forall pre i v post, l = pre ++ (i, v) :: post -> forall j w, In (j, w) post -> ~ In j (vars v)) ->
  replace_variables l t = apply_to_term (as_map l) t.
Proof.
  induction l as [|[i v] l IH]; intros t N H.
  - simpl. symmetry. apply apply_unmapped. intros j _. unfold vget. destruct j; auto.
  - cbn [replace_variables as_map]. apply NoDup_cons_iff in N. destruct N as [N1 N2]. rewrite IH; auto.
    2:{ intros pre i' v' post E. apply (H ((i, v) :: pre) i' v' post). rewrite E. reflexivity. }
    assert (Hv : apply_to_term (as_map l) v = v).
    { apply apply_unmapped. intros j Hj. destruct (vget (as_map l) j) as [w|] eqn:E; auto. exfalso.
      assert (In (j, w) l).
      { clear - E. induction l as [|[a b] l IH]; simpl in *; [unfold vget in E; destruct j; discriminate|].
        rewrite vget_vset in E. destruct (Nat.eqb_spec a j) as [->|]; [injection E as <-|]; auto. }
      exact (H [] i v l eq_refl j w H0 Hj). }
    induction t as [[j|j|s]|f IHf a IHa|k A IHA b IHb]; simpl; auto; try congruence.
    rewrite vget_vset, (Nat.eqb_sym i j). destruct (Nat.eqb_spec j i) as [->|]; auto.
Qed.
Print Assumptions replace_variables_simultaneous_partial.
Example replace_variables_simultaneous_case :
  replace_variables [(0, TVar 5); (1, TVar 0)] (teq tbool (TVar 0) (TVar 1)) = teq tbool (TVar 5) (TVar 0).
Proof. reflexivity. Qed.

(** In general it is not, although its comment says "at once". *)
Theorem replace_variables_simultaneous_refuted :
  exists l t, NoDup (map fst l) /\ (forall i v, In (i, v) l -> lc v) /\ replace_variables l t <> apply_to_term (as_map l) t.
Proof.
  exists [(0, TVar 1); (1, TVar 0)], (teq tbool (TVar 0) (TVar 1)). split; [repeat constructor; simpl; intuition; discriminate|].
  split; [intros i v [E|[E|[]]]; injection E as <- <-; reflexivity|]. vm_compute. discriminate.
Qed.
Print Assumptions replace_variables_simultaneous_refuted.

(** ** [compose] and [from_var_ids] *)
Lemma vget_cons_0 x (r : vmap) : vget (x :: r) 0 = x.
Proof. unfold vget. simpl. destruct x; auto. Qed.
Lemma vget_cons_S x (r : vmap) n : vget (x :: r) (S n) = vget r n.
Proof. reflexivity. Qed.
Lemma compose_from_get self : forall i other res j,
  vget (compose_from i self other res) j =
    match (if Nat.leb i j then vget self (j - i) else None) with
    | Some t => Some (apply_to_term other t)
    | None => vget res j
    end.
Proof.
  induction self as [|x r IH]; intros i other res j.
  - cbn [compose_from]. destruct (Nat.leb i j); auto. destruct (j - i); reflexivity.
  - assert (E : vget (compose_from i (x :: r) other res) j = vget (compose_from (S i) r other
      match x with Some t => vset res i (apply_to_term other t) | None => res end) j).
    { destruct x; cbn [compose_from]; rewrite ?specialize_apply; auto. }
    rewrite E, IH. destruct (Nat.leb_spec i j) as [L|L].
    + destruct (Nat.eq_dec i j) as [->|Ne].
      * rewrite Nat.sub_diag, vget_cons_0. destruct (Nat.leb_spec (S j) j); [lia|].
        destruct x as [t|]; auto. rewrite vget_vset, Nat.eqb_refl. auto.
      * destruct (Nat.leb_spec (S i) j); [|lia]. replace (j - i) with (S (j - S i)) by lia. rewrite vget_cons_S.
        destruct (vget r (j - S i)); auto. destruct x as [t|]; auto. rewrite vget_vset.
        destruct (Nat.eqb_spec i j); [contradiction|auto].
    + destruct (Nat.leb_spec (S i) j); [lia|]. destruct x as [t|]; auto. rewrite vget_vset.
      destruct (Nat.eqb_spec i j); [lia|auto].
Qed.

(** On terms all of whose variables are mapped by [a], applying [compose a b] is applying [a] and then [b]. *)
Theorem compose_is_composition : forall a b t, (forall i, In i (vars t) -> vget a i <> None) ->
  apply_to_term (compose a b) t = apply_to_term b (apply_to_term a t).
Proof.
  intros a b t. induction t as [[i|i|s]|f IHf x IHx|k A IHA x IHx]; intros H; cbn [apply_to_term]; auto.
  - unfold compose. rewrite compose_from_get. simpl. rewrite Nat.sub_0_r.
    specialize (H i ltac:(unfold vars; simpl; auto)). destruct (vget a i); [auto|contradiction].
  - rewrite vars_app in H. rewrite IHf, IHx; auto; intros; apply H, in_or_app; auto.
  - rewrite vars_bind in H. rewrite IHA, IHx; auto; intros; apply H, in_or_app; auto.
Qed.
Print Assumptions compose_is_composition.
Example compose_is_composition_case :
  apply_to_term (compose [Some (TVar 1); Some tfalse] [None; Some ttrue]) (teq tbool (TVar 0) (TVar 1)) = teq tbool ttrue tfalse.
Proof. reflexivity. Qed.

Lemma from_var_ids_get ids : NoDup ids -> forall j, vget (from_var_ids ids) j = option_map (fun k => TVar k) (position j ids).
Proof.
  intros N j.
  assert (G : forall ids m i, NoDup ids -> vget (fst (fold_left (fun '(m, i) old => (vset m old (TVar i), S i)) ids (m, i))) j =
    match position j ids with Some k => Some (TVar (i + k)) | None => vget m j end).
  { clear. induction ids as [|x ids IH]; intros m i N; simpl; auto. apply NoDup_cons_iff in N. destruct N as [N1 N2].
    rewrite IH, vget_vset by auto. destruct (Nat.eqb_spec x j) as [->|Ne].
    - destruct (position j ids) eqn:P.
      + exfalso. apply N1. clear - P. revert n P. induction ids as [|y ids IH]; simpl; intros n P; [discriminate|].
        destruct (Nat.eqb_spec y j); auto. destruct (position j ids); [|discriminate]. right. eapply IH; eauto.
      + rewrite Nat.add_0_r. auto.
    - destruct (position j ids); simpl; auto. rewrite Nat.add_succ_r. auto. }
  unfold from_var_ids. rewrite G; auto. destruct (position j ids); auto. simpl. unfold vget. destruct j; auto.
Qed.

(** The map a normalization trace is turned into is the renumbering the normalization did. *)
Theorem from_var_ids_is_renumbering : forall ids t t', NoDup ids ->
  renumber_variables ids t = Some t' -> apply_to_term (from_var_ids ids) t = t'.
Proof.
  intros ids t t' N. revert t'. induction t as [[i|i|s]|f IHf x IHx|k A IHA x IHx]; intros t' H; cbn [apply_to_term] in *; simpl in H.
  - rewrite from_var_ids_get by auto. destruct (position i ids); [|discriminate]. simpl in *. congruence.
  - congruence.
  - congruence.
  - destruct (renumber_variables ids f) as [f'|]; [|discriminate]. destruct (renumber_variables ids x) as [x'|]; [|discriminate].
    injection H as <-. rewrite (IHf f'), (IHx x'); auto.
  - destruct (renumber_variables ids A) as [f'|]; [|discriminate]. destruct (renumber_variables ids x) as [x'|]; [|discriminate].
    injection H as <-. rewrite (IHA f'), (IHx x'); auto.
Qed.
Print Assumptions from_var_ids_is_renumbering.
Example from_var_ids_is_renumbering_case :
  renumber_variables [3; 1] (teq tbool (TVar 1) (TVar 3)) = Some (teq tbool (TVar 1) (TVar 0)) /\
  apply_to_term (from_var_ids [3; 1]) (teq tbool (TVar 1) (TVar 3)) = teq tbool (TVar 1) (TVar 0).
Proof. split; reflexivity. Qed.
