(** C14: a successful match returns a map under which the general term becomes the special one. *)
From Coq Require Import List Arith NArith Bool Lia Permutation.
Import ListNotations.
From Verif Require Import Term LocalContext Semantics TermProofs SemFacts FiniteModel Literal Clause ClauseSem
  Typing TypingProofs FiniteTyping VariableMap VariableMapProofs InferenceProofs P_Instantiation.

(** The instance is the special term up to swapping the sides of equations; nothing mapped before is
    changed, every variable of the general term is mapped, and no replacement has escaping bound
    variables. *)
Theorem match_terms_witness : forall K gc sc m g s m',
  match_terms K gc sc m g s = Some (true, m') ->
  swapeq (apply_to_term m' g) s /\
  (forall i t, vget m i = Some t -> vget m' i = Some t) /\
  (forall i, In i (vars g) -> vget m' i <> None) /\
  ((forall i t, vget m i = Some t -> lc t) -> forall i t, vget m' i = Some t -> lc t).
Proof.
  intros K gc sc m g s m' H. apply match_terms_matched in H. destruct H as [H1 H2 H3 H4].
  split; [auto|]. split; [exact H1|]. split; [exact H3|exact H2].
Qed.
Print Assumptions match_terms_witness.

(** Swapping the sides of equations does not change the value, so the special term has the value of
    the general term with the variables standing for the values of their replacements. *)
Theorem match_terms_value : forall K gc sc m g s m',
  match_terms K gc sc m g s = Some (true, m') -> (forall i t, vget m i = Some t -> lc t) ->
  forall M rho bs, swt M rho bs (apply_to_term m' g) ->
    swt M rho bs s /\
    eval M rho bs s = eval M (fun i => match vget m' i with Some r => ev M rho r | None => rho i end) bs g.
Proof.
  intros K gc sc m g s m' H Hm M rho bs W. apply match_terms_matched in H. destruct H as [H1 H2 H3 H4].
  destruct (swapeq_sound M (anydom M) _ _ H4 rho bs W) as [W' E]. split; auto.
  rewrite E. apply (eval_apply M m' g (H2 Hm)).
Qed.
Print Assumptions match_terms_value.

(** [eq(x0, f)] against [eq(g, x5)]: only the swapped order fits *)
Definition ma_K : kctx :=
  {| k_type := fun _ _ => type0; k_global := fun _ _ => tbool; k_scoped := fun _ => tbool;
     k_instance := fun _ _ _ => false; k_extends := fun _ _ => false; k_value_params := fun _ => false |}.
Definition ma_f := TSym (SGlobal 0 0).
Definition ma_g := TSym (SGlobal 0 1).
Example match_terms_witness_case :
  match_terms ma_K [Some tbool] [] [] (teq tbool (TVar 0) ma_f) (teq tbool ma_f ma_g) = Some (true, [Some ma_g]) /\
  apply_to_term [Some ma_g] (teq tbool (TVar 0) ma_f) = teq tbool ma_g ma_f.
Proof. split; reflexivity. Qed.

(** Matching without types, used by the literal index: the instance is exactly the special term. *)
Theorem match_untyped_witness : forall m g s m', match_untyped m g s = (true, m') ->
  apply_to_term m' g = s /\
  (forall i t, vget m i = Some t -> vget m' i = Some t) /\
  ((forall i t, vget m i = Some t -> lc t) -> forall i t, vget m' i = Some t -> lc t).
Proof.
  intros m g s m' H. apply match_untyped_exact in H. destruct H as [H1 H2 H3 H4].
  split; [auto|]. split; [exact H1|exact H2].
Qed.
Print Assumptions match_untyped_witness.
Theorem match_untyped_eq_witness : forall m g s m', match_untyped_eq m g s = (true, m') ->
  swapeq (apply_to_term m' g) s /\
  (forall i t, vget m i = Some t -> vget m' i = Some t) /\
  ((forall i t, vget m i = Some t -> lc t) -> forall i t, vget m' i = Some t -> lc t).
Proof.
  intros m g s m' H. apply match_untyped_eq_matched in H. destruct H as [H1 H2 H3 H4].
  split; [auto|]. split; [exact H1|exact H2].
Qed.
Print Assumptions match_untyped_eq_witness.
Example match_untyped_witness_case :
  match_untyped [] (TApp (TVar 1) (TApp (TVar 1) (TVar 0))) (TApp ma_f (TApp ma_f ma_g)) = (true, [Some ma_g; Some ma_f]) /\
  match_untyped [] (TApp (TVar 1) (TApp (TVar 1) (TVar 0))) (TApp ma_f (TApp ma_g ma_g)) = (false, [None; Some ma_f]).
Proof. split; reflexivity. Qed.

(** Matching is complete on first-order terms: if some extension of the map makes the terms equal,
    [match_untyped] finds it. *)
Theorem match_untyped_complete : forall g m s m0,
  apply_to_term m0 g = s -> (forall i, In i (vars g) -> vget m0 i <> None) ->
  (forall i t, vget m0 i = Some t -> lc t) ->
  (forall i t, vget m i = Some t -> vget m0 i = Some t) ->
  exists m', match_untyped m g s = (true, m') /\ (forall i t, vget m' i = Some t -> vget m0 i = Some t).
Proof.
  induction g as [[i|i|s0]|f IHf a IHa|k A IHA b IHb]; intros m s m0 E Hc Hl Hx; cbn [apply_to_term] in E; subst s; cbn [match_untyped].
  - destruct (vget m0 i) as [r|] eqn:Ei; [|exfalso; apply (Hc i); unfold vars; simpl; auto].
    assert (L : has_escaping_bound_variable r = false) by exact (Hl _ _ Ei).
    rewrite L. unfold match_var. rewrite vget_vresize. destruct (vget m i) as [g|] eqn:Em.
    + rewrite (Hx _ _ Em) in Ei. injection Ei as ->. exists (vresize m (S i)). split.
      * unfold term_eqb. destruct (term_eq_dec r r); [auto|congruence].
      * intros j t. rewrite vget_vresize. auto.
    + eexists. split; [reflexivity|]. intros j t. rewrite vget_vset, vget_vresize.
      destruct (Nat.eqb_spec i j) as [<-|]; intros Ht; [congruence|auto].
  - destruct (atom_eq_dec (BoundVar i) (BoundVar i)); [eauto|congruence].
  - destruct (atom_eq_dec (Sym s0) (Sym s0)); [eauto|congruence].
  - rewrite vars_app in Hc. destruct (IHf m _ m0 eq_refl) as (m1 & E1 & H1); auto.
    { intros i Hi. apply Hc, in_or_app; auto. }
    destruct (IHa m1 _ m0 eq_refl) as (m2 & E2 & H2); auto.
    { intros i Hi. apply Hc, in_or_app; auto. }
    rewrite E1, E2. eauto.
  - rewrite vars_bind in Hc. destruct (bkind_eq_dec k k); [|congruence].
    destruct (IHA m _ m0 eq_refl) as (m1 & E1 & H1); auto.
    { intros i Hi. apply Hc, in_or_app; auto. }
    destruct (IHb m1 _ m0 eq_refl) as (m2 & E2 & H2); auto.
    { intros i Hi. apply Hc, in_or_app; auto. }
    rewrite E1, E2. eauto.
Qed.
Print Assumptions match_untyped_complete.

(** ** Clauses *)
Definition lit_instance (m : vmap) (g s : literal) : Prop :=
  positive g = positive s /\
  ((swapeq (apply_to_term m (left g)) (left s) /\ swapeq (apply_to_term m (right g)) (right s)) \/
   (swapeq (apply_to_term m (left g)) (right s) /\ swapeq (apply_to_term m (right g)) (left s))).

Lemma literals_match_spec K gc sc m g s m' : literals_match K gc sc m g s = Some (true, m') ->
  lit_instance m' g s /\ extends m m' /\ (closed_map m -> closed_map m') /\ covers m' (left g) /\ covers m' (right g).
Proof.
  unfold literals_match, lit_instance. destruct (Bool.eqb_spec (positive g) (positive s)) as [E|E]; [|discriminate]. cbn [negb].
  assert (G : forall a b r, match_and (match_terms K gc sc m (left g) a) (fun m => match_terms K gc sc m (right g) b) = Some (true, r) ->
    (swapeq (apply_to_term r (left g)) a /\ swapeq (apply_to_term r (right g)) b) /\ extends m r /\
    (closed_map m -> closed_map r) /\ covers r (left g) /\ covers r (right g)).
  { intros a b r H. apply match_and_true in H. destruct H as (m1 & H1 & H2).
    apply match_terms_matched in H1. apply match_terms_matched in H2.
    destruct H1 as [A1 A2 A3 A4], H2 as [B1 B2 B3 B4].
    rewrite (apply_extends m1 r (left g)) by auto. split; [auto|]. split; [eapply extends_trans; eauto|]. split; [auto|].
    split; [eapply covers_extends; eauto|auto]. }
  destruct (match_and (match_terms K gc sc m (left g) (left s)) _) as [[[] r]|] eqn:E1; [| |discriminate].
  - intros H. injection H as <-. apply G in E1. tauto.
  - destruct (match_and (match_terms K gc sc m (left g) (right s)) _) as [[[] r2]|] eqn:E2; try discriminate.
    intros H. injection H as <-. apply G in E2. tauto.
Qed.

Lemma lit_instance_extends m m' g s : extends m m' -> covers m (left g) -> covers m (right g) ->
  lit_instance m g s -> lit_instance m' g s.
Proof. intros H C1 C2. unfold lit_instance. rewrite !(apply_extends m m') by auto. auto. Qed.

Lemma match_from_spec K gc sc gs : forall m avail m', match_from K gc sc m gs avail = Some (Some m') ->
  length gs <= length avail /\ extends m m' /\ (closed_map m -> closed_map m') /\
  exists ss rest, Permutation avail (ss ++ rest) /\ Forall2 (lit_instance m') gs ss /\
    (forall g, In g gs -> covers m' (left g) /\ covers m' (right g)).
Proof.
  induction gs as [|g gr IH]; intros m avail m' H; cbn [match_from] in H.
  - injection H as <-. split; [simpl; lia|]. split; [apply extends_refl|]. split; [auto|].
    exists [], avail. split; [reflexivity|]. split; [constructor|]. intros g [].
  - assert (G : forall post pre, (fix try (pre post : list literal) : option (option vmap) :=
       match post with
       | [] => Some None
       | s :: r =>
         match literals_match K gc sc m g s with
         | None => None
         | Some (false, _) => try (pre ++ [s]) r
         | Some (true, m') =>
           match match_from K gc sc m' gr (pre ++ r) with
           | None => None
           | Some (Some m'') => Some (Some m'')
           | Some None => try (pre ++ [s]) r
           end
         end
       end) pre post = Some (Some m') ->
      exists s l1 l2 m1, pre ++ post = l1 ++ s :: l2 /\ literals_match K gc sc m g s = Some (true, m1) /\
        match_from K gc sc m1 gr (l1 ++ l2) = Some (Some m')).
    { induction post as [|s r IHp]; intros pre Hp; [discriminate|].
      destruct (literals_match K gc sc m g s) as [[[] m1]|] eqn:E; [| |discriminate].
      - destruct (match_from K gc sc m1 gr (pre ++ r)) as [[m2|]|] eqn:E2; [| |discriminate].
        + injection Hp as <-. exists s, pre, r, m1. auto.
        + apply IHp in Hp. rewrite <- app_assoc in Hp. exact Hp.
      - apply IHp in Hp. rewrite <- app_assoc in Hp. exact Hp. }
    apply G in H. clear G. destruct H as (s & l1 & l2 & m1 & E & Hl & Hm). simpl in E. subst avail.
    apply literals_match_spec in Hl. destruct Hl as (I1 & X1 & C1 & V1 & V2).
    apply IH in Hm. destruct Hm as (L & X2 & C2 & ss & rest & P & F & V).
    split; [rewrite !app_length in *; simpl; lia|]. split; [eapply extends_trans; eauto|]. split; [auto|].
    exists (s :: ss), rest. split; [|split].
    + rewrite <- Permutation_middle. simpl. constructor. auto.
    + constructor; auto. eapply lit_instance_extends; eauto.
    + intros g' [<-|Hg]; [|auto]. split; eapply covers_extends; eauto.
Qed.

(** The literals of the special clause are, in some order, the instances of those of the general one. *)
Theorem clause_match_witness : forall K g s m, clause_matches K g s = Some (Some m) ->
  (forall i t, vget m i = Some t -> lc t) /\
  exists ss, Permutation (literals s) ss /\ Forall2 (lit_instance m) (literals g) ss /\
    forall l i, In l (literals g) -> In i (vars (left l) ++ vars (right l)) -> vget m i <> None.
Proof.
  intros K g s m H. unfold clause_matches in H.
  destruct (Nat.eqb_spec (length (literals g)) (length (literals s))) as [E|E]; [|discriminate]. cbn [negb] in H.
  apply match_from_spec in H. destruct H as (_ & _ & C & ss & rest & P & F & V). split.
  - apply C. intros i t Hi. unfold vget in Hi. destruct i; discriminate.
  - assert (rest = []) as ->.
    { apply Permutation_length in P. rewrite app_length in P. assert (L : length (literals g) = length ss) by (clear - F; induction F; simpl; congruence).
      destruct rest; auto. simpl in P. lia. }
    rewrite app_nil_r in P. exists ss. split; [auto|]. split; [auto|].
    intros l i Hl Hi. apply in_app_or in Hi. destruct (V l Hl) as [V1 V2]. destruct Hi; auto.
Qed.
Print Assumptions clause_match_witness.

(** The special clause follows if the replacements have the types of the variables they replace and
    every variable of the context is mapped or may stay. *)
Theorem clause_match_sound_partial : forall K g s m, clause_matches K g s = Some (Some m) ->
  forall M, valid M g -> clause_wt M g ->
  (forall rho, valid_env M (context s) rho ->
     valid_env M (context g) (fun i => match vget m i with Some r => ev M rho r | None => rho i end) /\
     forall i r, vget m i = Some r -> wt M rho r) ->
  valid M s.
Proof.
  intros K g s m H M V W HT rho Hrho. destruct (clause_match_witness K g s m H) as (C & ss & P & F & _).
  destruct (HT rho Hrho) as [Ve Wr]. change (valid_env M (context g) (via M m rho)) in Ve.
  destruct (V _ Ve) as (l & Hl & Hh). pose proof (W _ Ve l Hl) as [W1 W2].
  assert (Hs : exists l', In l' ss /\ lit_instance m l l').
  { clear - F Hl. induction F as [|a b la lb Hab F IH]; [contradiction|].
    destruct Hl as [->|Hl]; [exists b; split; [left|]; auto|]. destruct (IH Hl) as (l' & H1 & H2). exists l'. split; [right|]; auto. }
  destruct Hs as (l' & Hl' & Ep & Hi). exists l'. split; [eapply Permutation_in; [symmetry; eauto|auto]|].
  assert (G : forall t t', swtg M (anydom M) (via M m rho) (nobs M) t -> swapeq (apply_to_term m t) t' ->
    ev M rho t' = ev M (via M m rho) t).
  { intros t t' Wt Hs. unfold ev. rewrite <- (eval_apply M m t C).
    apply (swapeq_sound M (anydom M) _ _ Hs rho (nobs M)). apply swt_apply; auto.
    intros i r _ Hr. apply (Wr i r Hr). }
  unfold lit_holds in *. rewrite <- Ep. destruct Hi as [[S1 S2]|[S1 S2]]; rewrite (G _ _ W1 S1), (G _ _ W2 S2); auto.
  destruct (positive l); congruence.
Qed.
Print Assumptions clause_match_sound_partial.

Example clause_match_sound_case :
  clause_matches in_K in_cl in_result = Some (Some [Some in_unit; Some (TVar 3); Some (TVar 4)]) /\ valid in_M in_result.
Proof.
  assert (E : clause_matches in_K in_cl in_result = Some (Some [Some in_unit; Some (TVar 3); Some (TVar 4)]))
    by (vm_compute; reflexivity).
  split; [exact E|]. apply (clause_match_sound_partial in_K in_cl in_result _ E in_M in_valid in_wt).
  intros rho H. split.
  - pose proof (H 3 _ eq_refl) as H3. pose proof (H 4 _ eq_refl) as H4. vm_compute in H3, H4.
    intros i T Hi. destruct i as [|[|[|i]]]; unfold get_var_type in Hi; simpl in Hi;
      try (injection Hi as <-; vm_compute; tauto). destruct i; discriminate.
  - intros [|[|[|[|i]]]] r Hr; unfold vget in Hr; simpl in Hr; try discriminate; injection Hr as <-; vm_compute; tauto.
Qed.

(** The types are compared while the map is still incomplete, so a type variable met later may break
    them: matching [(x1(x2) or not x1(x2)) and f(x0)], where [x1 : x0 -> Bool] and [x2 : x0], against
    the same with [f(unit)], where [x1] and [x2] still have the types with [x0].  First [x1] and [x2]
    are mapped to themselves, their types being literally equal, then [x0] to [unit].  With the
    one-element type replaced by an empty one, "all types with an element satisfy [f]" is taken to
    imply "the empty type satisfies [f]". *)
Definition mm_lit (T : term) : literal :=
  Lit true (TApp (TApp (TSym SAnd) (TApp (TApp (TSym SOr) (TApp (TVar 1) (TVar 2))) (TApp (TSym SNot) (TApp (TVar 1) (TVar 2)))))
                 (in_f T)) ttrue.
Definition mm_ctx : lctx := [Some type0; Some (TBind KPi (TVar 0) tbool); Some (TVar 0)].
Definition mm_general := Clause [mm_lit (TVar 0)] mm_ctx.
Definition mm_special := Clause [mm_lit in_unit] mm_ctx.
Definition mm_sorts (k : N) : list V := [VBool; VBase 0 0 0].
Definition mm_I (s : symbol) : V :=
  match s with
  | SType _ _ => VBase 0 0 0
  | SGlobal _ i => if N.eqb i 0 then VFun (VSort 0) [VTrue; VFalse] else VTrue
  | _ => VTrue
  end.
Definition mm_M : Model := fin_model mm_sorts mm_I.
Lemma mm_respects : respects mm_M in_K.
Proof.
  apply fin_respects.
  - left; reflexivity.
  - intros x Hx. vm_compute in Hx. repeat (destruct Hx as [<-|Hx]; [exact Logic.I|]). contradiction.
  - intros; exact Logic.I.
  - intros m i rho. cbn [in_K k_global]. destruct (N.eqb i 0); vm_compute; tauto.
  - intros; exact Logic.I.
  - intros m i rho. vm_compute. tauto.
  - intros m i rho. cbn [mm_I in_K k_global]. destruct (N.eqb_spec i 0) as [->|H0]; vm_compute; tauto.
  - intros i rho. vm_compute; tauto.
Qed.

Theorem clause_match_sound_refuted : exists K M g s m,
  clause_matches K g s = Some (Some m) /\ normalized g = Some g /\ normalized s = Some s /\ respects M K /\
  clause_wt M g /\ clause_wt M s /\ valid M g /\ ~ valid M s.
Proof.
  exists in_K, mm_M, mm_general, mm_special. eexists. split; [vm_compute; reflexivity|].
  split; [vm_compute; reflexivity|]. split; [vm_compute; reflexivity|]. split; [exact mm_respects|].
  assert (E : forall rho, valid_env mm_M mm_ctx rho -> rho 0 = VBool /\ (rho 2 = VTrue \/ rho 2 = VFalse) /\
    exists a b, rho 1 = VFun VBool [a; b] /\ (a = VTrue \/ a = VFalse) /\ (b = VTrue \/ b = VFalse)).
  { intros rho H. pose proof (H 0 _ eq_refl) as H0. pose proof (H 1 _ eq_refl) as H1. pose proof (H 2 _ eq_refl) as H2.
    vm_compute in H0. destruct H0 as [E0|[E0|[]]]; symmetry in E0; cbn [ev eval] in H1, H2.
    - split; auto. unfold ev in H1, H2. cbn [eval] in H1, H2. rewrite E0 in H1, H2. vm_compute in H1, H2.
      split; [intuition|].
      repeat (destruct H1 as [H1|H1]; [rewrite <- H1; do 2 eexists; split; [reflexivity|tauto]|]). contradiction.
    - exfalso. unfold ev in H2. cbn [eval] in H2. rewrite E0 in H2. vm_compute in H2. tauto. }
  split; [|split; [|split]].
  - intros rho H l [<-|[]]. destruct (E rho H) as (E0 & E2 & a & b & E1 & Ha & Hb).
    split; unfold wt, swt; [|exact Logic.I]. unfold mm_lit, in_f. cbn [swtg left eval]. rewrite E0, E1.
    destruct E2 as [->| ->], Ha as [->| ->], Hb as [->| ->]; vm_compute; tauto.
  - intros rho H l [<-|[]]. destruct (E rho H) as (E0 & E2 & a & b & E1 & Ha & Hb).
    split; unfold wt, swt; [|exact Logic.I]. unfold mm_lit, in_f. cbn [swtg left eval]. rewrite E1.
    destruct E2 as [->| ->], Ha as [->| ->], Hb as [->| ->]; vm_compute; tauto.
  - intros rho H. destruct (E rho H) as (E0 & E2 & a & b & E1 & Ha & Hb).
    eexists. split; [left; reflexivity|]. unfold lit_holds, mm_lit, ev, in_f. cbn [positive left right eval]. rewrite E0, E1.
    destruct E2 as [->| ->], Ha as [->| ->], Hb as [->| ->]; vm_compute; tauto.
  - intros H. destruct (H (fun i => match i with 0 => VBool | 1 => VFun VBool [VTrue; VTrue] | _ => VTrue end)) as (l & [<-|[]] & L).
    + intros i T Hi. destruct i as [|[|[|i]]]; unfold get_var_type in Hi; simpl in Hi;
        try (injection Hi as <-; vm_compute; tauto). destruct i; discriminate.
    + vm_compute in L. discriminate.
Qed.
Print Assumptions clause_match_sound_refuted.
