(** Property C09: the extensionality inference is sound. *)
From Coq Require Import List Arith NArith Bool Lia.
Import ListNotations.
From Verif Require Import Term LocalContext Semantics TermProofs SemFacts FlatTerm Kbo TermNorm FiniteModel
  Typing TypingProofs FiniteTyping Literal Clause ClauseSem RenumberProofs ClauseProofs ClauseWf Inference InferenceProofs
  P_Clause.

(** From [f(a, x) = g(b, x) or C] follows [f(a) = g(b) or C], in every interpretation that respects the
    types of the constants, if no vanishing variable is used in the type of a remaining one (the code
    does not check this). *)
Theorem extensionality_sound_partial :
  forall K c ls, find_extensionality K c = Some (Some ls) ->
  kclosed K -> scoped c -> plain_heads (literals c) ->
  (forall v w T, vanishes c ls v -> get_var_type (context c) w = Some T -> In v (vars T) -> vanishes c ls w) ->
  forall M, respects M K -> clause_wt M c -> valid M c -> valid M (Clause ls (context c)).
Proof. intros K c ls H HK S A V M R W. apply (extensionality_sound M K c ls H HK R S A V W). Qed.
Print Assumptions extensionality_sound_partial.

(** In particular when no type mentions a variable. *)
Theorem monomorphic_extensionality_sound :
  forall K c ls, find_extensionality K c = Some (Some ls) ->
  kclosed K -> scoped c -> plain_heads (literals c) ->
  (forall w T, get_var_type (context c) w = Some T -> vars T = []) ->
  forall M, respects M K -> clause_wt M c -> valid M c -> valid M (Clause ls (context c)).
Proof.
  intros K c ls H HK S A V M R W. apply (extensionality_sound M K c ls H HK R S A); auto.
  intros v w T _ HT Hv. rewrite (V _ _ HT) in Hv. contradiction.
Qed.
Print Assumptions monomorphic_extensionality_sound.

(** Without the condition it fails: [f(x0) = g(x0) or x1 = x2] for a type [x0] and [x1, x2] of that type
    holds if [f] and [g] agree on the types with two elements, but [f = g or x1 = x2] does not. *)
Definition ex_f := TSym (SGlobal 0 0).
Definition ex_g := TSym (SGlobal 0 1).
Definition ex_K : kctx :=
  {| k_type := fun _ _ => type0;
     k_global := fun _ i => if N.leb i 1 then TBind KPi type0 tbool else tbool;
     k_scoped := fun _ => tbool;
     k_instance := fun _ _ _ => false; k_extends := fun _ _ => false; k_value_params := fun _ => false |}.
Definition ex_sorts (k : N) : list V := [VBool; VBase 0 0 1].
Definition ex_I (s : symbol) : V :=
  match s with
  | SType _ _ => VBase 0 0 1
  | SGlobal _ i => if N.eqb i 0 then VFun (VSort 0) [VTrue; VTrue]
                   else if N.eqb i 1 then VFun (VSort 0) [VTrue; VFalse] else VTrue
  | _ => VTrue
  end.
Definition ex_M : Model := fin_model ex_sorts ex_I.
Definition ex_bad : clause :=
  Clause [Lit true (TApp ex_f (TVar 0)) (TApp ex_g (TVar 0)); Lit true (TVar 1) (TVar 2)]
         [Some type0; Some (TVar 0); Some (TVar 0)].
Lemma ex_respects : respects ex_M ex_K.
Proof.
  apply fin_respects.
  - left; reflexivity.
  - intros x Hx. vm_compute in Hx. repeat (destruct Hx as [<-|Hx]; [exact Logic.I|]). contradiction.
  - intros; exact Logic.I.
  - intros m i rho. cbn [ex_K k_global]. destruct (N.leb i 1); vm_compute; tauto.
  - intros; exact Logic.I.
  - intros m i rho. vm_compute. tauto.
  - intros m i rho. cbn [ex_I ex_K k_global]. destruct (N.eqb_spec i 0) as [->|H0]; [vm_compute; tauto|].
    destruct (N.eqb_spec i 1) as [->|H1]; [vm_compute; tauto|].
    destruct (N.leb_spec i 1); [lia|]. vm_compute; tauto.
  - intros i rho. vm_compute; tauto.
Qed.
Lemma ex_closed : kclosed ex_K.
Proof. intros []; try reflexivity. cbn [symbol_type ex_K k_global]. destruct (N.leb i 1); reflexivity. Qed.

Theorem extensionality_sound_refuted :
  exists K c ls M, find_extensionality K c = Some (Some ls) /\ kclosed K /\ scoped c /\ atomic_heads (literals c) /\
    validate_variable_ordering (context c) = true /\ respects M K /\ clause_wt M c /\
    valid M c /\ ~ valid M (Clause ls (context c)).
Proof.
  exists ex_K, ex_bad. eexists. exists ex_M.
  split; [vm_compute; reflexivity|]. split; [exact ex_closed|]. split.
  { constructor.
    - intros l v [<-|[<-|[]]] Hv; vm_compute in Hv; intuition; subst; eexists; reflexivity.
    - intros v d H. unfold deps in H. destruct v as [|[|[|v]]]; simpl in H; try tauto.
      + unfold vars in H; simpl in H. destruct H as [<-|[]]. eexists; reflexivity.
      + unfold vars in H; simpl in H. destruct H as [<-|[]]. eexists; reflexivity.
      + unfold get_var_type in H. simpl in H. destruct v; simpl in H; tauto. }
  split; [intros l [<-|[<-|[]]]; split; eexists; reflexivity|]. split; [reflexivity|]. split; [exact ex_respects|].
  assert (H0 : forall rho, valid_env ex_M (context ex_bad) rho -> rho 0 = VBool \/ rho 0 = VBase 0 0 1).
  { intros rho H. specialize (H 0 _ eq_refl). vm_compute in H. intuition. }
  split; [|split].
  - intros rho H l [<-|[<-|[]]]; split; unfold wt, swt; cbn [swtg left right ex_f ex_g]; try exact Logic.I;
      destruct (H0 rho H) as [E|E]; cbn [eval]; rewrite ?E; vm_compute; tauto.
  - intros rho H. destruct (H0 rho H) as [E|E].
    + eexists. split; [left; reflexivity|]. unfold lit_holds, ev. cbn [positive left right eval ex_f ex_g]. rewrite E. reflexivity.
    + eexists. split; [right; left; reflexivity|].
      pose proof (H 1 _ eq_refl) as H1. pose proof (H 2 _ eq_refl) as H2.
      unfold ev in H1, H2. cbn [eval] in H1, H2. rewrite E in H1, H2. vm_compute in H1, H2.
      unfold lit_holds, ev. cbn [positive left right eval]. destruct H1 as [<-|[]], H2 as [<-|[]]. reflexivity.
  - intros H. destruct (H (fun i => match i with 0 => VBool | 1 => VTrue | _ => VFalse end)) as (l & Hl & E).
    + intros i T Hi. destruct i as [|[|[|i]]]; simpl in Hi; try (injection Hi as <-; vm_compute; tauto).
      unfold get_var_type in Hi. simpl in Hi. destruct i; discriminate.
    + destruct Hl as [<-|[<-|[]]]; vm_compute in E; discriminate.
Qed.
Print Assumptions extensionality_sound_refuted.

(** Case: [h(b, x0) = k(x0) or x1 = b] peels [x0]; here [h] has two truth value arguments, [k] one. *)
Definition ex_K2 : kctx :=
  {| k_type := fun _ _ => type0;
     k_global := fun _ i => if N.eqb i 0 then tarrow tbool (tarrow tbool tbool)
                            else if N.eqb i 1 then tarrow tbool tbool else tbool;
     k_scoped := fun _ => tbool;
     k_instance := fun _ _ _ => false; k_extends := fun _ _ => false; k_value_params := fun _ => false |}.
Definition ex_b := TSym (SGlobal 0 2).
Definition ex_good : clause :=
  Clause [Lit true (TApp (TApp ex_f ex_b) (TVar 0)) (TApp ex_g (TVar 0)); Lit true (TVar 1) ex_b]
         [Some tbool; Some tbool].
Definition ex_I2 (s : symbol) : V :=
  match s with
  | SType _ _ => VBase 0 0 1
  | SGlobal _ i => if N.eqb i 0 then VFun VBool [VFun VBool [VTrue; VFalse]; VFun VBool [VFalse; VTrue]]
                   else if N.eqb i 1 then VFun VBool [VTrue; VFalse] else VTrue
  | _ => VTrue
  end.
Definition ex_M2 : Model := fin_model ex_sorts ex_I2.
Example extensionality_case :
  find_extensionality ex_K2 ex_good = Some (Some [Lit true (TApp ex_f ex_b) ex_g; Lit true (TVar 1) ex_b]) /\
  kclosed ex_K2 /\ scoped ex_good /\ atomic_heads (literals ex_good) /\ respects ex_M2 ex_K2 /\
  clause_wt ex_M2 ex_good /\ valid ex_M2 ex_good /\
  (forall w T, get_var_type (context ex_good) w = Some T -> vars T = []).
Proof.
  split; [vm_compute; reflexivity|]. split.
  { intros []; try reflexivity. cbn [symbol_type ex_K2 k_global]. destruct (N.eqb i 0), (N.eqb i 1); reflexivity. }
  assert (TT : forall w T, get_var_type (context ex_good) w = Some T -> T = tbool).
  { intros [|[|w]] T H; try (injection H as <-; reflexivity). unfold get_var_type in H. simpl in H. destruct w; discriminate. }
  assert (T0 : forall rho, valid_env ex_M2 (context ex_good) rho -> rho 0 = VTrue \/ rho 0 = VFalse).
  { intros rho H. specialize (H 0 _ eq_refl). vm_compute in H. intuition. }
  split.
  { constructor.
    - intros l v [<-|[<-|[]]] Hv; vm_compute in Hv; intuition; subst; eexists; reflexivity.
    - intros v d H. unfold deps in H. destruct (get_var_type (context ex_good) v) eqn:E; [|destruct H].
      apply TT in E. subst. destruct H. }
  split; [intros l [<-|[<-|[]]]; split; eexists; reflexivity|]. split.
  { apply fin_respects.
    - left; reflexivity.
    - intros x Hx. vm_compute in Hx. repeat (destruct Hx as [<-|Hx]; [exact Logic.I|]). contradiction.
    - intros; exact Logic.I.
    - intros m i rho. cbn [ex_K2 k_global]. destruct (N.eqb i 0), (N.eqb i 1); vm_compute; tauto.
    - intros; exact Logic.I.
    - intros m i rho. vm_compute. tauto.
    - intros m i rho. cbn [ex_I2 ex_K2 k_global]. destruct (N.eqb_spec i 0) as [->|H0]; [vm_compute; tauto|].
      destruct (N.eqb_spec i 1) as [->|H1]; vm_compute; tauto.
    - intros i rho. vm_compute; tauto. }
  split; [|split].
  - intros rho H l [<-|[<-|[]]]; split; unfold wt, swt; cbn [swtg left right ex_f ex_g ex_b]; try exact Logic.I;
      destruct (T0 rho H) as [E|E]; cbn [eval]; rewrite ?E; vm_compute; tauto.
  - intros rho H. eexists. split; [left; reflexivity|]. unfold lit_holds, ev. cbn [positive left right eval ex_f ex_g ex_b].
    destruct (T0 rho H) as [-> | ->]; reflexivity.
  - intros w T H. apply TT in H. subst. reflexivity.
Qed.

(** The side condition of the first theorem with types as variables: [f(x0, x1) = g(x0, x1)] for a
    type [x0] and [x1] of type [x0]; both vanish. *)
Definition ex_K3 : kctx :=
  {| k_type := fun _ _ => type0;
     k_global := fun _ _ => TBind KPi type0 (TBind KPi (TBound 0) tbool);
     k_scoped := fun _ => tbool;
     k_instance := fun _ _ _ => false; k_extends := fun _ _ => false; k_value_params := fun _ => false |}.
Definition ex_poly : clause :=
  Clause [Lit true (TApp (TApp ex_f (TVar 0)) (TVar 1)) (TApp (TApp ex_g (TVar 0)) (TVar 1))]
         [Some type0; Some (TVar 0)].
Example extensionality_types_case :
  find_extensionality ex_K3 ex_poly = Some (Some [Lit true ex_g ex_f]) /\
  (forall v w T, vanishes ex_poly [Lit true ex_g ex_f] v -> get_var_type (context ex_poly) w = Some T -> In v (vars T) ->
     vanishes ex_poly [Lit true ex_g ex_f] w).
Proof.
  split; [vm_compute; reflexivity|]. intros v w T _ HT Hv.
  destruct w as [|[|w]].
  - injection HT as <-. destruct Hv.
  - split; [|intros l [<-|[]] []]. eexists. split; [left; reflexivity|]. vm_compute. auto.
  - unfold get_var_type in HT. simpl in HT. destruct w; discriminate.
Qed.
