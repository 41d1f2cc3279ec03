(** Property C10: boolean reductions of a clause follow from it. *)
From Coq Require Import List Arith NArith Bool Lia.
Import ListNotations.
From Verif Require Import Term LocalContext Semantics TermProofs SemFacts FiniteModel Kbo
  Literal Clause ClauseSem RenumberProofs ClauseProofs ClauseWf Typing TypingProofs FiniteTyping InferenceProofs
  BoolReduction BoolReductionProofs.

(** Whatever the kind and the literal, the clause before normalization holds in every interpretation
    in which the reduced clause holds.  ([reducible] collects what the kernel keeps true of clauses:
    scoped, well typed, the sides of a literal of the same type.) *)
Theorem boolean_reduction_sound :
  forall fuel K cl k i ls c, reduced_literals fuel K cl k i = Some (Some (ls, c)) ->
  forall M, respects M K -> reducible M K cl -> valid M cl -> valid M (Clause ls c).
Proof. intros fuel K cl k i ls c H M R RD V. exact (proj1 (reduced_literals_sound M _ _ _ _ _ _ _ H R RD V)). Qed.
Print Assumptions boolean_reduction_sound.

(** The result the code returns is normalized.  If normalization keeps all variables, the result holds too. *)
Theorem normalized_boolean_reduction_sound :
  forall fuel K cl k i cl' ids c, boolean_reduction_at fuel K cl k i = Some (Some (cl', ids, c)) ->
  length (context cl') = length c ->
  forall M, respects M K -> reducible M K cl -> valid M cl -> valid M cl' /\ clause_wt M cl'.
Proof.
  intros fuel K cl k i cl' ids c H L M R RD V. unfold boolean_reduction_at in H.
  destruct (reduced_literals fuel K cl k i) as [[[ls c0]|]|] eqn:E; try discriminate.
  destruct (normalize_boolean_reduction ls c0 (length (context cl))) as [[[d i'] c1]|] eqn:En; [|discriminate].
  injection H as <- <- <-. destruct (normalize_reduction_faithful _ _ _ _ _ _ En) as [F ->].
  destruct (reduced_literals_sound M _ _ _ _ _ _ _ E R RD V) as [V' W'].
  destruct (faithful_preserves M _ _ _ F W' (faithful_all_kept M _ _ _ F L)). auto.
Qed.
Print Assumptions normalized_boolean_reduction_sound.

(** In general it holds where the variable types of the context have elements. *)
Theorem normalized_boolean_reduction_sound_partial :
  forall fuel K cl k i cl' ids c, boolean_reduction_at fuel K cl k i = Some (Some (cl', ids, c)) ->
  validate_variable_ordering c = true ->
  forall M, inhabited_in_order M c -> respects M K -> reducible M K cl -> valid M cl -> valid M cl' /\ clause_wt M cl'.
Proof.
  intros fuel K cl k i cl' ids c H O M I R RD V. unfold boolean_reduction_at in H.
  destruct (reduced_literals fuel K cl k i) as [[[ls c0]|]|] eqn:E; try discriminate.
  destruct (normalize_boolean_reduction ls c0 (length (context cl))) as [[[d i'] c1]|] eqn:En; [|discriminate].
  injection H as <- <- <-. destruct (normalize_reduction_faithful _ _ _ _ _ _ En) as [F ->].
  destruct (reduced_literals_sound M _ _ _ _ _ _ _ E R RD V) as [V' W'].
  destruct (faithful_preserves M _ _ _ F W' (inhabited_completable M _ _ O I (faithful_closed _ _ _ F))). auto.
Qed.
Print Assumptions normalized_boolean_reduction_sound_partial.

(** The reductions that proof search finds are the ones the checker reproduces from kind and position. *)
Theorem found_reductions_are_reproduced :
  forall fuel K cl found k i t, find_boolean_reductions fuel K cl = Some found -> In (k, i, t) found ->
  boolean_reduction_at fuel K cl k i = Some (Some t).
Proof. exact find_reductions_at. Qed.
Print Assumptions found_reductions_are_reproduced.

(** Opening a quantifier over an empty type: [forall(x: E) { false }] holds if [E] is empty, and the
    reduction gives [false]. *)
Definition br_K : kctx :=
  {| k_type := fun _ _ => type0;
     k_global := fun _ i => if N.eqb i 0 then tarrow tbool tbool else if N.eqb i 1 then tarrow tbool tbool else tbool;
     k_scoped := fun _ => tbool;
     k_instance := fun _ _ _ => false; k_extends := fun _ _ => false; k_value_params := fun _ => false |}.
Definition br_E := TSym (SType 0 0).
Definition br_sorts (k : N) : list V := [VBool; VBase 0 0 0].
Definition br_I (s : symbol) : V :=
  match s with
  | SType _ _ => VBase 0 0 0
  | SGlobal _ i => if N.eqb i 0 then VFun VBool [VTrue; VFalse] else if N.eqb i 1 then VFun VBool [VTrue; VTrue] else VTrue
  | _ => VTrue
  end.
Definition br_M : Model := fin_model br_sorts br_I.
Definition br_vacuous : clause := Clause [Lit true (TBind KAll br_E tfalse) ttrue] [].

Lemma br_respects : respects br_M br_K.
Proof.
  apply fin_respects.
  - left; reflexivity.
  - intros x Hx. vm_compute in Hx. repeat (destruct Hx as [<-|Hx]; [exact Logic.I|]). contradiction.
  - intros; exact Logic.I.
  - intros m i rho. cbn [br_K k_global]. destruct (N.eqb i 0), (N.eqb i 1); vm_compute; tauto.
  - intros; exact Logic.I.
  - intros m i rho. vm_compute. tauto.
  - intros m i rho. cbn [br_I br_K k_global]. destruct (N.eqb_spec i 0) as [->|H0]; [vm_compute; tauto|].
    destruct (N.eqb_spec i 1) as [->|H1]; vm_compute; tauto.
  - intros i rho. vm_compute; tauto.
Qed.

Theorem normalized_boolean_reduction_refuted :
  exists K cl k i cl' ids c M, boolean_reduction_at 5 K cl k i = Some (Some (cl', ids, c)) /\
    respects M K /\ reducible M K cl /\ valid M cl /\ ~ valid M cl'.
Proof.
  exists br_K, br_vacuous, PositiveForallOpen, 0, (Clause [Lit true tfalse ttrue] []), [], [Some br_E], br_M.
  split; [vm_compute; reflexivity|]. split; [exact br_respects|]. split; [|split].
  - constructor.
    + constructor.
      * intros l v [<-|[]] Hv. vm_compute in Hv. tauto.
      * intros v d H. unfold deps in H. destruct v; vm_compute in H; tauto.
    + intros rho H l [<-|[]]. split; [|exact I]. vm_compute. tauto.
    + intros rho H i T HT. destruct i; discriminate.
    + intros l [<-|[]]. split; [exists tbool; vm_compute; auto|]. vm_compute. auto.
  - intros rho H. eexists. split; [left; reflexivity|]. vm_compute. reflexivity.
  - intros H. destruct (H (fun _ => VJunk)) as (l & [<-|[]] & E).
    + intros i T Hi. destruct i; discriminate.
    + vm_compute in E. discriminate.
Qed.
Print Assumptions normalized_boolean_reduction_refuted.

(** Case: [forall(x: Bool) { p(x) = x } or p != q] (with [p] the identity and [q] constant) opens to
    [p(x0) = x0 or p != q], and by its second literal reduces to an existential. *)
Definition br_p := TSym (SGlobal 0 0).
Definition br_q := TSym (SGlobal 0 1).
Definition br_ex : clause :=
  Clause [Lit true (TBind KAll tbool (teq tbool (TApp br_p (TBound 0)) (TBound 0))) ttrue; Lit false br_q br_p] [].
Example boolean_reduction_case :
  boolean_reduction_at 9 br_K br_ex PositiveForallOpen 0 =
    Some (Some (Clause [Lit false br_q br_p; Lit true (TApp br_p (TVar 0)) (TVar 0)] [Some tbool], [0], [Some tbool])) /\
  reduced_literals 9 br_K br_ex FunctionInequalityToExists 1 =
    Some (Some ([Lit true (TBind KAll tbool (teq tbool (TApp br_p (TBound 0)) (TBound 0))) ttrue;
                 Lit true (TBind KEx tbool (tnot (teq tbool (TApp br_q (TBound 0)) (TApp br_p (TBound 0))))) ttrue], [])) /\
  option_map (map fst) (find_boolean_reductions 9 br_K br_ex) =
    Some [(PositiveForallOpen, 0); (FunctionInequalityToExists, 1)] /\
  respects br_M br_K /\ reducible br_M br_K br_ex /\ valid br_M br_ex.
Proof.
  split; [vm_compute; reflexivity|]. split; [vm_compute; reflexivity|]. split; [vm_compute; reflexivity|].
  split; [exact br_respects|]. split.
  - constructor.
    + constructor.
      * intros l v [<-|[<-|[]]] Hv; vm_compute in Hv; tauto.
      * intros v d H. unfold deps in H. destruct v; vm_compute in H; tauto.
    + intros rho H l [<-|[<-|[]]]; [|split; exact I]. split; [|exact I].
      split; [exact I|]. split; [split; [exact I|discriminate]|]. intros x Hx.
      assert (Ex : x = VTrue \/ x = VFalse) by (vm_compute in Hx; intuition).
      cbn [swtg teq eval]. split; [|destruct Ex as [-> | ->]; vm_compute; tauto].
      destruct Ex as [-> | ->]; vm_compute; tauto.
    + intros rho H i T HT. destruct i; discriminate.
    + intros l [<-|[<-|[]]]; (split; [eexists; vm_compute; eauto|vm_compute; auto]).
  - intros rho H. eexists. split; [left; reflexivity|]. vm_compute. reflexivity.
Qed.

(** Case: if-then-else under a lambda. *)
Example ite_case :
  simplify_ite 9 (TApp (TBind KLam tbool (tite tbool (TBound 0) br_E tfalse)) ttrue) = Some br_E /\
  simplify_ite 9 (tite tbool br_p br_q br_q) = Some br_q.
Proof. vm_compute. auto. Qed.
