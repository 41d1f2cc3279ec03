(** Property C05: clause normalization keeps the meaning. *)
From Coq Require Import List Arith NArith Bool Lia.
Import ListNotations.
From Verif Require Import Term LocalContext Semantics TermProofs SemFacts FlatTerm Kbo TermNorm FiniteModel
  Literal Clause ClauseSem RenumberProofs ClauseProofs ClauseWf.

(** The clauses the code builds from a clause: by [normalized], [new], [normalized_preserving_locals]
    (all [normalize_with_pinned]), by the traced variants, and by canonicalization. *)
Definition normal_form_of (c c' : clause) : Prop :=
  (exists pinned, normalize_with_pinned pinned c = Some c') \/
  (exists pinned ids, normalize_with_trace_pinned (literals c) (context c) pinned = Some (c', ids)) \/
  (exists pinned, canonicalize_with_pinned pinned c = Some c').

Lemma normal_form_faithful c c' : normal_form_of c c' -> exists ids, faithful c c' ids.
Proof.
  intros [(p & H)|[(p & ids & H)|(p & H)]].
  - eapply normalize_faithful; eauto.
  - exists ids. replace c with (Clause (literals c) (context c)) by (destruct c; auto).
    eapply prefilled_faithful; [|exact H]. apply seq_NoDup.
  - eapply canonicalize_faithful; eauto.
Qed.

(** If the normalized clause holds in an interpretation, so did the original: proving the
    normalized clause proves the original. *)
Theorem normalization_reflects_validity :
  forall c c', normal_form_of c c' ->
  forall M, clause_wt M c -> valid M c' -> valid M c.
Proof. intros c c' H M. destruct (normal_form_faithful _ _ H) as [ids F]. exact (faithful_reflects M c c' ids F). Qed.
Print Assumptions normalization_reflects_validity.

(** If the normalized clause lists as many variables as the original, both have the same models,
    whatever types are empty. *)
Theorem normalization_keeps_models :
  forall c c', normal_form_of c c' -> length (context c') = length (context c) ->
  forall M, clause_wt M c -> (valid M c <-> valid M c') /\ clause_wt M c'.
Proof.
  intros c c' H L M W. destruct (normal_form_faithful _ _ H) as [ids F].
  destruct (faithful_preserves M c c' ids F W (faithful_all_kept M c c' ids F L)).
  split; [split|]; auto. exact (faithful_reflects M c c' ids F W).
Qed.
Print Assumptions normalization_keeps_models.

(** In general normalization drops the variables that are not mentioned.  The models stay the same
    where all variable types have elements. *)
Theorem normalization_keeps_models_partial :
  forall c c', normal_form_of c c' -> validate_variable_ordering (context c) = true ->
  forall M, clause_wt M c -> inhabited_in_order M (context c) -> (valid M c <-> valid M c') /\ clause_wt M c'.
Proof.
  intros c c' H O M W I. destruct (normal_form_faithful _ _ H) as [ids F].
  destruct (faithful_preserves M c c' ids F W
    (inhabited_completable M _ ids O I (faithful_closed _ _ _ F))).
  split; [split|]; auto. exact (faithful_reflects M c c' ids F W).
Qed.
Print Assumptions normalization_keeps_models_partial.

(** Without that, not: the clause [false] with an unused variable of an empty type holds vacuously,
    and normalizing it gives the clause [false] of no variables. *)
Definition empty_A := TSym (SType 0 0).
Definition empty_M : Model := fin_model (fun _ => [VBool; VBase 0 0 0]) (fun _ => VBase 0 0 0).
Definition vacuous : clause := Clause [Lit true tfalse ttrue] [Some empty_A].

Theorem normalization_keeps_models_refuted :
  exists c c' M, normalized c = Some c' /\ validate_variable_ordering (context c) = true /\
    clause_wt M c /\ valid M c /\ ~ valid M c'.
Proof.
  exists vacuous, (Clause [Lit true tfalse ttrue] []), empty_M.
  split; [vm_compute; reflexivity|]. split; [reflexivity|]. split; [|split].
  - intros rho H l [<-|[]]. split; exact I.
  - intros rho H. specialize (H 0 _ eq_refl). vm_compute in H. tauto.
  - intros H. specialize (H (fun _ => VJunk)). destruct H as (l & [<-|[]] & E).
    + intros i T Hi. destruct i; discriminate.
    + vm_compute in E. discriminate.
Qed.
Print Assumptions normalization_keeps_models_refuted.

(** A clause in normal form that is reported as a tautology holds under every assignment. *)
Theorem tautologies_hold :
  forall c0 pinned c, normalize_with_pinned pinned c0 = Some c -> is_tautology c = true ->
  forall M rho, cholds M rho (literals c).
Proof.
  intros c0 pinned c H T M rho. apply tautology_sound; auto. revert H. unfold normalize_with_pinned.
  destruct (normalize_var_ids_with_pinned pinned (Clause (normalize_literals (literals c0)) (context c0)))
    as [[c1 ?]|]; [|discriminate].
  destruct (normalize_var_ids_with_pinned pinned (Clause (normalize_literals (literals c1)) (context c1)))
    as [[c2 ?]|]; [|discriminate].
  intros H; injection H as <-. apply dedup_negatives_first, sort_negatives_first.
Qed.
Print Assumptions tautologies_hold.

(** The test relies on the order: on an unsorted clause it takes the negative literals after the
    first positive one for positive. *)
Theorem tautology_of_unsorted_clause_refuted :
  exists c, is_tautology c = true /\ context c = [] /\ exists M, ~ valid M c.
Proof.
  pose (p := TSym (SGlobal 0 0)). pose (q := TSym (SGlobal 0 1)).
  exists (Clause [Lit false p ttrue; Lit true q ttrue; Lit false p ttrue] []). split; [reflexivity|]. split; [reflexivity|].
  exists (fin_model (fun _ => [VBool]) (fun s => match s with SGlobal 0 0 => VTrue | _ => VFalse end)%N).
  intros H. destruct (H (fun _ => VJunk)) as (l & Hl & E).
  - intros i T Hi. destruct i; discriminate.
  - destruct Hl as [<-|[<-|[<-|[]]]]; vm_compute in E; congruence.
Qed.
Print Assumptions tautology_of_unsorted_clause_refuted.

(** Normalization does not panic on a clause all of whose variables have types, if the types do not
    depend on each other in a circle and the pinned variables' types use only earlier pinned ones. *)
Theorem normalization_total :
  forall c pinned, scoped c -> acyclic (context c) -> deps_first (context c) (seq 0 pinned) ->
  (forall v, v < pinned -> exists T, get_var_type (context c) v = Some T) ->
  exists c', normalize_with_pinned pinned c = Some c' /\ validate_variable_ordering (context c') = true /\ scoped c'.
Proof. intros c pinned S A D P. apply normalize_total; auto. Qed.
Print Assumptions normalization_total.

(** Case: [not not g(x1) = x0 or c != c or x1 = x1] with a superfluous variable [x2]; the impossible
    literal goes, variables are renumbered, and the rest is a tautology. *)
Definition cl_g := TSym (SGlobal 0 0).
Definition cl_c := TSym (SGlobal 0 1).
Definition cl_ex : clause :=
  Clause [Lit true (tnot (tnot (teq empty_A (TApp cl_g (TVar 1)) (TVar 0)))) ttrue; Lit false cl_c cl_c;
          Lit true (TVar 1) (TVar 1)]
         [Some empty_A; Some empty_A; Some empty_A].
Example normalization_clause_case :
  normalized cl_ex =
    Some (Clause [Lit true (TApp cl_g (TVar 0)) (TVar 1); Lit true (TVar 0) (TVar 0)]
                 [Some empty_A; Some empty_A]) /\
  option_map is_tautology (normalized cl_ex) = Some true /\
  validate_variable_ordering (context cl_ex) = true /\ scoped cl_ex.
Proof.
  split; [vm_compute; reflexivity|]. split; [vm_compute; reflexivity|]. split; [reflexivity|].
  constructor.
  - intros l v [<-|[<-|[<-|[]]]] Hv; vm_compute in Hv; intuition; subst; eexists; reflexivity.
  - intros v d H. unfold deps in H. destruct v as [|[|[|v]]]; simpl in H; try tauto.
    unfold get_var_type in H. simpl in H. destruct v; simpl in H; tauto.
Qed.

Definition cl_I (s : symbol) : V :=
  match s with
  | SType _ _ => VBase 0 0 2
  | SGlobal 0 0 => VFun (VBase 0 0 2) [VElt 0 0 2 1; VElt 0 0 2 0]
  | _ => VElt 0 0 2 0
  end%N.
Definition cl_M : Model := fin_model (fun _ => [VBool; VBase 0 0 2]) cl_I.
Example normalization_clause_hypotheses_case :
  clause_wt cl_M cl_ex /\ inhabited_in_order cl_M (context cl_ex) /\ valid cl_M cl_ex.
Proof.
  assert (K : forall rho, valid_env cl_M (context cl_ex) rho -> forall i, i < 3 ->
     rho i = VElt 0 0 2 0 \/ rho i = VElt 0 0 2 1).
  { intros rho H i Hi. assert (Hm : mem cl_M (rho i) (VBase 0 0 2)).
    { destruct i as [|[|[|i]]]; try lia;
        [exact (H 0 empty_A eq_refl)|exact (H 1 empty_A eq_refl)|exact (H 2 empty_A eq_refl)]. }
    vm_compute in Hm. intuition. }
  split; [|split].
  - intros rho H l [<-|[<-|[<-|[]]]]; unfold lit_wt, wt, swt;
      cbn [swtg left right tnot teq empty_A cl_g cl_c];
      repeat split; try exact I; try (vm_compute; tauto);
      destruct (K rho H 0 ltac:(lia)) as [E|E], (K rho H 1 ltac:(lia)) as [E'|E']; cbn [eval tnot teq];
      try rewrite E; try rewrite E'; vm_compute; tauto.
  - intros rho i T _ HT. exists (VElt 0 0 2 0). destruct i as [|[|[|i]]]; try (injection HT as <-; vm_compute; tauto).
    unfold get_var_type in HT. simpl in HT. destruct i; discriminate.
  - intros rho H. exists (Lit true (TVar 1) (TVar 1)). split; [right; right; left; reflexivity|reflexivity].
Qed.
