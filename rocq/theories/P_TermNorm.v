(** Property C06: term normalization keeps the meaning and is idempotent. *)
From Coq Require Import List Arith NArith Bool Lia.
Import ListNotations.
From Verif Require Import Term LocalContext Semantics TermProofs SemFacts FlatTerm Kbo TermNorm TermNormProofs FiniteModel.

(** Beta reduction of all subterms (used when specializing terms) keeps well-formedness and the
    value, in every interpretation and under every assignment. *)
Theorem beta_reduction_keeps_value :
  forall n t t', beta_reduce_subterms n t = Some t' ->
  forall (M : Model) rho, wt M rho t -> wt M rho t' /\ ev M rho t' = ev M rho t.
Proof. intros n t t' H M rho Hw. exact (beta_reduce_sound M (anydom M) n t t' rho (nobs M) H Hw). Qed.
Print Assumptions beta_reduction_keeps_value.

(** Full normalization also eta-reduces.  With the value of a lambda determined by its domain this
    is only right if the domain of the lambda is the domain of the function: guaranteed when every
    lambda ranges over an inhabited proper type and proper types are disjoint ([eta_model]). *)
Definition proper_inhabited (M : Model) (A : D M) : Prop :=
  mem M A (dsym M SType0) /\ exists x, mem M x A.

Theorem normalization_keeps_value_partial :
  forall n t t', normalize_term n t = Some t' ->
  forall (M : Model) rho, eta_model M -> swtg M (proper_inhabited M) rho (nobs M) t ->
  swtg M (proper_inhabited M) rho (nobs M) t' /\ ev M rho t' = ev M rho t.
Proof.
  intros n t t' H M rho He Hw.
  exact (normalize_term_sound M (proper_inhabited M) n (fun A h => h) He t t' rho (nobs M) H Hw).
Qed.
Print Assumptions normalization_keeps_value_partial.

(** The eta step does not look at the domain: a lambda over a typeclass that forwards to a function
    over all types turns into that function. *)
Definition eta_sorts (k : N) : list V := if N.eqb k 0 then [VBool; VBase 0 0 1] else [VBool].
Definition eta_I (s : symbol) : V :=
  match s with STypeclass _ _ => VSort 1 | _ => VFun (VSort 0) [VTrue; VTrue] end.
Definition eta_M : Model := fin_model eta_sorts eta_I.
Definition eta_t : term := TBind KLam (TSym (STypeclass 0 0)) (TApp (TSym (SGlobal 0 0)) (TBound 0)).

Lemma eta_M_eta : eta_model eta_M.
Proof.
  apply fin_model_eta.
  - intros k x. unfold eta_sorts. destruct (N.eqb k 0); simpl; intros; intuition; subst; exact I.
  - intros x. simpl. intros; intuition; subst; exact I.
Qed.

Theorem normalization_keeps_value_refuted :
  exists (M : Model) t t' n, eta_model M /\ wt M (nobs M) t /\ normalize_term n t = Some t' /\
    ev M (nobs M) t' <> ev M (nobs M) t.
Proof.
  exists eta_M, eta_t, (TSym (SGlobal 0 0)), 5. split; [exact eta_M_eta|]. split; [|split].
  - unfold wt, swt, eta_t. cbn [swtg]. repeat split; try exact I.
    vm_compute in H. destruct H as [<-|[]]. vm_compute. auto.
  - reflexivity.
  - discriminate.
Qed.
Print Assumptions normalization_keeps_value_refuted.

(** Normalizing again changes nothing (with any sufficient recursion depth). *)
Theorem normalization_idempotent :
  forall n t t', normalize_term n t = Some t' ->
  forall m, term_depth t' <= m -> normalize_term m t' = Some t'.
Proof. intros n t t' H m Hm. apply nf_normalize; auto. eapply normalize_term_nf; eauto. Qed.
Print Assumptions normalization_idempotent.

(** The clause form of a term: negations pushed inwards with De Morgan's laws. *)
Theorem clause_term_keeps_value :
  forall t (M : Model) rho, wt M rho t ->
  wt M rho (normalize_clause_term t) /\ ev M rho (normalize_clause_term t) = ev M rho t.
Proof. intros t M rho Hw. exact (clause_term_sound M (anydom M) t rho (nobs M) Hw). Qed.
Print Assumptions clause_term_keeps_value.

(** Under negative polarity it is the negation of the term. *)
Theorem negative_clause_term_is_negation :
  forall t (M : Model) rho, wt M rho t -> mem M (ev M rho t) (dsym M SBool) ->
  wt M rho (normalize_clause_term_with_polarity t false) /\
  mem M (ev M rho (normalize_clause_term_with_polarity t false)) (dsym M SBool) /\
  (ev M rho (normalize_clause_term_with_polarity t false) = dsym M STrue <->
   ev M rho t <> dsym M STrue).
Proof.
  intros t M rho Hw Hb.
  destruct (clause_polarity_sound M (anydom M) t false rho (nobs M) Hw (fun _ => Hb)) as [H1 H2].
  split; [exact H1|]. unfold ev in *. rewrite H2. simpl. split; [apply isb_not; auto|].
  apply bnot_true; auto.
Qed.
Print Assumptions negative_clause_term_is_negation.

(** A literal [t = true] with a sign, in clause form, says the same. *)
Theorem signed_clause_term_keeps_meaning :
  forall t pos (M : Model) rho, wt M rho t ->
  let r := normalize_signed_clause_term t pos in
  wt M rho (fst r) /\
  ((if snd r then ev M rho (fst r) = dsym M STrue else ev M rho (fst r) <> dsym M STrue) <->
   (if pos then ev M rho t = dsym M STrue else ev M rho t <> dsym M STrue)).
Proof. intros t pos M rho Hw. exact (signed_clause_term_sound M (anydom M) t pos rho (nobs M) Hw). Qed.
Print Assumptions signed_clause_term_keeps_meaning.

(** Cases.  [not not (x0 = (fun y => g(y))(c))] normalizes in one go: beta, eta below it, double
    negation, and the equality turned around. *)
Definition norm_A := TSym (SType 0 0).
Definition norm_c := TSym (SGlobal 0 1).
Definition norm_g := TSym (SGlobal 0 0).
Definition norm_t : term :=
  tnot (tnot (teq norm_A (TVar 0) (TApp (TBind KLam norm_A (TApp norm_g (TBound 0))) norm_c))).
Definition norm_I (s : symbol) : V :=
  match s with
  | SType _ _ => VBase 0 0 2
  | SGlobal 0 0 => VFun (VBase 0 0 2) [VElt 0 0 2 1; VElt 0 0 2 0]
  | _ => VElt 0 0 2 0
  end%N.
Definition norm_M : Model := fin_model (fun _ => [VBool; VBase 0 0 2]) norm_I.
Example normalization_case :
  normalize_term 9 norm_t = Some (teq norm_A (TApp norm_g norm_c) (TVar 0)) /\
  normalize_term 9 (TBind KLam norm_A (TApp norm_g (TBound 0))) = Some norm_g.
Proof. split; vm_compute; reflexivity. Qed.

Example normalization_hypotheses_case :
  eta_model norm_M /\ swtg norm_M (proper_inhabited norm_M) (fun _ => VElt 0 0 2 1) (nobs norm_M) norm_t.
Proof.
  split.
  - apply fin_model_eta.
    + intros k x. simpl. intros; intuition; subst; exact I.
    + intros x. simpl. intros; intuition; subst; exact I.
  - cbn [swtg norm_t tnot teq norm_A norm_c norm_g].
    repeat split; try exact I; try (vm_compute; tauto).
    exists (VElt 0 0 2 0). vm_compute; tauto.
Qed.

Example clause_term_case :
  let p := TApp (TSym (SGlobal 0 2)) (TBound 0) in
  normalize_clause_term (tnot (TBind KAll norm_A (tand p (tnot p))))
  = TBind KEx norm_A (tor (tnot p) p) /\
  normalize_signed_clause_term (tnot (tor tfalse ttrue)) true
  = (tand (tnot tfalse) (tnot ttrue), true).
Proof. split; vm_compute; reflexivity. Qed.
