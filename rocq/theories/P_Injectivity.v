(** Property C08: the injectivity inference is sound. *)
From Coq Require Import List Arith NArith Bool Lia.
Import ListNotations.
From Verif Require Import Term LocalContext Semantics TermProofs SemFacts FlatTerm Kbo TermNorm FiniteModel
  Typing Literal Clause ClauseSem RenumberProofs ClauseProofs ClauseWf Inference InferenceProofs P_Clause.

(** From [f(a..) != f(b..) or C] where the arguments differ at one place only, [a != b or C] follows in
    every interpretation and without regard to types, if no side of a literal is headed by a binder. *)
Theorem injectivity_sound :
  forall c rs ls, plain_heads (literals c) -> find_injectivities c = Some rs -> In ls rs ->
  forall M, valid M c -> valid M (Clause ls (context c)).
Proof.
  intros c rs ls A H Hin M V rho Hv. apply (injectivities_from_sound M _ _ _ _ rho A H Hin). apply V; auto.
Qed.
Print Assumptions injectivity_sound.

(** The search does not index out of bounds. *)
Theorem injectivity_total :
  forall c, atomic_heads (literals c) -> exists rs, find_injectivities c = Some rs.
Proof.
  intros c A. unfold find_injectivities. destruct (injectivities_from [] (literals c)) eqn:E; eauto.
  exfalso. eapply injectivities_from_total; eauto.
Qed.
Print Assumptions injectivity_total.

(** The clauses [injectivities] returns are normalized as well, which drops variables; they follow
    where the variable types have elements. *)
Theorem normalized_injectivity_sound_partial :
  forall c rs c', plain_heads (literals c) -> validate_variable_ordering (context c) = true ->
  injectivities c = Some rs -> In c' rs ->
  forall M, clause_wt M c -> inhabited_in_order M (context c) -> valid M c -> valid M c'.
Proof.
  intros c rs c' A O H Hin M W I V. unfold injectivities in H.
  destruct (find_injectivities c) as [ls|] eqn:E; [|discriminate].
  assert (G : exists l, In l ls /\ clause_new l (context c) = Some c').
  { clear E. revert rs H Hin. induction ls as [|x r IH]; simpl; intros rs H Hin; [injection H as <-; contradiction|].
    destruct (clause_new x (context c)) as [x'|] eqn:Ex; [|discriminate].
    destruct (normalize_all (context c) r) as [r'|] eqn:Er; [|discriminate]. injection H as <-.
    destruct (is_tautology x'); [|destruct Hin as [<-|Hin]; [exists x; auto|]];
      destruct (IH r' eq_refl Hin) as (l & H1 & H2); exists l; auto. }
  destruct G as (l & Hl & Hn).
  destruct (normalization_keeps_models_partial (Clause l (context c)) c') with (M := M) as [Hk _]; auto.
  - left. exists 0. exact Hn.
  - eapply injectivity_wt; eauto.
  - apply Hk. eapply injectivity_sound; eauto.
Qed.
Print Assumptions normalized_injectivity_sound_partial.

(** Where one of them has none, they need not: [f(x0, a) != f(x0, b)] holds vacuously for [x0] of an
    empty type, [a != b] does not. *)
Definition in_f := TSym (SGlobal 0 0).
Definition in_a := TSym (SGlobal 0 1).
Definition in_b := TSym (SGlobal 0 2).
Definition in_vac : clause :=
  Clause [Lit false (TApp (TApp in_f (TVar 0)) in_a) (TApp (TApp in_f (TVar 0)) in_b)] [Some empty_A].
Theorem normalized_injectivity_sound_refuted :
  exists c rs c' M, atomic_heads (literals c) /\ validate_variable_ordering (context c) = true /\
    injectivities c = Some rs /\ In c' rs /\ clause_wt M c /\ valid M c /\ ~ valid M c'.
Proof.
  exists in_vac. eexists. eexists (Clause [Lit false in_b in_a] []).
  exists (fin_model (fun _ => [VBool; VBase 0 0 0])
    (fun s => match s with SType _ _ => VBase 0 0 0 | SGlobal 0 0 => VFun (VBase 0 0 0) [] | _ => VTrue end)%N).
  split; [intros l [<-|[]]; split; eexists; reflexivity|].
  split; [reflexivity|]. split; [vm_compute; reflexivity|]. split; [left; vm_compute; reflexivity|].
  assert (N : forall rho, ~ valid_env (fin_model (fun _ => [VBool; VBase 0 0 0])
    (fun s => match s with SType _ _ => VBase 0 0 0 | SGlobal 0 0 => VFun (VBase 0 0 0) [] | _ => VTrue end)%N) (context in_vac) rho).
  { intros rho H. specialize (H 0 _ eq_refl). vm_compute in H. tauto. }
  split; [intros rho H; exfalso; eapply N; eauto|]. split; [intros rho H; exfalso; eapply N; eauto|].
  intros H. destruct (H (fun _ => VTrue)) as (l & [<-|[]] & E).
  - intros i T Hi. destruct i; discriminate.
  - vm_compute in E. congruence.
Qed.
Print Assumptions normalized_injectivity_sound_refuted.

(** And the heads must be atoms: for applied lambdas only the head of the domain is compared, so that
    [(fun (x: A) { true })(a) != (fun (x: A) { false })(b)] gives [a != b]. *)
Definition in_redex (v : term) (x : term) : term := TApp (TBind KLam empty_A v) x.
Definition in_red : clause := Clause [Lit false (in_redex ttrue in_a) (in_redex tfalse in_b)] [].
Definition in_M : Model := fin_model (fun _ => [VBool; VBase 0 0 1])
  (fun s => match s with SType _ _ => VBase 0 0 1 | _ => VElt 0 0 1 0 end).
Theorem injectivity_sound_refuted :
  exists c rs ls M, find_injectivities c = Some rs /\ In ls rs /\ clause_wt M c /\
    valid M c /\ ~ valid M (Clause ls (context c)).
Proof.
  exists in_red. eexists. eexists [Lit false in_b in_a]. exists in_M.
  split; [vm_compute; reflexivity|]. split; [left; vm_compute; reflexivity|].
  split.
  { intros rho _ l [<-|[]]. split; unfold wt, swt; cbn [swtg left right in_redex]; vm_compute; tauto. }
  split.
  { intros rho _. eexists. split; [left; reflexivity|]. vm_compute. congruence. }
  intros H. destruct (H (fun _ => VTrue)) as (l & [<-|[]] & E).
  - intros i T Hi. destruct i; discriminate.
  - vm_compute in E. congruence.
Qed.
Print Assumptions injectivity_sound_refuted.

(** Case: [f(x0, a) != f(x0, b) or x0 = a] *)
Definition in_ex : clause :=
  Clause [Lit false (TApp (TApp in_f (TVar 0)) in_a) (TApp (TApp in_f (TVar 0)) in_b);
          Lit true (TVar 0) in_a] [Some empty_A].
Example injectivity_case :
  find_injectivities in_ex = Some [[Lit false in_b in_a; Lit true (TVar 0) in_a]] /\ atomic_heads (literals in_ex) /\
  option_map (map literals) (injectivities in_ex) = Some [[Lit false in_b in_a; Lit true in_a (TVar 0)]] /\
  validate_variable_ordering (context in_ex) = true.
Proof.
  split; [vm_compute; reflexivity|]. split; [|split; vm_compute; reflexivity].
  intros l [<-|[<-|[]]]; split; eexists; reflexivity.
Qed.
Definition in_M2 : Model := fin_model (fun _ => [VBool; VBase 0 0 2])
  (fun s => match s with
            | SType _ _ => VBase 0 0 2
            | SGlobal 0 0 => VFun (VBase 0 0 2) [VFun (VBase 0 0 2) [VTrue; VTrue]; VFun (VBase 0 0 2) [VTrue; VFalse]]
            | SGlobal 0 1 => VElt 0 0 2 0
            | _ => VElt 0 0 2 1
            end%N).
Example injectivity_hypotheses_case : clause_wt in_M2 in_ex /\ inhabited_in_order in_M2 (context in_ex) /\ valid in_M2 in_ex.
Proof.
  assert (K : forall rho, valid_env in_M2 (context in_ex) rho -> rho 0 = VElt 0 0 2 0 \/ rho 0 = VElt 0 0 2 1).
  { intros rho H. specialize (H 0 _ eq_refl). vm_compute in H. intuition. }
  split; [|split].
  - intros rho H l [<-|[<-|[]]]; split; unfold wt, swt; cbn [swtg left right in_f in_a in_b];
      destruct (K rho H) as [E|E]; cbn [eval]; rewrite ?E; vm_compute; tauto.
  - intros rho i T _ HT. exists (VElt 0 0 2 0). destruct i as [|i]; [injection HT as <-; vm_compute; tauto|].
    unfold get_var_type in HT. simpl in HT. destruct i; discriminate.
  - intros rho H. destruct (K rho H) as [E|E].
    + exists (Lit true (TVar 0) in_a). split; [right; left; reflexivity|]. unfold lit_holds, ev. cbn. rewrite E. reflexivity.
    + eexists. split; [left; reflexivity|]. unfold lit_holds, ev. cbn [positive left right eval]. rewrite E. vm_compute. congruence.
Qed.
