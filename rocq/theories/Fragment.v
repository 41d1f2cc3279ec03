(** Sets of well-typed clauses that the rules of the checker do not lead out of, and in which they are sound. *)
From Coq Require Import List Arith NArith Bool Lia Permutation.
Import ListNotations.
From Verif Require Import Term LocalContext Semantics TermProofs SemFacts TermNorm TermNormProofs Literal Clause ClauseSem RenumberProofs ClauseProofs ClauseWf P_Clause P_TermNorm
  Typing VariableMap Unifier Inference BoolReduction ClauseSet EqualityGraph Checker CheckerProofs CheckerSem TypingProofs BoolReductionProofs BoolReductionConverse CheckerSets P_Checker.

Record fragment (M : Model) (K : kctx) (ts : tstore) (n : nat) (W : clause -> Prop) : Prop := {
  fr_suitable : forall c, W c -> suitable M c;
  fr_reducible : forall c, W c -> reducible M K c;
  fr_witness : forall c l, W c -> In l (literals c) -> witness_typed l;
  fr_reduced : forall c k i ls c', W c -> reduced_literals n K c k i = Some (Some (ls, c')) -> clause_pwt M (Clause ls c');
  fr_normal : forall c c', W c -> checker_normal n c = Ok c' -> W c';
  fr_sub : forall c ls c', W c -> kept M ls (literals c) -> clause_new ls (context c) = Some c' -> W c';
  fr_negate : forall c l c', W c -> literals c = [l] -> clause_new [negate l] (context c) = Some c' -> W c';
  fr_resolution : forall c rs ls out c', W c -> find_equality_resolutions K ts n c = Some rs -> In (ls, out) (result_pairs rs) ->
    checked_result M n ls out c' -> W c' /\ (valid M c -> valid M c');
  fr_factoring : forall c rs ls out c', W c -> find_equality_factorings K ts n c = Some rs -> In (ls, out) (result_pairs rs) ->
    checked_result M n ls out c' -> W c' /\ (valid M c -> valid M c');
  fr_injectivity : forall c rs ls c', W c -> find_injectivities c = Some rs -> In ls rs ->
    checked_result M n ls (context c) c' -> W c' /\ (valid M c -> valid M c');
  fr_extensionality : forall c ls c', W c -> find_extensionality K c = Some (Some ls) -> clause_new ls (context c) = Some c' ->
    W c' /\ (valid M c -> valid M c');
  fr_reduction : forall c k i t c', W c -> boolean_reduction_at n K c k i = Some (Some t) -> checked_trace M n t c' -> W c';
  fr_match : forall a b, W a -> W b -> clause_matches K a b = Some true -> valid M a -> valid M b
}.

Section F.
Context (M : Model) (K : kctx) (ts : tstore) (n : nat) (W : clause -> Prop) (F : fragment M K ts n W) (He : eta_model M) (R : respects M K).

Definition true_in (c : clause) : Prop := W c /\ valid M c.
Lemma true_holds c : true_in c -> holds_in M c.
Proof. intros [Hw V]. destruct (fr_suitable _ _ _ _ _ F c Hw) as [H1 H2 H3]. constructor; auto. apply pwt_wt; auto. Qed.
Lemma frag_basic : basic K M true_in.
Proof. apply basic_sub. intros c. apply true_holds. Qed.
Lemma frag_normal c c' : W c -> checker_normal n c = Ok c' -> W c' /\ (valid M c <-> valid M c').
Proof.
  intros H E. split; [exact (fr_normal _ _ _ _ _ F _ _ H E)|]. destruct (fr_suitable _ _ _ _ _ F c H) as [H1 H2 H3].
  destruct (normal_holds_in M n c c' He H1 H2 H3 E) as [V _]. split; [intros Hv; apply V; auto|]. exact (normal_reflects M n c c' He H1 E).
Qed.
Lemma sub_valid c ls c' : suitable M c -> incl ls (literals c) -> clause_new ls (context c) = Some c' -> (valid M (Clause ls (context c)) <-> valid M c').
Proof.
  intros [H1 H2 H3] I E. assert (W' : clause_wt M (Clause ls (context c))) by (intros r Hr x Hx; apply (pwt_wt _ _ H1); auto).
  destruct (normalize_faithful _ _ _ E) as [ids G].
  destruct (faithful_preserves M _ _ ids G W' (all_completable M (context c) ids H2 (faithful_closed _ _ _ G) H3)) as [V _].
  split; auto. exact (faithful_reflects M _ _ _ G W').
Qed.
Lemma frag_reduction c k i t c' : W c -> boolean_reduction_at n K c k i = Some (Some t) -> checked_trace M n t c' ->
  exists ls d, reduced_literals n K c k i = Some (Some (ls, d)) /\ (valid M (Clause ls d) <-> valid M c').
Proof.
  intros H Ht Hc. unfold boolean_reduction_at in Ht.
  destruct (reduced_literals n K c k i) as [[[ls d]|]|] eqn:Er; try discriminate. exists ls, d. split; auto.
  pose proof (fr_reduced _ _ _ _ _ F _ _ _ _ _ H Er) as W1. destruct (fr_suitable _ _ _ _ _ F c H) as [H1 H2 H3].
  destruct (normalize_boolean_reduction ls d (length (context c))) as [t0|] eqn:En; [|discriminate]. injection Ht as ->.
  unfold normalize_boolean_reduction in En. destruct (normalize_with_trace ls d) as [[e ids]|] eqn:E1; [|discriminate].
  destruct (normalize_with_var_ids_prefilled ls d (filter (fun v => Nat.ltb v (length (context c))) ids)) as [[d' ids']|] eqn:E2; [|discriminate].
  injection En as <-.
  refine (proj2 (proj2 (checked_trace_sound M n ls d _ (d', ids') c' He _ _ W1 E2 Hc))).
  - eapply reduced_acyclic; [exact Er| |exact H2]. exact (rd_scoped _ _ _ (fr_reducible _ _ _ _ _ F c H)).
  - apply NoDup_filter. exact (f_nodup _ _ _ (prefilled_faithful _ _ _ _ _ (NoDup_nil _) E1)).
Qed.
Lemma frag_closed : closed K ts M true_in n.
Proof.
  constructor.
  - intros c ls c' [H V] Hk E. pose proof (kept_incl _ _ _ Hk) as I. split; [exact (fr_sub _ _ _ _ _ F _ _ _ H Hk E)|].
    apply (sub_valid c ls c' (fr_suitable _ _ _ _ _ F c H) I E). intros rho Hr. destruct (V rho Hr) as (l & Hl & Hh). simpl.
    clear - Hk Hl Hh. induction Hk; [destruct Hl| |].
    + destruct Hl as [->|Hl]; [exists l; simpl; auto|]. destruct (IHHk Hl) as (x & X1 & X2). exists x; simpl; auto.
    + destruct Hl as [->|Hl]; [exfalso; exact (H0 rho Hh)|auto].
  - intros c rs ls out c' [H V] E Hi Hc _. destruct (fr_resolution _ _ _ _ _ F _ _ _ _ _ H E Hi Hc). split; auto.
  - intros c rs ls out c' [H V] E Hi Hc _. destruct (fr_factoring _ _ _ _ _ F _ _ _ _ _ H E Hi Hc). split; auto.
  - intros c rs ls c' [H V] E Hi Hc _. destruct (fr_injectivity _ _ _ _ _ F _ _ _ _ H E Hi Hc). split; auto.
  - intros c ls c' [H V] E Hn. destruct (fr_extensionality _ _ _ _ _ F _ _ _ H E Hn). split; auto.
  - intros c l k i t c' [H V] E Hi Hc. pose proof (find_reductions_at _ _ _ _ _ _ _ E Hi) as Ha.
    split; [exact (fr_reduction _ _ _ _ _ F _ _ _ _ _ H Ha Hc)|]. destruct (frag_reduction _ _ _ _ _ H Ha Hc) as (ls & d & Er & Vi).
    apply Vi. exact (proj1 (reduced_literals_sound M _ _ _ _ _ _ _ Er R (fr_reducible _ _ _ _ _ F c H) V)).
Qed.
Lemma frag_answerable : answerable M K n W.
Proof.
  constructor.
  - intros c H. apply suitable_ground. exact (fr_suitable _ _ _ _ _ F c H).
  - exact (fr_reducible _ _ _ _ _ F).
  - intros c H. apply (fr_suitable _ _ _ _ _ F c H).
  - exact (fr_witness _ _ _ _ _ F).
  - exact (fr_reduced _ _ _ _ _ F).
  - intros c l k i t c' H E Hi Hc. exact (fr_reduction _ _ _ _ _ F _ _ _ _ _ H (find_reductions_at _ _ _ _ _ _ _ E Hi) Hc).
Qed.
Lemma frag_query c : W c -> query M c.
Proof. intros H. destruct (fr_suitable _ _ _ _ _ F c H) as [H1 H2 H3]. apply inhabited_query; auto. apply pwt_wt; auto. Qed.
End F.
