(** C02: the checker accepts only clauses that follow from what was inserted. *)
From Coq Require Import List Arith NArith Bool Lia Permutation.
Import ListNotations.
From Verif Require Import Term LocalContext Semantics TermProofs SemFacts TermNorm TermNormProofs Literal Clause ClauseSem RenumberProofs ClauseProofs ClauseWf P_Clause P_TermNorm
  Typing VariableMap Unifier Inference BoolReduction ClauseSet EqualityGraph Checker CheckerProofs CheckerSem TypingProofs FiniteTyping BoolReductionProofs CheckerSets FiniteModel P_Unifier P_EqualityInferences.

(** A clause the checker may be given: its literals are well-typed under every assignment, every lambda ranges
    over a proper type with elements, the types of its variables do not depend on each other in a cycle and
    all have elements. *)
Record suitable (M : Model) (c : clause) : Prop := {
  su_wt : clause_pwt M c;
  su_acyclic : acyclic (context c);
  su_inhabited : all_inhabited M (context c)
}.

Section Runs.
Context (K : kctx) (ts : tstore) (inhab : term -> lctx -> bool) (avail : clause -> bool) (path : egraph -> literal -> bool).
Context (ordk : nat -> list nat -> list nat) (ordc : nat -> list clauseid -> list clauseid) (orde : list clause -> list clause).
Context (ordk_perm : forall n l, Permutation (ordk n l) l) (ordc_perm : forall n l, Permutation (ordc n l) l).
Context (orde_incl : forall l, incl (orde l) l).

(** ** Checking a trace
    Histories of a checker that clauses are inserted into and asked of the way a trace is checked.  The
    indices list the inserted clauses and the clauses asked. *)
Inductive trace_history : list clause -> list clause -> checker -> Prop :=
| th_new : trace_history [] [] ck_new
| th_insert ins asked s n c s' : trace_history ins asked s -> insert_for_trace K ordk ordc n s c = Ok s' -> trace_history (c :: ins) asked s'
| th_ask ins asked s n c s' b : trace_history ins asked s -> check_for_trace path ordk ordc n s c = Ok (s', b) -> trace_history ins (c :: asked) s'
| th_direct ins asked s n c s' b : trace_history ins asked s -> check_direct ordk ordc n s c = Ok (s', b) -> trace_history ins (c :: asked) s'.

Section M.
Context (M : Model) (He : eta_model M).

Lemma suitable_ground c : suitable M c -> ground_wt M (literals c).
Proof. intros [W A I]. apply inhabited_ground_wt; auto. apply pwt_wt; auto. Qed.
Lemma ok_insert n s c s' : ok ordk ordc M (holds_in M) s -> suitable M c -> valid M c ->
  insert_for_trace K ordk ordc n s c = Ok s' -> ok ordk ordc M (holds_in M) s'.
Proof.
  intros H [W A I] V E. unfold insert_for_trace in E. dob E.
  eapply (ok_shallow K ordk ordc M (holds_in M) (holds_basic M K)); [exact H| |exact E].
  exact (proj1 (normal_holds_in M n c a He W A I E0) V).
Qed.
Lemma ask_ok n s c s' b : ok ordk ordc M (holds_in M) s -> suitable M c -> check_for_trace path ordk ordc n s c = Ok (s', b) ->
  ok ordk ordc M (holds_in M) s' /\ (b = true -> valid M c).
Proof.
  intros H [W A I] E. pose proof E as E'. unfold check_for_trace in E. dob E. clear E.
  destruct (normal_holds_in M n c a He W A I E0) as (_ & W2 & A2 & I2).
  destruct (for_trace_sound K path ordk ordc ordk_perm ordc_perm M (holds_in M) (holds_basic M K) n s c a s' b H E0 (inhabited_query M a A2 I2 W2) E') as [H1 V1].
  split; auto. intros Hb. exact (normal_reflects M n c a He W E0 (V1 Hb)).
Qed.
Lemma direct_ok n s c s' b : ok ordk ordc M (holds_in M) s -> suitable M c -> check_direct ordk ordc n s c = Ok (s', b) ->
  ok ordk ordc M (holds_in M) s' /\ (b = true -> valid M c).
Proof.
  intros H Sc E. exact (direct_sound K ordk ordc ordk_perm ordc_perm M (holds_in M) (holds_basic M K) n s c s' b H (suitable_ground _ Sc) E).
Qed.
Lemma history_ok ins asked s : trace_history ins asked s -> (forall c, In c ins -> suitable M c /\ valid M c) ->
  (forall c, In c asked -> suitable M c) -> ok ordk ordc M (holds_in M) s.
Proof.
  induction 1 as [|ins asked s n c s' H IH E|ins asked s n c s' b H IH E|ins asked s n c s' b H IH E]; intros Hi Ha.
  - apply ok_new.
  - destruct (Hi c (or_introl eq_refl)) as [S1 V1]. refine (ok_insert _ _ _ _ _ S1 V1 E). apply IH; auto. intros; apply Hi; right; auto.
  - refine (proj1 (ask_ok _ _ _ _ _ _ (Ha c (or_introl eq_refl)) E)). apply IH; auto. intros; apply Ha; right; auto.
  - refine (proj1 (direct_ok _ _ _ _ _ _ (Ha c (or_introl eq_refl)) E)). apply IH; auto. intros; apply Ha; right; auto.
Qed.
End M.

(** No contradiction is reported as long as the inserted clauses have a common model, and a clause that
    is accepted holds in every model of the inserted ones (over models where the clauses are suitable). *)
Theorem trace_checking_sound_partial : forall ins asked s, trace_history ins asked s ->
  forall M, eta_model M -> (forall c, In c ins -> suitable M c /\ valid M c) -> (forall c, In c asked -> suitable M c) ->
  has_contradiction s = false /\
  (forall n c s' b, check_for_trace path ordk ordc n s c = Ok (s', b) \/ check_direct ordk ordc n s c = Ok (s', b) ->
     b = true -> suitable M c -> valid M c).
Proof.
  intros ins asked s H M He Hi Ha. pose proof (history_ok M He _ _ _ H Hi Ha) as G. split.
  - exact (ok_no_contradiction ordk ordc ordk_perm ordc_perm M _ _ G).
  - intros n c s' b [E|E] -> Sc; [eapply ask_ok|eapply direct_ok]; eauto.
Qed.

(** ** Insertion with inferences
    [P] is a set of clauses holding in the model that the inference rules do not lead out of; [Q] a set of
    well-typed clauses, true or not, that reductions do not lead out of. *)
Inductive deep_history (n : nat) : list clause -> list clause -> checker -> Prop :=
| dh_new : deep_history n [] [] ck_new
| dh_deep ins asked s re c c' s' : deep_history n ins asked s -> checker_normal n c = Ok c' ->
    insert_deep K ts inhab avail path ordk ordc orde n s re c = Ok s' -> deep_history n (c' :: ins) asked s'
| dh_normalized ins asked s re c s' : deep_history n ins asked s ->
    insert_normalized K ts inhab avail path ordk ordc orde n s re c = Ok s' -> deep_history n (c :: ins) asked s'
| dh_shallow ins asked s c c' s' : deep_history n ins asked s -> checker_normal n c = Ok c' ->
    insert_for_trace K ordk ordc n s c = Ok s' -> deep_history n (c' :: ins) asked s'
| dh_eager ins asked s s' : deep_history n ins asked s ->
    enable_eager K ts inhab avail path ordk ordc orde n s = Ok s' -> deep_history n ins asked s'
| dh_ask ins asked s c c' s' b : deep_history n ins asked s -> checker_normal n c = Ok c' ->
    check K inhab path ordk ordc n s c = Ok (s', b) -> deep_history n ins (c' :: asked) s'.

Section Deep.
Context (M : Model) (P Q : clause -> Prop) (n : nat).
Context (inhab_sound : forall T c, inhab T c = true -> inhabited_at M c T).
Context (BS : basic K M P) (CL : closed K ts M P n) (QS : queries K inhab ordk ordc M P n Q).

Lemma ask_deep s c c' s' b : ok ordk ordc M P s -> checker_normal n c = Ok c' -> Q c' -> query M c' ->
  check K inhab path ordk ordc n s c = Ok (s', b) -> ok ordk ordc M P s' /\ (b = true -> valid M c').
Proof.
  intros H N Hq Hq' E. unfold check in E. rewrite N in E. cbn [rbind] in E. unfold or_check in E. dob E. destruct a as [s1 b1].
  destruct (direct_sound K ordk ordc ordk_perm ordc_perm M P BS n s c' s1 b1 H (q_ground _ _ Hq') E0) as [H1 V1].
  destruct b1; [injection E as <- <-; auto|]. dob E. destruct a as [s2 b2]. unfold check_via_reductions in E1. dob E1. destruct a as [[s3 sn] b3]. injection E1 as <- <-.
  destruct (reductions_sound K inhab ordk ordc ordk_perm ordc_perm M P BS inhab_sound n Q QS n s1 [] c' s3 sn b3 H1 Hq E2) as [H2 V2].
  destruct b3; [injection E as <- <-; auto|].
  exact (simplified_sound K path ordk ordc ordk_perm ordc_perm M P BS n s3 c' s' b H2 Hq' E).
Qed.
Lemma deep_ok ins asked s : deep_history n ins asked s -> (forall c, In c ins -> P c) -> (forall c, In c asked -> Q c /\ query M c) ->
  ok ordk ordc M P s.
Proof.
  assert (IN : forall s re c s', ok ordk ordc M P s -> P c -> insert_internal K ts inhab avail path ordk ordc orde n n s re c = Ok s' -> ok ordk ordc M P s').
  { intros. eapply (ok_internal K ts inhab avail path ordk ordc orde ordk_perm ordc_perm orde_incl M P BS inhab_sound n CL); eauto. }
  induction 1 as [|ins asked s re c c' s' H IH N E|ins asked s re c s' H IH E|ins asked s c c' s' H IH N E|ins asked s s' H IH E|ins asked s c c' s' b H IH N E]; intros Hi Ha.
  - apply ok_new.
  - unfold insert_deep in E. rewrite N in E. cbn [rbind] in E. eapply IN; [|apply Hi; left; reflexivity|exact E]. apply IH; auto. intros; apply Hi; right; auto.
  - eapply IN; [|apply Hi; left; reflexivity|exact E]. apply IH; auto. intros; apply Hi; right; auto.
  - unfold insert_for_trace in E. rewrite N in E. cbn [rbind] in E.
    eapply (ok_shallow K ordk ordc M P BS); [|apply Hi; left; reflexivity|exact E]. apply IH; auto. intros; apply Hi; right; auto.
  - unfold enable_eager in E. refine (reprocess_ok K ts inhab avail ordk ordc orde orde_incl M P inhab_sound n CL _ _ _ _ _ E).
    + intros s0 c s0' H0 Hc E0. exact (IN _ _ _ _ H0 Hc E0).
    + apply ok_with_eager. apply IH; auto.
  - destruct (Ha c' (or_introl eq_refl)) as [Q1 Q2]. eapply ask_deep; eauto. apply IH; auto. intros; apply Ha; right; auto.
Qed.
End Deep.

Theorem deep_checking_sound_partial : forall n ins asked s, deep_history n ins asked s ->
  forall M P Q, eta_model M -> respects M K -> basic K M P -> closed K ts M P n -> answerable M K n Q ->
  (forall T c, inhab T c = true -> inhabited_at M c T) ->
  (forall c, In c ins -> P c) -> (forall c, In c asked -> Q c /\ query M c) ->
  has_contradiction s = false /\
  (forall c c' s', checker_normal n c = Ok c' -> Q c' -> query M c' ->
     check K inhab path ordk ordc n s c = Ok (s', true) -> valid M c').
Proof.
  intros n ins asked s H M P Q He R BS CL AN Hs Hi Ha.
  pose proof (answerable_queries M K R He n Q AN inhab ordk ordc P Hs) as QS. pose proof (deep_ok M P Q n Hs BS CL QS _ _ _ H Hi Ha) as G. split.
  - exact (ok_no_contradiction ordk ordc ordk_perm ordc_perm M _ _ G).
  - intros c c' s' N Q1 Q2 E. exact (proj2 (ask_deep M P Q n Hs BS QS s c c' s' true G N Q1 Q2 E) eq_refl).
Qed.
End Runs.
Print Assumptions trace_checking_sound_partial.
Print Assumptions deep_checking_sound_partial.

(** ** The normalization of derived clauses
    Variables disappear only if their types have elements, so the clause keeps its meaning. *)
Theorem checker_normalization_keeps_validity : forall inhab n s ls c c', canonical inhab n s ls c = Ok (Some c') ->
  forall M, eta_model M -> (forall T c, inhab T c = true -> inhabited_at M c T) -> (forall k, In k (ck_inhab s) -> key_inhabited M k) ->
  acyclic c -> clause_pwt M (Clause ls c) -> clause_pwt M c' /\ (valid M (Clause ls c) <-> valid M c').
Proof.
  intros inhab n s ls c c' E M He Hs Hk A W. set (s0 := CK eg_new [] false [] 0 [] (ck_inhab s) [] false).
  assert (X : forall pc ids, eliminated_vars_inhabited inhab s pc ids = eliminated_vars_inhabited inhab s0 pc ids).
  { intros pc ids. unfold eliminated_vars_inhabited. generalize (seq 0 (length pc)). induction l as [|v l IH]; simpl; auto.
    rewrite IH. reflexivity. }
  assert (E0 : canonical inhab n s0 ls c = Ok (Some c')).
  { rewrite <- E. unfold canonical, normalize_checker_trace. destruct (unwrap (normalize_with_trace ls c)); simpl; auto.
    rewrite <- X. destruct (eliminated_vars_inhabited inhab s c (snd a)) as [[|]| |]; simpl; auto.
    destruct (fueled (normalize_clause_subterms n (fst a))) as [c1| |]; simpl; auto.
    destruct (unwrap (normalize_with_trace (literals c1) (context c1))) as [t1| |]; simpl; auto. rewrite <- X.
    destruct (eliminated_vars_inhabited inhab s (context c1) (snd t1)) as [[|]| |]; simpl; auto.
    destruct (unwrap (normalize_with_trace (literals (fst t1)) (context (fst t1)))); simpl; auto. rewrite <- X. auto. }
  assert (O : ok (fun _ l => l) (fun _ l => l) M (fun _ => True) s0).
  { constructor; simpl; [apply gok_new|intros ? []|exact Hk|reflexivity]. }
  destruct (checked_sound M n ls c c' He A W) as (_ & W' & V); [|split; auto].
  eapply result_checked; eauto.
Qed.
Print Assumptions checker_normalization_keeps_validity.

(** ** The sets of reductions
    [check] accepts a clause if every clause of one set is accepted.  Such a set says the same as the clause. *)
Theorem reduction_sets_equivalent : forall K inhab n s c sets cs, checker_boolean_reduction_sets K inhab n s c = Ok sets -> In cs sets ->
  forall M Q, eta_model M -> respects M K -> answerable M K n Q -> Q c ->
  (forall T c, inhab T c = true -> inhabited_at M c T) -> (forall k, In k (ck_inhab s) -> key_inhabited M k) ->
  (valid M c <-> forall c', In c' cs -> valid M c').
Proof.
  intros K inhab n s c sets cs E Hi M Q He R AN Hq Hs Hk. set (s0 := CK eg_new [] false [] 0 [] (ck_inhab s) [] false).
  assert (X : forall pc ids, eliminated_vars_inhabited inhab s pc ids = eliminated_vars_inhabited inhab s0 pc ids).
  { intros pc ids. unfold eliminated_vars_inhabited. generalize (seq 0 (length pc)). induction l as [|v l IH]; simpl; auto.
    rewrite IH. reflexivity. }
  assert (Y : forall t, normalize_checker_trace inhab n s t = normalize_checker_trace inhab n s0 t).
  { intros [[c0 ids] pc]. unfold normalize_checker_trace.
    rewrite <- X. destruct (eliminated_vars_inhabited inhab s pc ids) as [[|]| |]; simpl; auto.
    destruct (fueled (normalize_clause_subterms n c0)) as [c1| |]; simpl; auto.
    destruct (unwrap (normalize_with_trace (literals c1) (context c1))) as [t1| |]; simpl; auto. rewrite <- X.
    destruct (eliminated_vars_inhabited inhab s (context c1) (snd t1)) as [[|]| |]; simpl; auto.
    destruct (unwrap (normalize_with_trace (literals (fst t1)) (context (fst t1)))); simpl; auto. rewrite <- X. auto. }
  assert (O : ok (fun _ l => l) (fun _ l => l) M (fun _ => True) s0).
  { constructor; simpl; [apply gok_new|intros ? []|exact Hk|reflexivity]. }
  assert (Z : forall m l, length l <= m -> sets_from inhab n s l = sets_from inhab n s0 l).
  { induction m as [|m IH]; intros [|[[k i] t] l] L; simpl in L; try lia; auto. cbn [sets_from]. rewrite !Y.
    rewrite (IH l) by lia. destruct l as [|[[k' i'] t'] l]; auto. rewrite !Y. simpl in L. rewrite (IH l) by lia. auto. }
  assert (E0 : checker_boolean_reduction_sets K inhab n s0 c = Ok sets).
  { rewrite <- E. unfold checker_boolean_reduction_sets. destruct (unwrap (find_boolean_reductions n K c)); simpl; auto. symmetry. apply (Z (length a)); auto. }
  split; [|exact (set_complete M K R He n Q AN inhab _ _ _ s0 c sets cs Hs O Hq E0 Hi)].
  intros V c' Hc'. unfold checker_boolean_reduction_sets in E0. dob E0. apply unwrap_ok in E1.
  destruct (sets_members inhab n s0 a sets E0 cs c' Hi Hc') as (k & i & t & Ht & N).
  destruct (member_reflects M K He n Q AN c a k i t c' Hq E1 Ht) as (ls & d & Er & _ & Vi); [eapply trace_checked; eauto|].
  apply Vi. exact (proj1 (reduced_literals_sound M _ _ _ _ _ _ _ Er R (an_reducible _ _ _ _ AN _ Hq) V)).
Qed.
Print Assumptions reduction_sets_equivalent.

(** ** Without elements the checker is wrong *)
Definition ck_idk (n : nat) (l : list nat) := l.
Definition ck_idc (n : nat) (l : list clauseid) := l.
Definition ck_none (T : term) (c : lctx) := false.
Lemma empty_eta : eta_model empty_M.
Proof.
  apply fin_model_eta.
  - intros k x. simpl. intros; intuition; subst; exact I.
  - intros x. simpl. intros; intuition; subst; exact I.
Qed.

Definition ck_vacuous := Clause [Lit false ttrue ttrue] [Some empty_A].
(** [forall(x: Empty) { true != true }] is true, but a checker it is inserted into accepts everything. *)
Theorem insertion_sound_refuted : exists K n c s M, eta_model M /\ clause_pwt M c /\ valid M c /\
  insert_for_trace K ck_idk ck_idc n ck_new c = Ok s /\ has_contradiction s = true.
Proof.
  exists ei_K, 10, ck_vacuous. eexists. exists empty_M. split; [exact empty_eta|]. split; [|split].
  - intros rho H l [<-|[]]. split; exact Logic.I.
  - intros rho H. specialize (H 0 _ eq_refl). vm_compute in H. tauto.
  - split; vm_compute; reflexivity.
Qed.
Print Assumptions insertion_sound_refuted.

(** [forall(x: B) { exists(z: A) { p(x, z) } }] marks [A] as inhabited.  With [B] empty it need not be:
    together with [not exists(z: A) { true }] it is taken for a contradiction. *)
Definition mk_A := TSym (SType 1 1).
Definition mk_B := TSym (SType 1 2).
Definition mk_all := Clause [Lit true (TBind KEx mk_A (TApp (TApp (TSym (SGlobal 0 2)) (TVar 0)) (TBound 0))) ttrue] [Some mk_B].
Definition mk_no := Clause [Lit false (TBind KEx mk_A ttrue) ttrue] [].
Definition mk_K : kctx :=
  {| k_type := fun _ _ => type0;
     k_global := fun _ _ => TBind KPi mk_B (TBind KPi mk_A tbool);
     k_scoped := fun _ => tbool;
     k_instance := fun _ _ _ => false; k_extends := fun _ _ => false; k_value_params := fun _ => false |}.
Definition mk_I (s : symbol) : V := match s with SType _ _ => VBase 0 0 0 | SGlobal _ _ => VFun (VBase 0 0 0) [] | _ => VFalse end.
Definition mk_M : Model := fin_model (fun _ => [VBool; VBase 0 0 0]) mk_I.
Lemma mk_eta : eta_model mk_M.
Proof.
  apply fin_model_eta.
  - intros k x. simpl. intros; intuition; subst; exact I.
  - intros x. simpl. intros; intuition; subst; exact I.
Qed.
Theorem inhabited_marking_refuted : exists K n c1 c2 s1 s2 M, eta_model M /\ clause_pwt M c1 /\ valid M c1 /\ clause_pwt M c2 /\ valid M c2 /\
  insert_for_trace K ck_idk ck_idc n ck_new c1 = Ok s1 /\ has_contradiction s1 = false /\
  insert_for_trace K ck_idk ck_idc n s1 c2 = Ok s2 /\ has_contradiction s2 = true.
Proof.
  exists mk_K, 10, mk_all, mk_no. do 2 eexists. exists mk_M. split; [exact mk_eta|].
  split; [|split; [|split; [|split; [|split; [|split; [|split]]]]]]; try (vm_compute; reflexivity).
  - intros rho H. specialize (H 0 _ eq_refl). vm_compute in H. tauto.
  - intros rho H. specialize (H 0 _ eq_refl). vm_compute in H. tauto.
  - intros rho H l [<-|[]]. split; [|exact Logic.I]. cbn [swtg left]. split; [exact Logic.I|]. split; [split; [vm_compute; tauto|discriminate]|].
    intros x Hx. vm_compute in Hx. tauto.
  - intros rho H. eexists. split; [left; reflexivity|]. unfold lit_holds. vm_compute. discriminate.
Qed.
Print Assumptions inhabited_marking_refuted.

(** It makes equality resolution drop variables of [A]: [y0 != y1 or s] over [A] then proves [s]. *)
Definition mk_ne := Clause [Lit false (TVar 0) (TVar 1); Lit true (TSym (SScoped 0)) ttrue] [Some mk_A; Some mk_A].
Definition mk_s := Clause [Lit true (TSym (SScoped 0)) ttrue] [].
Theorem deep_insertion_refuted : exists K ts n c1 c2 s1 s2 c s3 M, eta_model M /\ clause_pwt M c1 /\ valid M c1 /\ clause_pwt M c2 /\ valid M c2 /\
  insert_deep K ts ck_none (fun _ => true) (fun _ _ => true) ck_idk ck_idc (fun l => l) n ck_new true c1 = Ok s1 /\
  insert_deep K ts ck_none (fun _ => true) (fun _ _ => true) ck_idk ck_idc (fun l => l) n s1 true c2 = Ok s2 /\
  check K ck_none (fun _ _ => true) ck_idk ck_idc n s2 c = Ok (s3, true) /\ clause_pwt M c /\ context c = [] /\ ~ valid M c.
Proof.
  exists mk_K, un_ts, 20, mk_all, mk_ne. do 2 eexists. exists mk_s. eexists. exists mk_M. split; [exact mk_eta|].
  split; [|split; [|split; [|split; [|split; [|split; [|split; [|split; [|split]]]]]]]]; try (vm_compute; reflexivity).
  - intros rho H. specialize (H 0 _ eq_refl). vm_compute in H. tauto.
  - intros rho H. specialize (H 0 _ eq_refl). vm_compute in H. tauto.
  - intros rho H. specialize (H 0 _ eq_refl). vm_compute in H. tauto.
  - intros rho H. specialize (H 0 _ eq_refl). vm_compute in H. tauto.
  - intros rho H l [<-|[]]. split; exact Logic.I.
  - intros H. destruct (H (fun _ => VJunk)) as (l & [<-|[]] & E); [intros [|i] T Hi; discriminate|]. vm_compute in E. discriminate.
Qed.
Print Assumptions deep_insertion_refuted.

(** [clauses_contradict_for_trace] takes [q(x0)] and [not q(x0)] for a contradiction even if [x0] has no values. *)
Definition mk_q (pos : bool) := Clause [Lit pos (TApp (TSym (SGlobal 0 3)) (TVar 0)) ttrue] [Some mk_A].
Definition mk_K' : kctx :=
  {| k_type := fun _ _ => type0;
     k_global := fun _ _ => TBind KPi mk_A tbool;
     k_scoped := fun _ => tbool;
     k_instance := fun _ _ _ => false; k_extends := fun _ _ => false; k_value_params := fun _ => false |}.
Theorem contradiction_of_two_refuted : exists K n a b M, eta_model M /\ clause_pwt M a /\ valid M a /\ clause_pwt M b /\ valid M b /\
  clauses_contradict K ck_idk ck_idc n a b = Ok true.
Proof.
  exists mk_K', 10, (mk_q true), (mk_q false), mk_M. split; [exact mk_eta|].
  split; [|split; [|split; [|split]]]; try (vm_compute; reflexivity);
    intros rho H; specialize (H 0 _ eq_refl); vm_compute in H; tauto.
Qed.
Print Assumptions contradiction_of_two_refuted.

(** ** Concrete cases *)
Lemma ei_eta : eta_model ei_M.
Proof.
  apply fin_model_eta.
  - intros k x. simpl. destruct (N.eqb k 0); simpl; intros; intuition; subst; exact I.
  - intros x. simpl. intros; intuition; subst; exact I.
Qed.
Lemma ei_inhabited c : (forall v T, get_var_type c v = Some T -> T = ei_A) -> acyclic c /\ all_inhabited ei_M c.
Proof.
  intros H. split.
  - exists (fun _ => 0). intros v d Hd. unfold deps in Hd. destruct (get_var_type c v) as [T|] eqn:E; [|destruct Hd]. rewrite (H _ _ E) in Hd. destruct Hd.
  - intros v T _ HT rho _. rewrite (H _ _ HT). exists ei_e0. vm_compute. tauto.
Qed.
Lemma ei_one v T : get_var_type [Some ei_A] v = Some T -> T = ei_A.
Proof. destruct v as [|[|v]]; intros H; unfold get_var_type in H; simpl in H; congruence. Qed.
Lemma ei_none v T : get_var_type [] v = Some T -> T = ei_A.
Proof. destruct v; discriminate. Qed.

(** [x0 != c or f(f(x0)) = c] and [f(f(c)) = c] are inserted; [f(f(f(f(c)))) = c] is accepted *)
Definition ck_ffc := Clause [Lit true (ei_f (ei_f ei_c)) ei_c] [].
Definition ck_ffffc := Clause [Lit true (ei_f (ei_f (ei_f (ei_f ei_c)))) ei_c] [].
Definition ck_fc := Clause [Lit true (ei_f ei_c) ei_c] [].
Lemma ei_cl_valid : clause_pwt ei_M ei_cl /\ valid ei_M ei_cl.
Proof.
  split.
  - intros rho V l [<-|[<-|[]]]; split; unfold ei_f; cbn [swtg left right eval]; try exact Logic.I;
      destruct (ei_env _ _ V) as [E|E]; rewrite ?E; vm_compute; tauto.
  - intros rho V. destruct (ei_env _ _ V) as [E|E].
    + eexists. split; [right; left; reflexivity|]. unfold lit_holds, ev, ei_f. cbn [positive left right eval]. rewrite E. reflexivity.
    + eexists. split; [left; reflexivity|]. unfold lit_holds, ev, ei_f. cbn [positive left right eval]. rewrite E. vm_compute. discriminate.
Qed.
Example trace_checking_case : exists ins s, trace_history ei_K (fun _ _ => true) ck_idk ck_idc ins [] s /\ length ins = 2 /\
  (forall c, In c ins -> suitable ei_M c /\ valid ei_M c) /\ suitable ei_M ck_ffffc /\ suitable ei_M ck_fc /\
  (exists s', check_for_trace (fun _ _ => true) ck_idk ck_idc 20 s ck_ffffc = Ok (s', true)) /\
  (exists s', check_for_trace (fun _ _ => true) ck_idk ck_idc 20 s ck_fc = Ok (s', false)).
Proof.
  exists [ck_ffc; ei_cl]. eexists. split; [|split; [reflexivity|split; [|split; [|split; [|split]]]]].
  - eapply (th_insert _ _ _ _ _ _ _ 20); [eapply (th_insert _ _ _ _ _ _ _ 20); [apply th_new|vm_compute; reflexivity]|vm_compute; reflexivity].
  - intros c [<-|[<-|[]]].
    + split; [constructor; try (apply ei_inhabited; exact ei_none)|].
      * intros rho V l [<-|[]]; split; vm_compute; tauto.
      * intros rho V. eexists. split; [left; reflexivity|]. vm_compute. reflexivity.
    + split; [constructor; try (apply ei_inhabited; exact ei_one)|]; apply ei_cl_valid.
  - constructor; try (apply ei_inhabited; exact ei_none). intros rho V l [<-|[]]; split; vm_compute; tauto.
  - constructor; try (apply ei_inhabited; exact ei_none). intros rho V l [<-|[]]; split; vm_compute; tauto.
  - eexists. vm_compute. reflexivity.
  - eexists. vm_compute. reflexivity.
Qed.

(** [x0 != c or f(f(x0)) = c] is inserted with inferences, which prove [f(f(c)) = c] *)
Definition ck_n1 := Clause [Lit false ei_c (TVar 0); Lit true (ei_f (ei_f (TVar 0))) ei_c] [Some ei_A].
Definition ck_P (c : clause) : Prop := c = ck_n1 \/ c = ck_ffc.
Lemma ck_P_holds c : ck_P c -> holds_in ei_M c.
Proof.
  intros [->| ->].
  - constructor; try (apply ei_inhabited; exact ei_one).
    + intros rho V. destruct (proj2 ei_cl_valid rho V) as (l & [<-|[<-|[]]] & H); [exists (Lit false ei_c (TVar 0))|exists (Lit true (ei_f (ei_f (TVar 0))) ei_c)];
        (split; [simpl; tauto|]); [intros E; apply H; symmetry; exact E|exact H].
    + intros rho V l [<-|[<-|[]]]; split; unfold ei_f, wt, swt; cbn [swtg left right eval]; try exact Logic.I;
        destruct (ei_env _ _ V) as [E|E]; rewrite ?E; vm_compute; tauto.
  - constructor; try (apply ei_inhabited; exact ei_none).
    + intros rho V. eexists. split; [left; reflexivity|]. vm_compute. reflexivity.
    + intros rho V l [<-|[]]; split; vm_compute; tauto.
Qed.
Lemma basic_sub K M (P : clause -> Prop) : (forall c, P c -> holds_in M c) -> basic K M P.
Proof.
  intros H. destruct (holds_basic M K) as [B1 B2 B3]. constructor; intros c *.
  - intros Hc. apply B1, H, Hc.
  - intros Hc E. apply (B2 c _ (H _ Hc) E).
  - intros Hc E. apply (B3 c _ (H _ Hc) E).
Qed.
Ltac run H := vm_compute in H; first [discriminate H | injection H as H; subst].
Ltac checked H :=
  let t := fresh "t" in let c1 := fresh "c1" in let t1 := fresh "t1" in let t2 := fresh "t2" in
  let E := fresh "E" in let E1 := fresh "E" in let E2 := fresh "E" in let E3 := fresh "E" in
  destruct H as (t & E & _ & c1 & t1 & t2 & E1 & E2 & _ & E3 & _ & H); run E; run E1; run E2; run E3.
Lemma ck_P_closed : closed ei_K un_ts ei_M ck_P 20.
Proof.
  constructor.
  - intros c ls c' [->| ->] Hk E.
    + inversion Hk as [|l ls' ls0 K1|l ls' ls0 G]; subst; [|discriminate G]. inversion K1 as [|l ls'0 ls0 K2|l ls'0 ls0 G]; subst; [|discriminate G].
      inversion K2; subst. run E. left. reflexivity.
    + inversion Hk as [|l ls' ls0 K1|l ls' ls0 G F K1]; subst.
      * inversion K1; subst. run E. right. reflexivity.
      * exfalso. apply (F (fun _ => ei_e0)). vm_compute. reflexivity.
  - intros c rs ls out c' [->| ->] E Hi Hc _; run E.
    + destruct Hi as [Hi|[]]. injection Hi as <- <-. checked Hc. right. reflexivity.
    + destruct Hi.
  - intros c rs ls out c' [->| ->] E Hi Hc _; run E; destruct Hi.
  - intros c rs ls c' [->| ->] E Hi Hc _; run E; destruct Hi.
  - intros c ls c' [->| ->] E; run E.
  - intros c l k i t c' [->| ->] E Hi; run E; destruct Hi.
Qed.
(** [f(f(c)) = c and f(f(f(f(c)))) = c] *)
Definition ck_both := Clause [Lit true (tand (teq ei_A (ei_f (ei_f ei_c)) ei_c) (teq ei_A (ei_f (ei_f (ei_f (ei_f ei_c)))) ei_c)) ttrue] [].
Definition ck_Q (c : clause) : Prop := c = ck_ffc \/ c = ck_ffffc \/ c = ck_fc \/ c = ck_both.
Lemma ei_respects : respects ei_M ei_K.
Proof.
  apply fin_respects.
  - left; reflexivity.
  - intros x Hx. vm_compute in Hx. repeat (destruct Hx as [<-|Hx]; [exact Logic.I|]). contradiction.
  - intros; exact Logic.I.
  - intros m i rho. cbn [ei_K k_global]. destruct (N.eqb i 1); vm_compute; tauto.
  - intros; exact Logic.I.
  - intros m i rho. vm_compute. tauto.
  - intros m i rho. cbn [ei_I ei_K k_global]. destruct (N.eqb_spec i 1) as [->|H0]; vm_compute; tauto.
  - intros i rho. vm_compute; tauto.
Qed.
Lemma ck_Q_answerable : answerable ei_M ei_K 20 ck_Q.
Proof.
  constructor.
  - intros c [->|[->|[->| ->]]] l [<-|[]] _ rho; split; vm_compute; tauto.
  - intros c [->|[->|[->| ->]]]; (constructor;
      [constructor; [intros l v [<-|[]] Hv; vm_compute in Hv; tauto|intros v d Hd; destruct v; destruct Hd]
      |intros rho V l [<-|[]]; split; vm_compute; tauto
      |intros rho V [|i] T HT; discriminate HT
      |intros l [<-|[]]; split; [eexists; split; vm_compute; reflexivity|vm_compute; tauto]]).
  - intros c [->|[->|[->| ->]]]; exists (fun v => v); intros [|v] d [].
  - intros c l [->|[->|[->| ->]]] [<-|[]] A body T a b E; discriminate E.
  - intros c k i ls c' [->|[->|[->| ->]]] E rho V l Hl; (destruct i as [|[|i]]; [destruct k; vm_compute in E; try discriminate E; injection E as <- <-| |]; try discriminate E);
      (destruct Hl as [<-|[]]; split; vm_compute; tauto).
  - intros c l k i t c' [->|[->|[->| ->]]] E Hi Hc; run E; try solve [destruct Hi]; destruct Hi as [Hi|[Hi|[]]]; injection Hi as <- <- <-;
      destruct Hc as (_ & c1 & t1 & t2 & E1 & E2 & _ & E3 & _ & ->); run E1; run E2; run E3; [left|right; left]; reflexivity.
Qed.
Lemma ck_Q_query c : ck_Q c -> query ei_M c.
Proof.
  intros [->|[->|[->| ->]]]; (apply inhabited_query; [apply ei_inhabited; exact ei_none|apply ei_inhabited; exact ei_none|]);
    intros rho V l [<-|[]]; split; vm_compute; tauto.
Qed.
Example deep_checking_case : exists s, deep_history ei_K un_ts ck_none (fun _ => true) (fun _ _ => true) ck_idk ck_idc (fun l => l) 20 [ck_n1] [] s /\
  eta_model ei_M /\ respects ei_M ei_K /\ basic ei_K ei_M ck_P /\ closed ei_K un_ts ei_M ck_P 20 /\ answerable ei_M ei_K 20 ck_Q /\
  (forall c, In c [ck_n1] -> ck_P c) /\ (forall c, ck_Q c -> query ei_M c) /\
  (exists s', check ei_K ck_none (fun _ _ => true) ck_idk ck_idc 20 s ck_ffffc = Ok (s', true)) /\
  (exists s', check ei_K ck_none (fun _ _ => true) ck_idk ck_idc 20 s ck_both = Ok (s', true)) /\
  (exists s', check ei_K ck_none (fun _ _ => true) ck_idk ck_idc 20 s ck_fc = Ok (s', false)).
Proof.
  eexists. split; [|split; [|split; [|split; [|split; [|split; [|split; [|split; [|split; [|split]]]]]]]]].
  - eapply dh_deep with (c := ei_cl) (re := true); [apply dh_new|vm_compute; reflexivity|vm_compute; reflexivity].
  - exact ei_eta.
  - exact ei_respects.
  - apply basic_sub, ck_P_holds.
  - exact ck_P_closed.
  - exact ck_Q_answerable.
  - intros c [<-|[]]. left. reflexivity.
  - exact ck_Q_query.
  - eexists. vm_compute. reflexivity.
  - eexists. vm_compute. reflexivity.
  - eexists. vm_compute. reflexivity.
Qed.
(** The conjunction has one set, of two clauses. *)
Example reduction_sets_case :
  checker_boolean_reduction_sets ei_K ck_none 20 ck_new ck_both = Ok [[ck_ffc; ck_ffffc]] /\ ck_Q ck_both /\ valid ei_M ck_both.
Proof.
  split; [vm_compute; reflexivity|]. split; [right; right; right; reflexivity|].
  intros rho V. eexists. split; [left; reflexivity|]. vm_compute. reflexivity.
Qed.

(** The normalization of derived clauses keeps the variables of [A] that is not known to have elements, and
    drops them if it is. *)
Example checker_normalization_case :
  canonical ck_none 20 ck_new [Lit true (ei_f (ei_f ei_c)) ei_c] [Some ei_A] = Ok None /\
  canonical (fun T _ => term_eqb T ei_A) 20 ck_new [Lit true (ei_f (ei_f ei_c)) ei_c; Lit true (ei_f (TVar 1)) ei_c] [Some ei_A; Some ei_A] =
    Ok (Some (Clause [Lit true (ei_f (ei_f ei_c)) ei_c; Lit true (ei_f (TVar 0)) ei_c] [Some ei_A])) /\
  (forall T c, term_eqb T ei_A = true -> inhabited_at ei_M c T) /\
  clause_pwt ei_M (Clause [Lit true (ei_f (ei_f ei_c)) ei_c; Lit true (ei_f (TVar 1)) ei_c] [Some ei_A; Some ei_A]) /\
  acyclic [Some ei_A; Some ei_A].
Proof.
  split; [vm_compute; reflexivity|]. split; [vm_compute; reflexivity|]. split; [|split].
  - intros T c H rho _. apply term_eqb_eq in H. subst T. exists ei_e0. vm_compute. tauto.
  - intros rho V l [<-|[<-|[]]]; split; unfold ei_f; cbn [swtg left right eval]; try exact Logic.I; try (vm_compute; tauto).
    assert (E : rho 1 = ei_e0 \/ rho 1 = ei_e1) by (specialize (V 1 _ eq_refl); vm_compute in V; intuition).
    destruct E as [E|E]; rewrite ?E; vm_compute; tauto.
  - apply ei_inhabited. intros [|[|[|v]]] T H; unfold get_var_type in H; simpl in H; try congruence. 
Qed.
