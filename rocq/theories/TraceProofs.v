(** Invariants of the checking of a trace (TraceChecker.v) in a model of the clauses given. *)
From Coq Require Import List Arith NArith Bool Lia Permutation.
Import ListNotations.
From Verif Require Import Term LocalContext Semantics TermProofs SemFacts TermNorm TermNormProofs Literal Clause ClauseSem RenumberProofs ClauseProofs ClauseWf P_Clause P_TermNorm
  Typing VariableMap Unifier Inference BoolReduction ClauseSet EqualityGraph Checker CheckerProofs CheckerSem TypingProofs BoolReductionProofs CheckerSets P_Checker Fragment TraceChecker.

Lemma any_m_true {A} (f : A -> res bool) l : any_m f l = Ok true -> exists x, In x l /\ f x = Ok true.
Proof.
  induction l as [|x l IH]; simpl; intros H; [discriminate|]. dob H. destruct a; [exists x; auto|].
  destruct (IH H) as (y & Hy & E'). exists y; auto.
Qed.
Lemma all_m_true {A} (f : A -> res bool) l : all_m f l = Ok true -> forall x, In x l -> f x = Ok true.
Proof.
  induction l as [|x l IH]; simpl; intros H y Hy; [destruct Hy|]. dob H. destruct a; [|discriminate]. destruct Hy as [<-|Hy]; auto.
Qed.
Lemma dedup_in_iff p seen l x : In x (dedup_aliases p seen l) -> In x l.
Proof.
  revert seen. induction l as [|a l IH]; simpl; intros seen H; [auto|]. destruct (clause_eqb a p || clause_in a seen); [right; eauto|].
  destruct H as [H|H]; eauto.
Qed.
Lemma step_clauses_in p l x : In x (step_clauses p l) -> x = p \/ In x l.
Proof. unfold step_clauses. intros [H|H]; auto. right. eapply dedup_in_iff; eauto. Qed.
Lemma premise_clauses_in cs ps l c : premise_clauses cs ps = Some l -> In c l -> exists d, In d cs /\ In c d.
Proof.
  revert l. induction ps as [|p ps IH]; simpl; intros l H Hc; [injection H as <-; destruct Hc|].
  destruct (nth_error cs p) as [d|] eqn:E; [|discriminate]. destruct (premise_clauses cs ps) as [l'|] eqn:E'; [|discriminate]. injection H as <-.
  apply in_app_or in Hc. destruct Hc as [Hc|Hc]; [|eauto]. exists d. split; auto. eapply nth_error_In; eauto.
Qed.

(** The rules under which the generic clause of a claim is inserted although it may be the specialized one that is justified *)
Definition lifts (t : tstep) : bool :=
  match st_rule t with
  | RFact | RClaim | RBrIntro => negb (st_wrapper t)
  | RBr => st_generic t && negb (st_wrapper t)
  | RWit => true
  | _ => false
  end.
(** What has to be known of a step: its clauses are in the set [W]; specialized clauses are instances; a
    witness has the properties declared for it; [gs_lift]: the generic clause holds if the specialized one
    does, where it is inserted. *)
Record good_step (M : Model) (W : clause -> Prop) (t : tstep) : Prop := {
  gs_claim : forall g sp, st_parsed t = PClaim g sp -> W g;
  gs_special : forall g sp, st_parsed t = PClaim g (Some sp) -> W sp /\ (valid M g -> valid M sp);
  gs_lift : forall g sp, st_parsed t = PClaim g (Some sp) -> lifts t = true -> valid M sp -> valid M g;
  gs_satisfy : forall g j sp ws, st_parsed t = PSatisfy g (Some j) sp ws ->
    W g /\ W j /\ (valid M g <-> valid M j) /\
    forall c, sp = Some c \/ In c ws -> W c /\ (valid M j -> valid M c)
}.

Section T.
Context (K : kctx) (ts : tstore) (inhab : term -> lctx -> bool) (avail : clause -> bool) (path : egraph -> literal -> bool).
Context (ordk : nat -> list nat -> list nat) (ordc : nat -> list clauseid -> list clauseid) (orde : list clause -> list clause).
Context (ordk_perm : forall n l, Permutation (ordk n l) l) (ordc_perm : forall n l, Permutation (ordc n l) l).
Context (orde_incl : forall l, incl (orde l) l).
Context (M : Model) (n : nat) (W : clause -> Prop) (F : fragment M K ts n W) (He : eta_model M) (R : respects M K).
Context (inhab_sound : forall T c, inhab T c = true -> inhabited_at M c T).
Notation tr := (true_in M W).
Notation okay := (ok ordk ordc M tr).
Notation known := (check_for_trace path ordk ordc).
Let BS := frag_basic M K ts n W F.
Let CL := frag_closed M K ts n W F He R.
Let QS := answerable_queries M K R He n W (frag_answerable M K ts n W F) inhab ordk ordc tr inhab_sound.

Lemma known_ok s c s' b : okay s -> W c -> known n s c = Ok (s', b) -> okay s' /\ (b = true -> valid M c).
Proof.
  intros H Hw E. pose proof E as E'. unfold check_for_trace in E. dob E. clear E.
  destruct (frag_normal M K ts n W F He c a Hw E0) as [W' V'].
  destruct (for_trace_sound K path ordk ordc ordk_perm ordc_perm M tr BS n s c a s' b H E0 (frag_query M K ts n W F a W') E') as [H1 V1].
  split; auto. intros Hb. apply V', V1, Hb.
Qed.
Lemma insert_ok s c s' : okay s -> W c -> valid M c -> insert_for_trace K ordk ordc n s c = Ok s' -> okay s'.
Proof.
  intros H Hw V E. unfold insert_for_trace in E. dob E. destruct (frag_normal M K ts n W F He c a Hw E0) as [W' V'].
  eapply (ok_shallow K ordk ordc M tr BS); [exact H| |exact E]. split; auto. apply V', V.
Qed.
Lemma insert_all_ok l : forall s s', okay s -> (forall c, In c l -> W c /\ valid M c) -> insert_all K ordk ordc n s l = Ok s' -> okay s'.
Proof.
  unfold insert_all. induction l as [|c l IH]; simpl; intros s s' H Hl E; [injection E as <-; auto|]. dob E.
  destruct (Hl c (or_introl eq_refl)) as [W1 V1]. eapply IH; [| |exact E]; [eapply insert_ok; eauto|auto].
Qed.
Lemma any_known l : forall s s' b, okay s -> (forall c, In c l -> W c) -> any_s (known n) s l = Ok (s', b) ->
  okay s' /\ (b = true -> exists c, In c l /\ valid M c).
Proof.
  induction l as [|c l IH]; simpl; intros s s' b H Hl E; [injection E as <- <-; split; [auto|discriminate]|].
  dob E. destruct a as [s1 b1]. destruct (known_ok _ _ _ _ H (Hl c (or_introl eq_refl)) E0) as [H1 V1].
  destruct b1; [injection E as <- <-; split; auto; intros _; exists c; auto|].
  destruct (IH s1 s' b H1 ltac:(auto) E) as [H2 V2]. split; auto. intros Hb. destruct (V2 Hb) as (x & X1 & X2). exists x; auto.
Qed.
Lemma proves_ok s c s' b : okay s -> W c -> reduction_proves K inhab ordk ordc n s c = Ok (s', b) -> okay s' /\ (b = true -> valid M c).
Proof.
  intros H Hw E. unfold reduction_proves in E. dob E. destruct (frag_normal M K ts n W F He c a Hw E0) as [W' V'].
  unfold check_via_reductions in E. dob E. destruct a0 as [[s3 sn] b3]. injection E as <- <-.
  destruct (reductions_sound K inhab ordk ordc ordk_perm ordc_perm M tr BS inhab_sound n W QS n s [] a s3 sn b3 H W' E1) as [H2 V2].
  split; auto. intros Hb. apply V', V2, Hb.
Qed.
Lemma any_proves l : forall s s' b, okay s -> (forall c, In c l -> W c) -> any_s (reduction_proves K inhab ordk ordc n) s l = Ok (s', b) ->
  okay s' /\ (b = true -> exists c, In c l /\ valid M c).
Proof.
  induction l as [|c l IH]; simpl; intros s s' b H Hl E; [injection E as <- <-; split; [auto|discriminate]|].
  dob E. destruct a as [s1 b1]. destruct (proves_ok _ _ _ _ H (Hl c (or_introl eq_refl)) E0) as [H1 V1].
  destruct b1; [injection E as <- <-; split; auto; intros _; exists c; auto|].
  destruct (IH s1 s' b H1 ltac:(auto) E) as [H2 V2]. split; auto. intros Hb. destruct (V2 Hb) as (x & X1 & X2). exists x; auto.
Qed.
Lemma canonical_valid s c c' : okay s -> W c -> canonical_clause inhab n s c = Ok (Some c') -> (valid M c <-> valid M c').
Proof.
  intros H Hw E. destruct (fr_suitable _ _ _ _ _ F c Hw) as [H1 H2 H3]. unfold canonical_clause in E.
  assert (X : valid M c <-> valid M (Clause (literals c) (context c))) by (destruct c; tauto). rewrite X.
  refine (proj2 (proj2 (checked_sound M n (literals c) (context c) c' He H2 _ _))); [destruct c; auto|].
  eapply result_checked; eauto.
Qed.
Lemma same_valid s a b : okay s -> W a -> (W b \/ (forall b', canonical_clause inhab n s b = Ok (Some b') -> (valid M b <-> valid M b'))) ->
  same inhab n s a b = Ok true -> (valid M a <-> valid M b).
Proof.
  intros H Wa Wb E. unfold same in E. destruct (clause_eqb a b) eqn:Eq; [apply clause_eqb_true in Eq; subst; tauto|].
  unfold same_canonical in E. dob E. destruct a0 as [x|]; [|discriminate]. dob E. injection E as E. destruct a0 as [y|]; [|discriminate].
  apply clause_eqb_true in E. subst y. rewrite (canonical_valid _ _ _ H Wa E0). destruct Wb as [Wb|Wb].
  - symmetry. exact (canonical_valid _ _ _ H Wb E1).
  - symmetry. auto.
Qed.
Lemma apply_sound s c k i d : okay s -> tr c -> apply_reduction K inhab n s c k i = Ok (Some d) -> valid M d.
Proof.
  intros H [Hw V] E. unfold apply_reduction in E. dob E. apply unwrap_ok in E0. destruct a as [t|]; [|discriminate].
  pose proof (trace_checked inhab ordk ordc M tr inhab_sound n s t d H E) as Hc.
  destruct (frag_reduction M K ts n W F He _ _ _ _ _ Hw E0 Hc) as (ls & e & Er & Vi).
  apply Vi. exact (proj1 (reduced_literals_sound M _ _ _ _ _ _ _ Er R (fr_reducible _ _ _ _ _ F c Hw) V)).
Qed.
Lemma canonical_targets_in s l out d : canonical_targets inhab n s l = Ok out -> In d out -> exists c, In c l /\ canonical_clause inhab n s c = Ok (Some d).
Proof.
  revert out. induction l as [|c l IH]; simpl; intros out E Hd; [injection E as <-; destruct Hd|]. dob E. dob E. injection E as <-.
  destruct a as [c'|].
  - destruct Hd as [<-|Hd]; [exists c; auto|]. destruct (IH _ eq_refl Hd) as (x & X1 & X2). exists x; auto.
  - destruct (IH _ eq_refl Hd) as (x & X1 & X2). exists x; auto.
Qed.
Lemma some_result_in s r rs : some_result inhab n s r rs = Ok true -> exists ls out, In (ls, out) rs /\ canonical inhab n s ls out = Ok (Some r).
Proof.
  induction rs as [|[ls out] rs IH]; simpl; intros E; [discriminate|]. dob E. destruct a as [c|].
  - destruct (clause_eqb c r) eqn:Eq; [apply clause_eqb_true in Eq; subst; exists ls, out; auto|].
    destruct (IH E) as (x & y & X1 & X2). exists x, y; auto.
  - destruct (IH E) as (x & y & X1 & X2). exists x, y; auto.
Qed.
Lemma resolution_sound s c r : okay s -> tr c -> resolution_derives K ts inhab n s c r = Ok true -> valid M r.
Proof.
  intros H [Hw V] E. unfold resolution_derives in E. dob E. apply unwrap_ok in E0. destruct (some_result_in _ _ _ E) as (ls & out & Hi & Hc).
  apply (fr_resolution _ _ _ _ _ F _ _ _ _ _ Hw E0 Hi); auto. eapply result_checked; eauto.
Qed.
Lemma factoring_sound s c r : okay s -> tr c -> factoring_derives K ts inhab n s c r = Ok true -> valid M r.
Proof.
  intros H [Hw V] E. unfold factoring_derives in E. dob E. apply unwrap_ok in E0. destruct (some_result_in _ _ _ E) as (ls & out & Hi & Hc).
  apply (fr_factoring _ _ _ _ _ F _ _ _ _ _ Hw E0 Hi); auto. eapply result_checked; eauto.
Qed.
Lemma injectivity_sound s c r : okay s -> tr c -> injectivity_derives inhab n s c r = Ok true -> valid M r.
Proof.
  intros H [Hw V] E. unfold injectivity_derives in E. dob E. apply unwrap_ok in E0. destruct (some_result_in _ _ _ E) as (ls & out & Hi & Hc).
  apply in_map_iff in Hi. destruct Hi as (x & Hx & Hi). injection Hx as -> <-.
  apply (fr_injectivity _ _ _ _ _ F _ _ _ _ Hw E0 Hi); auto. eapply result_checked; eauto.
Qed.
Lemma extensionality_sound c r : tr c -> extensionality_derives K c r = Ok true -> valid M r.
Proof.
  intros [Hw V] E. unfold extensionality_derives in E. dob E. apply unwrap_ok in E0. destruct a as [ls|]; [|discriminate].
  dob E. apply unwrap_ok in E1. injection E as E. apply clause_eqb_true in E. subst a.
  apply (fr_extensionality _ _ _ _ _ F _ _ _ Hw E0 E1); auto.
Qed.
Lemma derives_ok s c r s' b : okay s -> tr c -> W r -> graph_derives path ordk ordc n s c r = Ok (s', b) -> okay s' /\ (b = true -> valid M r).
Proof.
  intros H Hc Hr E. unfold graph_derives in E. dob E. destruct a as [s1 o].
  destruct (simplify_ok K ts path ordk ordc ordk_perm ordc_perm M tr BS n CL s c s1 o H Hc E0) as [H1 So].
  destruct o as [c'|]; [|eapply known_ok; eauto]. destruct (clause_eqb c' r) eqn:Eq; [|eapply known_ok; eauto].
  injection E as <- <-. apply clause_eqb_true in Eq. subst c'. split; auto. intros _. apply (So r eq_refl).
Qed.
Lemma any_derives r l : W r -> forall s s' b, okay s -> (forall c, In c l -> tr c) ->
  any_s (fun s source => graph_derives path ordk ordc n s source r) s l = Ok (s', b) -> okay s' /\ (b = true -> valid M r).
Proof.
  intros Hr. induction l as [|c l IH]; simpl; intros s s' b H Hl E; [injection E as <- <-; split; [auto|discriminate]|].
  dob E. destruct a as [s1 b1]. destruct (derives_ok _ _ _ _ _ H (Hl c (or_introl eq_refl)) Hr E0) as [H1 V1].
  destruct b1; [injection E as <- <-; split; auto|]. exact (IH s1 s' b H1 ltac:(auto) E).
Qed.
Lemma possible' c : tr c -> clause_is_impossible c = false.
Proof. apply (possible K M tr BS). Qed.
Lemma closes_sound s c : okay s -> tr c -> reduction_closes K ts inhab avail path ordk ordc orde n s c = Ok true -> False.
Proof.
  intros H [Hw V] E. unfold reduction_closes in E. dob E. destruct (frag_normal M K ts n W F He c a Hw E0) as [W' V'].
  assert (T : tr a) by (split; [auto|apply V', V]). rewrite (possible' a T) in E. dob E.
  assert (H1 : okay a0).
  { eapply insert_ok; [| | |exact E1]; [apply ok_with_eager; auto|exact W'|apply T]. }
  destruct (clause_in a (ck_exact a0)); simpl in E; [|discriminate]. dob E. injection E as E.
  assert (H2 : okay a1).
  { refine (insert_reductions_ok K ts inhab avail ordk ordc M tr inhab_sound n CL _ _ _ _ _ (ok_with_eager _ _ _ _ _ true H1) T E2).
    intros s0 c0 s0' H0 Hc0 X. exact (ok_internal K ts inhab avail path ordk ordc orde ordk_perm ordc_perm orde_incl M tr BS inhab_sound n CL n s0 false c0 s0' H0 Hc0 X). }
  rewrite (ok_no_contradiction ordk ordc ordk_perm ordc_perm M _ _ H2) in E. discriminate.
Qed.
Lemma specializes_sound a b : W a -> W b -> clause_specializes K n a b = Ok true -> valid M a -> valid M b.
Proof.
  intros Wa Wb E V. unfold clause_specializes in E. dob E. dob E. destruct (frag_normal M K ts n W F He _ _ Wa E0) as [Wa' Va].
  destruct (frag_normal M K ts n W F He _ _ Wb E1) as [Wb' Vb]. apply Vb. apply Va in V.
  destruct (clause_eqb a0 a1) eqn:Eq; [apply clause_eqb_true in Eq; subst; auto|]. apply unwrap_ok in E.
  exact (fr_match _ _ _ _ _ F _ _ Wa' Wb' E V).
Qed.
Lemma negated c l c' : tr c -> literals c = [l] -> clause_new [negate l] (context c) = Some c' -> W c' /\ ~ valid M c'.
Proof.
  intros [Hw V] El E. split; [exact (fr_negate _ _ _ _ _ F _ _ _ Hw El E)|]. intros V'.
  destruct (fr_suitable _ _ _ _ _ F c Hw) as [H1 H2 H3].
  assert (W' : clause_wt M (Clause [negate l] (context c))).
  { intros r Hr x [<-|[]]. destruct (pwt_wt _ _ H1 r Hr l) as [X1 X2]; [rewrite El; left; auto|]. destruct l; split; auto. }
  pose proof (normalization_reflects_validity (Clause [negate l] (context c)) c' (or_introl (ex_intro _ 0 E)) M W' V') as V2.
  destruct (some_valid_env M _ H2 H3) as [rho Hr]. destruct (V2 rho Hr) as (x & [<-|[]] & Hx).
  destruct (V rho Hr) as (y & Hy & Hh). rewrite El in Hy. destruct Hy as [<-|[]].
  unfold lit_holds in *. destruct l as [p a b]. destruct p; simpl in *; tauto.
Qed.
Lemma contradict_sound a b : tr a -> tr b -> clauses_contradict K ordk ordc n a b = Ok true -> False.
Proof.
  intros Ta Tb E. unfold clauses_contradict in E. rewrite (possible' _ Ta), (possible' _ Tb) in E. simpl in E.
  assert (X : (if clause_has_any_variable a || clause_has_any_variable b then Ok false else
     do s <- insert_for_trace K ordk ordc n ck_new a; do s <- insert_for_trace K ordk ordc n s b; Ok (has_contradiction s)) = Ok true -> False).
  { clear E. intros E. destruct (_ || _); [discriminate|]. dob E. dob E. injection E as E.
    assert (H1 : okay a0) by (eapply insert_ok; [|apply Ta|apply Ta|exact E0]; apply ok_new).
    assert (H2 : okay a1) by (eapply insert_ok; [|apply Tb|apply Tb|exact E1]; auto).
    rewrite (ok_no_contradiction ordk ordc ordk_perm ordc_perm M _ _ H2) in E. discriminate. }
  destruct (literals a) as [|la [|? ?]] eqn:La; auto. destruct (literals b) as [|lb [|? ?]] eqn:Lb; auto.
  dob E. dob E. dob E. apply unwrap_ok in E0, E1. destruct (negated _ _ _ Ta La E0) as [Wna Nna]. destruct (negated _ _ _ Tb Lb E1) as [Wnb Nnb].
  destruct a2; [apply Nnb; exact (specializes_sound a a1 (proj1 Ta) Wnb E2 (proj2 Ta))|].
  apply Nna. exact (specializes_sound b a0 (proj1 Tb) Wna E (proj2 Tb)).
Qed.

(** ** steps *)
Definition tok (st : tstate) : Prop := okay (fst st) /\ forall l c, In l (snd st) -> In c l -> tr c.
Lemma accept_ok s cs p al st : okay s -> (forall l c, In l cs -> In c l -> tr c) -> tr p -> (forall c, In c al -> tr c) ->
  accept K ordk ordc n s cs p al = Ok (Some st) -> tok st.
Proof.
  intros H Hc Hp Ha E. unfold accept in E. dob E. injection E as <-.
  assert (A : forall c, In c (step_clauses p al) -> tr c) by (intros c Hi; destruct (step_clauses_in _ _ _ Hi) as [->|Hi']; auto).
  split; simpl.
  - eapply insert_all_ok; [exact H| |exact E0]. intros c Hi. exact (A c Hi).
  - intros l c Hl Hi. apply in_app_or in Hl. destruct Hl as [Hl|[<-|[]]]; eauto.
Qed.
Lemma parsed_generic t g sp : good_step M W t -> required_with_generic t = Some (g, sp) ->
  W g /\ W sp /\ (valid M g -> valid M sp) /\ (lifts t = true -> valid M sp -> valid M g) /\
  (st_generic t && st_wrapper t = true -> sp = g).
Proof.
  intros [G1 G2 G3 _] E. unfold required_with_generic in E. destruct (st_parsed t) as [g0 sp0|? ? ? ?|]; try discriminate.
  destruct (st_generic t && st_wrapper t) eqn:Eg.
  - injection E as <- <-. pose proof (G1 _ _ eq_refl). auto.
  - destruct sp0 as [x|]; [|discriminate]. injection E as <- <-. destruct (G2 _ _ eq_refl). pose proof (G1 _ _ eq_refl).
    split; auto. split; auto. split; auto. split; [intros; eapply G3; eauto|discriminate].
Qed.
Lemma chosen_W t g sp : W g -> W sp -> W (chosen t g sp).
Proof. unfold chosen. destruct (st_generic t); auto. Qed.
Lemma required_W t c : good_step M W t -> required t = Some c -> W c.
Proof.
  intros [G1 G2 _ _] E. unfold required in E. destruct (st_parsed t) as [g0 sp0|? ? ? ?|]; try discriminate.
  destruct (st_generic t); [injection E as <-; eauto|]. subst sp0. eapply G2; eauto.
Qed.
(** one of generic, chosen and specialized is justified *)
Lemma claim_true t g sp c : good_step M W t -> required_with_generic t = Some (g, sp) -> (st_wrapper t = false -> lifts t = true) ->
  In c [g; chosen t g sp; sp] -> valid M c -> tr (chosen t g sp) /\ forall d, In d (if st_wrapper t then [] else claim_aliases g sp) -> tr d.
Proof.
  intros G E L Hc V. destruct (parsed_generic _ _ _ G E) as (W1 & W2 & I1 & I2 & I3).
  assert (V1 : valid M sp).
  { unfold chosen in Hc. destruct (st_generic t); simpl in Hc; destruct Hc as [<-|[<-|[<-|[]]]]; auto. }
  assert (V2 : st_wrapper t = false -> valid M g) by auto.
  assert (V3 : st_generic t = true -> valid M g).
  { intros Hg. destruct (st_wrapper t) eqn:Ew; auto. rewrite <- (I3 ltac:(rewrite Hg; auto)). auto. }
  split.
  - split; [apply chosen_W; auto|]. unfold chosen. destruct (st_generic t) eqn:Eg; auto.
  - intros d. destruct (st_wrapper t) eqn:Ew; [intros []|]. unfold claim_aliases. destruct (clause_eqb g sp); [intros []|]. intros [<-|[]].
    split; auto.
Qed.
Lemma claim_ok st t st' : (st_rule t = RFact \/ st_rule t = RClaim) -> tok st -> good_step M W t -> check_claim K path ordk ordc n st t = Ok (Some st') -> tok st'.
Proof.
  intros Hr [H Hc] G E. destruct st as [s cs]. simpl in *. destruct (required_with_generic t) as [[g sp]|] eqn:Er; [|discriminate].
  destruct (parsed_generic _ _ _ G Er) as (W1 & W2 & _). cbn [rbind] in E. dob E. destruct a as [s1 b].
  destruct (any_known [g; chosen t g sp; sp] _ _ _ H ltac:(intros c [<-|[<-|[<-|[]]]]; auto; apply chosen_W; auto) E0) as [H1 V1].
  destruct b; [|discriminate]. destruct (V1 eq_refl) as (c & Hi & V).
  assert (L : st_wrapper t = false -> lifts t = true) by (intros Ew; unfold lifts; rewrite Ew; destruct Hr as [-> | ->]; auto).
  destruct (claim_true t g sp c G Er L Hi V) as [T1 T2]. exact (accept_ok _ _ _ _ _ H1 Hc T1 T2 E).
Qed.
Lemma inst_ok st t st' : tok st -> good_step M W t -> check_inst K inhab ordk ordc n st t = Ok (Some st') -> tok st'.
Proof.
  intros [H Hc] G E. destruct st as [s cs]. simpl in *. destruct (st_premises t) as [|p [|? ?]]; try discriminate.
  destruct (nth_error cs p) as [sources|] eqn:Ep; [|discriminate]. destruct (required_with_generic t) as [[g sp]|] eqn:Er; [|discriminate].
  destruct (parsed_generic _ _ _ G Er) as (W1 & W2 & I1 & _). dob E. destruct a; [|discriminate].
  destruct (any_m_true _ _ E0) as (x & Hx & Ex). pose proof (Hc _ _ (nth_error_In _ _ Ep) Hx) as Tx.
  apply (same_valid s x g H (proj1 Tx) (or_introl W1)) in Ex. refine (accept_ok _ _ _ _ _ H Hc _ _ E); [|intros ? []].
  split; auto. apply I1, Ex, Tx.
Qed.
Lemma br_ok st t st' : st_rule t = RBr -> tok st -> good_step M W t -> check_br K inhab ordk ordc n st t = Ok (Some st') -> tok st'.
Proof.
  intros Hr [H Hc] G E. destruct st as [s cs]. simpl in *. destruct (st_premises t) as [|p [|? ?]]; try discriminate.
  destruct (nth_error cs p) as [sources|] eqn:Ep; [|discriminate]. destruct (required_with_generic t) as [[g sp]|] eqn:Er; [|discriminate].
  destruct (parsed_generic _ _ _ G Er) as (W1 & W2 & I1 & I2 & I3). destruct (st_kind t) as [k|]; [|discriminate]. destruct (st_lit t) as [i|]; [|discriminate].
  dob E. rename a into targets. dob E. destruct a; [|discriminate]. destruct (any_m_true _ _ E1) as (x & Hx & Ex).
  pose proof (Hc _ _ (nth_error_In _ _ Ep) Hx) as Tx. cbn beta in Ex. dob Ex. injection Ex as Ex. destruct a as [d|]; [|discriminate].
  pose proof (apply_sound _ _ _ _ _ H Tx E2) as Vd. change (clause_in d (chosen t g sp :: g :: sp :: targets) = true) in Ex. apply clause_in_iff in Ex.
  assert (X : exists c, In c [chosen t g sp; g; sp] /\ valid M c).
  { destruct Ex as [<-|[<-|[<-|Ht]]]; [eexists; split; [left; reflexivity|auto]|eexists; split; [right; left; reflexivity|auto]|eexists; split; [right; right; left; reflexivity|auto]|].
    destruct (canonical_targets_in s [chosen t g sp; g; sp] targets d) as (c & Hi & Ec); [simpl; exact E0|auto|]. exists c. split; auto.
    apply (canonical_valid s c d H); auto. destruct Hi as [<-|[<-|[<-|[]]]]; auto. apply chosen_W; auto. }
  destruct X as (c & Hi & V). refine (accept_ok _ _ _ _ _ H Hc _ _ E); [|intros ? []]. split; [apply chosen_W; auto|].
  unfold chosen in *. unfold lifts in I2. rewrite Hr in I2. destruct (st_generic t); simpl in *.
  - destruct (st_wrapper t); [rewrite (I3 eq_refl) in *; destruct Hi as [<-|[<-|[<-|[]]]]; auto|]. simpl in *. destruct Hi as [<-|[<-|[<-|[]]]]; auto.
  - destruct Hi as [<-|[<-|[<-|[]]]]; auto.
Qed.
Lemma target_sound s given c : okay s -> (forall x, In x given -> tr x) -> W c -> target_given K inhab n s given c = Ok true -> valid M c.
Proof.
  intros H Hg Wc E. unfold target_given in E. dob E. destruct (any_m_true _ _ E) as (set & Hs & Es).
  pose proof E0 as Es0. unfold checker_boolean_reduction_sets in E0. dob E0. apply unwrap_ok in E1.
  refine (qs_set _ _ _ _ _ _ _ _ QS s c a set H Wc Es0 Hs _).
  intros m Hm. unfold set_given in Es. pose proof (all_m_true _ _ Es m Hm) as Em. cbn beta in Em.
  destruct (any_m_true _ _ Em) as (x & Hx & Ex). destruct (Hg x Hx) as [Wx Vx].
  assert (Wm : W m).
  { destruct (sets_members inhab n s a0 a E0 set m Hs Hm) as (k & i & t & Ht & N).
    exact (fr_reduction _ _ _ _ _ F _ _ _ _ _ Wc (find_reductions_at _ _ _ _ _ _ _ E1 Ht) (trace_checked inhab ordk ordc M tr inhab_sound n s t m H N)). }
  exact (proj1 (same_valid s x m H Wx (or_introl Wm) Ex) Vx).
Qed.
Lemma br_intro_ok st t st' : st_rule t = RBrIntro -> tok st -> good_step M W t -> check_br_intro K inhab ordk ordc n st t = Ok (Some st') -> tok st'.
Proof.
  intros Hr [H Hc] G E. destruct st as [s cs]. cbn [fst snd] in *; unfold check_br_intro in E. destruct (required_with_generic t) as [[g sp]|] eqn:Er; [|discriminate].
  destruct (parsed_generic _ _ _ G Er) as (W1 & W2 & _).
  assert (L : st_wrapper t = false -> lifts t = true) by (intros Ew; unfold lifts; rewrite Ew, Hr; auto).
  destruct (st_premises t) as [|p ps].
  - dob E. destruct a as [s1 b].
    destruct (any_proves [g; chosen t g sp; sp] _ _ _ H ltac:(intros c [<-|[<-|[<-|[]]]]; auto; apply chosen_W; auto) E0) as [H1 V1].
    destruct b; [|discriminate]. destruct (V1 eq_refl) as (c & Hi & V).
    destruct (claim_true t g sp c G Er L Hi V) as [T1 T2]. exact (accept_ok _ _ _ _ _ H1 Hc T1 T2 E).
  - destruct (premise_clauses cs (p :: ps)) as [given|] eqn:Eg; [|discriminate]. dob E. destruct a; [|discriminate].
    destruct (any_m_true _ _ E0) as (c & Hi & Ec).
    assert (Hi' : In c [g; chosen t g sp; sp]).
    { unfold intro_targets in Hi. destruct Hi as [<-|Hi]; [simpl; auto|]. apply in_app_or in Hi.
      destruct Hi as [Hi|Hi]; [destruct (clause_eqb sp _) in Hi|destruct (clause_eqb g _ || clause_eqb g sp) in Hi]; try destruct Hi as [<-|[]]; try destruct Hi; simpl; auto. }
    assert (V : valid M c).
    { apply (target_sound s given c H); auto.
      - intros x Hx. destruct (premise_clauses_in _ _ _ _ Eg Hx) as (l & L1 & L2). eauto.
      - destruct Hi' as [<-|[<-|[<-|[]]]]; auto. apply chosen_W; auto. }
    destruct (claim_true t g sp c G Er L Hi' V) as [T1 T2]. exact (accept_ok _ _ _ _ _ H Hc T1 T2 E).
Qed.
Lemma eq_local_ok s cs ps c st' : okay s -> (forall l c, In l cs -> In c l -> tr c) -> W c -> check_eq_local K path ordk ordc n s cs ps c = Ok (Some st') -> tok st'.
Proof.
  intros H Hc Wc E. unfold check_eq_local in E. destruct (premise_clauses cs (ordered_premises cs ps)) as [sources|] eqn:Eg; [|discriminate].
  assert (T : forall x, In x sources -> tr x) by (intros x Hx; destruct (premise_clauses_in _ _ _ _ Eg Hx) as (l & L1 & L2); eauto).
  dob E. assert (H1 : okay a) by (eapply insert_all_ok; [apply ok_with_eager, ok_new|intros x Hx; exact (T x Hx)|exact E0]).
  dob E. destruct a0 as [s2 b2]. destruct (known_ok _ _ _ _ H1 Wc E1) as [H2 V2].
  dob E. destruct a0 as [s3 b3]. destruct b3; [|discriminate].
  assert (V : valid M c).
  { destruct b2; [auto|]. exact (proj2 (any_derives c sources Wc _ _ _ H2 T E2) eq_refl). }
  refine (accept_ok _ _ _ _ _ H Hc _ _ E); [split; auto|intros ? []].
Qed.
Lemma eq_ok st t st' : tok st -> good_step M W t -> check_eq K path ordk ordc n st t = Ok (Some st') -> tok st'.
Proof.
  intros [H Hc] G E. destruct st as [s cs]. simpl in *. destruct (required t) as [c|] eqn:Er; [|discriminate].
  pose proof (required_W _ _ G Er) as Wc. destruct (st_premises t) as [|p [|q ps]].
  - dob E. destruct a as [s1 b]. destruct (known_ok _ _ _ _ H Wc E0) as [H1 V1]. destruct b; [|discriminate].
    refine (accept_ok _ _ _ _ _ H1 Hc _ _ E); [split; auto|intros ? []].
  - destruct (nth_error cs p) as [sources|] eqn:Ep; [|discriminate]. dob E. destruct a as [s1 b].
    assert (T : forall x, In x sources -> tr x) by (intros x Hx; exact (Hc _ _ (nth_error_In _ _ Ep) Hx)).
    destruct (any_derives c sources Wc _ _ _ H T E0) as [H1 V1]. destruct b; [|eapply eq_local_ok; eauto].
    refine (accept_ok _ _ _ _ _ H1 Hc _ _ E); [split; auto|intros ? []].
  - eapply eq_local_ok; eauto.
Qed.
Lemma rule_ok derives st t st' : (forall s c r, okay s -> tr c -> derives s c r = Ok true -> valid M r) -> tok st -> good_step M W t ->
  check_rule K ordk ordc derives n st t = Ok (Some st') -> tok st'.
Proof.
  intros D [H Hc] G E. destruct st as [s cs]. simpl in *. destruct (st_premises t) as [|p [|? ?]]; try discriminate.
  destruct (nth_error cs p) as [sources|] eqn:Ep; [|discriminate]. destruct (required t) as [c|] eqn:Er; [|discriminate].
  pose proof (required_W _ _ G Er) as Wc. dob E. destruct a; [|discriminate]. destruct (any_m_true _ _ E0) as (x & Hx & Ex). cbn beta in Ex.
  refine (accept_ok _ _ _ _ _ H Hc _ _ E); [split; auto|intros ? []]. exact (D _ _ _ H (Hc _ _ (nth_error_In _ _ Ep) Hx) Ex).
Qed.
Lemma wit_ok st t st' : tok st -> good_step M W t -> check_wit K path ordk ordc n st t = Ok (Some st') -> tok st'.
Proof.
  intros [H Hc] [_ _ _ G] E. destruct st as [s cs]. simpl in *. destruct (st_parsed t) as [|g [j|] sp ws|]; try discriminate.
  destruct (G _ _ _ _ eq_refl) as (W1 & W2 & I & Hs). dob E. destruct a as [s1 b].
  destruct (any_known [g; j] _ _ _ H ltac:(intros c [<-|[<-|[]]]; auto) E0) as [H1 V1]. destruct b; [|discriminate].
  destruct (V1 eq_refl) as (c & Hi & V). assert (Vj : valid M j) by (destruct Hi as [<-|[<-|[]]]; tauto). dob E. injection E as <-.
  assert (T : forall x, In x (g :: j :: match sp with Some c => [c] | None => [] end ++ ws) -> tr x).
  { intros x [<-|[<-|Hx]]; [split; tauto|split; tauto|]. destruct (Hs x) as [X1 X2]; [|split; auto].
    apply in_app_or in Hx. destruct Hx as [Hx|Hx]; auto. destruct sp; [destruct Hx as [<-|[]]|destruct Hx]; auto. }
  split; simpl.
  - eapply insert_all_ok; [exact H1| |exact E1]. intros x Hx. exact (T x Hx).
  - intros l c' Hl Hi'. apply in_app_or in Hl. destruct Hl as [Hl|[<-|[]]]; [eauto|].
    destruct (step_clauses_in _ _ _ Hi') as [->|[<-|Hx]]; apply T; simpl; auto.
Qed.
Lemma contra_ok st t st' : tok st -> check_contra K ts inhab avail path ordk ordc orde n st t = Ok (Some st') -> False.
Proof.
  intros [H Hc] E. destruct st as [s cs]. simpl in *. dob E. destruct a; [|discriminate]. clear E.
  destruct (st_premises t) as [|p [|q [|? ?]]].
  - injection E0 as E0. rewrite (ok_no_contradiction ordk ordc ordk_perm ordc_perm M _ _ H) in E0. discriminate.
  - destruct (nth_error cs p) as [sources|] eqn:Ep; [|discriminate]. destruct (any_m_true _ _ E0) as (x & Hx & Ex).
    exact (closes_sound s x H (Hc _ _ (nth_error_In _ _ Ep) Hx) Ex).
  - destruct (nth_error cs p) as [ls|] eqn:Ep; [|discriminate]. destruct (nth_error cs q) as [rs|] eqn:Eq; [|discriminate].
    destruct (any_m_true _ _ E0) as (x & Hx & Ex). cbn beta in Ex. destruct (any_m_true _ _ Ex) as (y & Hy & Ey).
    exact (contradict_sound x y (Hc _ _ (nth_error_In _ _ Ep) Hx) (Hc _ _ (nth_error_In _ _ Eq) Hy) Ey).
  - discriminate.
Qed.
Lemma step_ok st t st' : tok st -> good_step M W t -> check_step K ts inhab avail path ordk ordc orde n st t = Ok (Some st') -> tok st'.
Proof.
  intros H G E. unfold check_step in E. destruct (st_rule t) eqn:Er.
  - eapply claim_ok; eauto.
  - eapply claim_ok; eauto.
  - eapply br_ok; eauto.
  - eapply br_intro_ok; eauto.
  - eapply eq_ok; eauto.
  - refine (rule_ok _ _ _ _ _ H G E). intros; eapply resolution_sound; eauto.
  - refine (rule_ok _ _ _ _ _ H G E). intros; eapply factoring_sound; eauto.
  - refine (rule_ok _ _ _ _ _ H G E). intros; eapply extensionality_sound; eauto.
  - refine (rule_ok _ _ _ _ _ H G E). intros; eapply injectivity_sound; eauto.
  - eapply inst_ok; eauto.
  - eapply wit_ok; eauto.
  - destruct (contra_ok _ _ _ H E).
Qed.
Lemma steps_ok steps : forall st, tok st -> (forall t, In t steps -> good_step M W t) ->
  check_steps K ts inhab avail path ordk ordc orde n st steps = Ok true -> False.
Proof.
  induction steps as [|t steps IH]; intros st H G E; cbn [check_steps] in E;
    rewrite (ok_no_contradiction ordk ordc ordk_perm ordc_perm M _ _ (proj1 H)) in E; [discriminate|].
  dob E. destruct a as [st'|]; [|discriminate]. apply (IH st'); auto. eapply step_ok; [exact H|apply G; left; auto|exact E0].
  intros t' Ht. apply G. right. auto.
Qed.
End T.
