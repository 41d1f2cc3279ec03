(** From clause sets to clauses. *)
From Coq Require Import List Arith NArith Bool Lia.
Import ListNotations.
From Verif Require Import Term LocalContext Semantics TermProofs SemFacts Typing TypingProofs Monomorphic PolyTyped Literal Clause ClauseSem ClauseProofs ClauseWf P_Clause TermNorm Clausifier ClausifierProofs ClausifierConv ClausifierExt ClausifierLits ClausifierMain MatchSpec ClausifierTidy ClausifierCases ClausifierSets ClausifierInd.

Section Match.
Context (K : kctx) (ME : symbol -> option (list symbol)) (M : Model) (kinds : list term).
Context (KK : Forall (fun k => is_type_param_kind k = true) kinds) (AI : all_inhabited K M kinds).
Notation typed := (PolyTyped.typed K).
Notation g0 := (kinds_env kinds).
Notation c0 := (map Some kinds).

Lemma map_opt_in {A B} (f : A -> option B) l : forall r, map_opt f l = Some r -> (forall x, In x l -> exists y, f x = Some y /\ In y r) /\ forall y, In y r -> exists x, In x l /\ f x = Some y.
Proof.
  induction l as [|x l IH]; intros r H; cbn in H.
  - injection H as <-. split; intros ? [].
  - unfold obind in H. destruct (f x) as [y|] eqn:E; [|discriminate]. destruct (map_opt f l) as [s|] eqn:E2; [|discriminate]. injection H as <-.
    destruct (IH s eq_refl) as [H1 H2]. split.
    + intros z [<-|Hz]; [exists y; split; [auto|left; auto]|]. destruct (H1 z Hz) as (w & ? & ?). exists w. split; [auto|right; auto].
    + intros z [<-|Hz]; [exists x; split; [left; auto|auto]|]. destruct (H2 z Hz) as (w & ? & ?). exists w. split; [right; auto|auto].
Qed.
Lemma tautology_literal rho ls : existsb lit_is_tautology ls = true -> cholds M rho ls.
Proof.
  intros H. apply existsb_exists in H. destruct H as (l & Hl & H). exists l. split; auto. unfold lit_is_tautology, term_eqb in H. unfold lit_holds.
  destruct (positive l); [|discriminate]. destruct (term_eq_dec (left l) (right l)) as [E|]; [|discriminate]. rewrite E. reflexivity.
Qed.

Lemma into_clauses_ok g c (W P : (nat -> D M) -> Prop) cs cls : steps K g0 g c0 c -> says K M kinds g0 g W P cs -> into_clauses cs c (length kinds) = Some cls ->
  (forall rho, base M kinds rho -> W rho) -> (forall rho, base M kinds rho -> P rho \/ ~ P rho) ->
  ((forall rho, base M kinds rho -> P rho) <-> Forall (valid M) cls) /\ Forall (clause_wt M) cls.
Proof.
  intros ST (T1 & T2 & T3) E HW DP. pose proof ST as (Mo & G & SB & N). unfold into_clauses in E. apply map_opt_in in E. destruct E as [E1 E2].
  assert (WT : forall ls, In ls cs -> clause_wt M (Clause ls c)).
  { intros ls Hl rho V l Hll. cbn in V, Hll. pose proof (more_prefix K kinds M _ _ Mo V) as B. pose proof (steps_new K kinds M _ _ _ ST V) as NO.
    destruct (T2 rho B (HW rho B) NO) as [X _]. apply (set_wt K M) in X. unfold set_all in X. rewrite Forall_forall in X. specialize (X _ Hl). rewrite Forall_forall in X. auto. }
  assert (NF : forall ls cl, In ls cs -> clause_new_with_pinned ls c (length kinds) = Some cl -> (valid M (Clause ls c) <-> valid M cl) /\ clause_wt M cl).
  { intros ls cl Hl En. apply normalization_keeps_models_partial; auto; [left; eauto|apply (more_ordered K kinds KK); auto|apply (more_inhabited K kinds); auto]. }
  split.
  - split.
    + intros H. apply Forall_forall. intros cl Hc. apply E2 in Hc. destruct Hc as (ls & Hl & En). apply filter_In in Hl. destruct Hl as [Hl _]. apply (NF ls cl Hl En).
      intros rho V. cbn in V |- *. pose proof (more_prefix K kinds M _ _ Mo V) as B. pose proof (steps_new K kinds M _ _ _ ST V) as NO. destruct (T2 rho B (HW rho B) NO) as [_ X].
      specialize (X (H rho B)). unfold all_hold in X. rewrite Forall_forall in X. auto.
    + intros H rho B. destruct (DP rho B) as [|NP]; auto. exfalso. apply (T3 rho B (HW rho B) NP). intros (rho' & AG & NO & NH).
      assert (B' : base M kinds rho') by (eapply base_agree; eauto). destruct (complete_live K kinds KK M g c rho' ST AI B' NO) as (rho3 & AG3 & V3).
      apply NH. eapply (hold_agree K M g rho3); [apply agree_sym; auto|auto|]. unfold all_hold. apply Forall_forall. intros ls Hl.
      destruct (existsb lit_is_tautology ls) eqn:ET; [apply tautology_literal; auto|]. destruct (E1 ls) as (cl & En & Hc); [apply filter_In; rewrite ET; auto|].
      rewrite Forall_forall in H. exact (proj2 (proj1 (NF ls cl Hl En)) (H cl Hc) rho3 V3).
  - apply Forall_forall. intros cl Hc. apply E2 in Hc. destruct Hc as (ls & Hl & En). apply filter_In in Hl. destruct Hl as [Hl _]. apply (NF ls cl Hl En).
Qed.

Lemma open_foralls_tidy n : forall c t u c', open_foralls_fuel n c t = (u, c') -> tidy K ME t = true -> tidy K ME u = true.
Proof.
  induction n as [|n IH]; intros c t u c' E Y; cbn in E; [injection E as <- <-; auto|].
  destruct t as [| |[] A b]; try (injection E as <- <-; exact Y). eapply IH; [exact E|]. rewrite open_body_eq. apply tidy_open. exact Y.
Qed.

Lemma split_other s s' k l : s <> s' -> split_symbol_application (apply (TSym s) l) s' k = None.
Proof.
  intros NE. unfold split_symbol_application. 
  assert (X : forall l f, spine_head (apply f l) = spine_head f) by (intros l0; induction l0 as [|a l0 IH]; intros f; [reflexivity|]; exact (IH (TApp f a))).
  rewrite X. cbn. destruct (symbol_eq_dec s s') as [|_]; [contradiction|]. rewrite ?andb_false_r. reflexivity.
Qed.

Context (MD : match_metadata K ME) (SY : match_symbols_typed K ME M) (EC : eliminators_compute K ME M).
Lemma match_lowering n t u c1 cls : open_foralls c0 t = (u, c1) -> (exists l, split_symbol_application u SEq 3 = Some l) ->
  shallow_clausify K ME n kinds t = Some cls -> typed g0 [] t tbool -> tidy K ME t = true ->
  (forall rho, valid_env M c0 rho -> wt M rho t /\ isb M (ev M rho t)) ->
  ((forall rho, valid_env M c0 rho -> ev M rho t = tv M true) <-> Forall (valid M) cls) /\ Forall (clause_wt M) cls.
Proof.
  intros EO [sl ES] E Tt Yt WT. unfold shallow_clausify in E. rewrite EO in E. unfold obind in E. destruct n as [|n]; [discriminate|]. cbn [shallow_clauses] in E.
  destruct (open_foralls_ok K _ _ _ _ _ _ EO (kinds_gctx kinds) Tt) as (g1 & ST1 & Tu & F1 & R1). pose proof (open_foralls_tidy _ _ _ _ _ EO Yt) as Yu.
  destruct (split_typed K g1 [] u tbool SEq 3 sl Tu ES eq_refl) as [Eu _].
  rewrite Eu, !split_other in E by discriminate. rewrite <- Eu in E. unfold obind in E. cbn [negb] in E.
  destruct (clause_set K ME n c1 u false) as [[cs c2]|] eqn:E1; [|discriminate]. destruct (into_clauses cs c2 (length kinds)) as [cl|] eqn:E2; [|discriminate]. injection E as <-.
  assert (Gd : good K kinds g1 c1) by exact ST1.
  destruct (proj1 (all_ok K ME M kinds KK AI MD SY EC n) _ _ _ _ _ _ E1 Gd Tu Yu) as (g2 & ST2 & _ & CL).
  pose proof (steps_trans K _ _ _ _ _ _ ST1 ST2) as ST.
  apply (into_clauses_ok g2 c2 (boolean M t) (fun rho => ev M rho t = tv M true) cs cl ST); auto.
  - assert (Gd0 : good K kinds g0 c0) by (apply steps_refl; [apply kinds_gctx|apply more_refl]).
    eapply says_all; [exact KK|exact Gd0|exact ST1|exact ST2|..|exact CL]; cbn beta.
    + intros rho B [W I] N. destruct (F1 M rho W I N) as (X1 & X2 & _). split; auto.
    + intros rho B [W I] N H. destruct (F1 M rho W I N) as (_ & _ & X). auto.
    + intros rho B [W I] NP NE. apply (R1 M rho W I); [destruct (isb_tv M _ I); [contradiction|auto]|]. intros (rho' & AG & N & E). apply NE. exists rho'. split; auto.
      split; [eapply (boolean_local K M g0); eauto; split; auto|]. split; auto. rewrite E. cbn. intros X. apply (bool_diff M). auto.
  - intros rho B. destruct (isb_tv M _ (proj2 (WT rho B))) as [X|X]; [left; auto|right; rewrite X; cbn; intros Y; apply (bool_diff M); auto].
Qed.
End Match.
