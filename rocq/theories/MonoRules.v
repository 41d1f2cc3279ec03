(** Equality resolution and factoring of monomorphic clauses. *)
From Coq Require Import List Arith NArith Bool Lia.
Import ListNotations.
From Verif Require Import VariableMap Unifier Inference ClauseSet EqualityGraph Checker.
From Verif Require Import Term LocalContext Semantics TermProofs SemFacts TermNorm TermNormProofs Typing TypingProofs Literal Clause ClauseSem RenumberProofs ClauseProofs ClauseWf InferenceProofs
  VariableMapProofs UnifierProofs P_EqualityInferences CheckerProofs CheckerSem P_TermNorm P_Checker Monomorphic MonoProofs MonoNorm MonoReduce MonoUnify.

Section MF.
Context (M : Model) (K : kctx) (ts : tstore) (CT : closed_types K) (R : respects M K).
Notation et := (element_type M).
Notation ht := (has_type M K).
Notation ml := (mono_literal M K).
Notation mt := (mono_typed M K).
Notation mo := (mono M K).
Notation ust := (ust M K).

Lemma ground_nokind T : ground_type T = true -> nokind T = true.
Proof.
  induction T as [[i|i|s]|f IHf a IHa|k A IHA b IHb]; simpl; try discriminate.
  - destruct s; auto; discriminate.
  - rewrite nokind_app. intros H. apply andb_prop in H. rewrite IHf, IHa; tauto.
  - destruct k; try discriminate. rewrite nokind_bind. intros H. apply andb_prop in H. rewrite IHA, IHb; tauto.
Qed.
Lemma ht_nokind G bs t T : ht G bs t T -> nokind t = true.
Proof.
  induction 1; rewrite ?nokind_app, ?nokind_bind; rewrite ?IHhas_type, ?IHhas_type1, ?IHhas_type2; auto.
  - unfold nokind. simpl. destruct s; auto; discriminate.
  - rewrite (ground_nokind T); auto. eapply et_ground; eauto.
  - rewrite (ground_nokind T); auto. eapply et_ground; eauto.
  - rewrite (ground_nokind T); auto. apply H0.
  - rewrite (ground_nokind A); auto. eapply et_ground; eauto.
  - rewrite (ground_nokind A); auto. eapply et_ground; eauto.
Qed.

Lemma start_ust c : mono_context M c -> ust (inference_start c).
Proof.
  intros H. constructor; simpl; auto.
  - intros [|[|[|[|s]]]] d E; simpl in E; try discriminate.
    + injection E as <-. intros [|i] T; discriminate.
    + injection E as <-. auto.
  - intros [|[|[|[|s]]]] [|i] r E; discriminate.
  - intros [|i] _; reflexivity.
Qed.
Lemma local1 st st' c : ext st st' -> ulocal st 1 = Some c -> ulocal st' 1 = Some c.
Proof. intros [E _]. simpl. rewrite E. auto. Qed.
Lemma ml_ext st st' l : ext st st' -> ml (u_out st) l -> ml (u_out st') l.
Proof.
  intros E (T & HT & H1 & H2). exists T. split; auto. split; eapply ht_weaken; eauto; intros; apply (ex_out _ _ E); auto.
Qed.
Lemma apply_literals_typed n c : forall ls st ls' st', ust st -> ulocal st 1 = Some c -> (forall l, In l ls -> ml c l) ->
  uapply_literals n st ls = Some (ls', st') -> ust st' /\ ext st st' /\ forall l, In l ls' -> ml (u_out st') l.
Proof.
  induction ls as [|x r IH]; intros st ls' st' U Hc Hl H; cbn [uapply_literals] in H.
  - injection H as <- <-. split; auto. split; [apply ext_refl|]. intros l [].
  - unfold uapply_literal in H. destruct (Hl x (or_introl eq_refl)) as (T & HT & H1 & H2).
    destruct (uapply n st 1 (left x)) as [[a st1]|] eqn:Ea; [|discriminate].
    destruct (uapply_typed M K n _ _ _ _ _ _ _ _ U Hc H1 Ea) as (U1 & X1 & A1). pose proof (local1 _ _ _ X1 Hc) as Hc1.
    destruct (uapply n st1 1 (right x)) as [[b st2]|] eqn:Eb; [|discriminate].
    destruct (uapply_typed M K n _ _ _ _ _ _ _ _ U1 Hc1 H2 Eb) as (U2 & X2 & A2). pose proof (local1 _ _ _ X2 Hc1) as Hc2.
    destruct (uapply_literals n st2 r) as [[r' st3]|] eqn:Er; [|discriminate]. injection H as <- <-.
    destruct (IH _ _ _ U2 Hc2 (fun l Hl' => Hl l (or_intror Hl')) Er) as (U3 & X3 & A3).
    split; auto. split; [eapply ext_trans; [exact X1|]; eapply ext_trans; eauto|].
    intros l [<-|Hl']; auto. eapply ml_ext; [exact X3|]. apply ml_new with T; auto.
    eapply ht_weaken; [exact A1|]. intros. apply (ex_out _ _ X2). auto.
Qed.

Lemma result_env st c rho : ust st -> ulocal st 1 = Some c -> valid_env M (u_out st) rho ->
  exists rho', valid_env M c rho' /\ forall i r, vget (umap st 1) i = Some r -> rho' i = ev M rho r.
Proof.
  intros U Hc V. set (m := umap st 1). pose proof (us_in _ _ _ U 1 c Hc) as Hm.
  set (ids := filter (fun i => match vget m i with Some _ => true | None => false end) (seq 0 (length c))).
  assert (S : suitable M (Clause [] c)) by (apply (mt_suitable M K CT R); split; [exact Hm|constructor]).
  destruct S as [_ S2 S3]. simpl in S2, S3.
  assert (Ty : forall i T, get_var_type c i = Some T -> forall r, vget m i = Some r -> mem M (ev M rho r) (ev M (nobs M) T)).
  { intros i T HT r Hr. destruct (us_map _ _ _ U _ _ _ Hr) as (T' & (c' & Hc' & HT') & H). assert (T' = T) by congruence. subst T'.
    apply (ht_value M K CT R _ _ _ rho H V). }
  destruct (all_completable M c ids S2) with (via M m rho) as (rho' & A & V'); auto.
  - intros v d _ Hd. rewrite (mc_deps M) in Hd by auto. destruct Hd.
  - intros v T Hv HT. apply filter_In in Hv. destruct Hv as [_ Hv]. unfold via at 1. destruct (vget m v) as [r|] eqn:E; [|discriminate].
    unfold ev at 2. rewrite (closed_eval M) by (apply (et_closed M); eapply (mc_get M); eauto). eapply Ty; eauto.
  - exists rho'. split; auto. intros i r Hr. rewrite A.
    + unfold via. fold m in Hr. rewrite Hr. auto.
    + apply filter_In. split; [|fold m in Hr; rewrite Hr; auto]. apply in_seq. split; [lia|].
      destruct (us_map _ _ _ U _ _ _ Hr) as (T' & (c' & Hc' & HT') & H). assert (c' = c) by congruence. subst c'.
      unfold get_var_type in HT'. destruct (nth_error c i) eqn:E; [|discriminate]. apply nth_error_Some. congruence.
Qed.
Lemma result_value st rho rho' t : closed_map (umap st 1) -> cov st 1 t -> (forall i r, vget (umap st 1) i = Some r -> rho' i = ev M rho r) ->
  ev M rho (sigma st 1 t) = ev M rho' t.
Proof.
  intros L C H. unfold sigma. rewrite (ev_apply M _ _ _ L). apply eval_ext; auto. intros i Hi. specialize (C ltac:(lia) i Hi).
  unfold via. destruct (vget (umap st 1) i) as [r|] eqn:E; [|contradiction]. symmetry. auto.
Qed.
Lemma apply_closed m t : vars t = [] -> apply_to_term m t = t.
Proof. intros V. apply apply_unmapped. rewrite V. intros ? []. Qed.
Lemma ht_apply G G' m : (forall i T, get_var_type G i = Some T -> vget m i = None -> get_var_type G' i = Some T) ->
  (forall i r T, vget m i = Some r -> get_var_type G i = Some T -> ht G' [] r T) ->
  forall bs t T, ht G bs t T -> ht G' bs (apply_to_term m t) T.
Proof.
  intros H0 H1 bs t T H. induction H; cbn [apply_to_term].
  - destruct (vget m i) eqn:E; [|apply ht_var; auto]. apply ht_anybs. eauto.
  - apply ht_bound; auto.
  - apply ht_sym; auto.
  - rewrite apply_closed by (apply (et_vars M); auto). apply ht_eq; auto.
  - rewrite apply_closed by (apply (et_vars M); auto). apply ht_ite; auto.
  - eapply ht_app; eauto.
  - rewrite (apply_closed m T) by (apply ground_vars; apply H2). eapply ht_inst; eauto.
  - rewrite apply_closed by (apply (et_vars M); auto). apply ht_lam; auto.
  - rewrite apply_closed by (apply (et_vars M); auto). apply ht_quant; auto.
Qed.
Lemma ht_sigma st c t T : ust st -> ulocal st 1 = Some c -> cov st 1 t -> ht c [] t T -> ht (u_out st) [] (sigma st 1 t) T.
Proof.
  intros U Hc C H. unfold sigma.
  set (c' := map (fun i => match vget (umap st 1) i with Some _ => get_var_type c i | None => None end) (seq 0 (length c))).
  assert (Gc : forall i T, get_var_type c' i = Some T <-> get_var_type c i = Some T /\ vget (umap st 1) i <> None).
  { intros i V. unfold get_var_type at 1, c'. destruct (Nat.lt_ge_cases i (length c)) as [L|L].
    - rewrite (map_nth_error _ i (seq 0 (length c)) (d := i)) by (rewrite (nth_error_nth' _ 0) by (rewrite seq_length; auto); rewrite seq_nth; auto).
      destruct (vget (umap st 1) i); [|intuition discriminate]. destruct (get_var_type c i); intuition congruence.
    - rewrite (proj2 (nth_error_None _ _)) by (rewrite map_length, seq_length; auto).
      unfold get_var_type. rewrite (proj2 (nth_error_None _ _)) by auto. intuition discriminate. }
  apply ht_apply with c'.
  - intros i V HV Hn. apply Gc in HV. tauto.
  - intros i r V Hr HV. apply Gc in HV. destruct (us_map _ _ _ U _ _ _ Hr) as (V' & (d & Hd & HV') & X). assert (V' = V) by (destruct HV; congruence). subst. auto.
  - eapply ht_weaken; [exact H|]. intros i V Hi HV. apply Gc. split; auto. apply C; auto.
Qed.
Lemma sides_value G rho a b T : ueq a b -> ht G [] a T -> valid_env M G rho -> ev M rho a = ev M rho b.
Proof.
  intros Q H V. apply ueq_swapeq in Q; [|left; eapply ht_nokind; eauto].
  symmetry. apply (swapeq_sound M _ _ _ Q rho (nobs M) (proj1 (ht_value M K CT R _ _ _ rho H V))).
Qed.
Lemma wf_closed st : uwf st -> closed_map (umap st 1). Proof. intros W. apply (uw_lc _ W 1). Qed.
Lemma cov_fresh st st' t : ufresh st st' -> cov st 1 t -> cov st' 1 t.
Proof. intros F C N j Hj. specialize (C N j Hj). destruct (vget (umap st 1) j) as [r|] eqn:E; [|contradiction]. rewrite (uf_keep _ _ F 1 j r E). discriminate. Qed.

(** ** Equality resolution *)
Lemma mono_resolution n c rs ls out : mt c -> find_equality_resolutions K ts n c = Some rs -> In (ls, out) (result_pairs rs) ->
  mt (Clause ls out) /\ (valid M c -> valid M (Clause ls out)).
Proof.
  intros Hm H Hin. apply mt_in in Hm. destruct Hm as [HG HL]. unfold result_pairs in Hin. apply in_map_iff in Hin. destruct Hin as ([[[ls0 out0] m] f] & E & Hin). simpl in E. injection E as -> ->.
  destruct (resolutions_from _ _ _ _ _ _ _ H _ _ _ _ Hin) as (p & l & r & st & st' & Sh & Pl & Hu & Ha & -> & _ & _).
  simpl in Sh. cbn [unify] in Hu. pose proof (start_ust _ HG) as U0. pose proof (start_wf (context c)) as W0.
  assert (Il : forall x, In x (literals c) <-> x = l \/ In x (p ++ r)).
  { intros x. rewrite Sh, !in_app_iff. simpl. intuition. }
  destruct (HL l) as (T & HT & T1 & T2); [apply Il; auto|].
  destruct (proj1 (unify_typed M K ts CT n) (inference_start (context c)) 1 (left l) 1 (right l) st [] T T U0) with (3 := Hu) as (U1 & X1 & _);
    [eexists; split; [reflexivity|left; auto]|eexists; split; [reflexivity|left; auto]|].
  pose proof (local1 _ _ _ X1 (eq_refl : ulocal (inference_start (context c)) 1 = Some (context c))) as Hc1.
  destruct (apply_literals_typed n (context c) (p ++ r) st ls st' U1 Hc1) with (2 := Ha) as (U2 & X2 & L2); [intros x Hx; apply HL, Il; auto|].
  split; [apply mt_in; split; [exact (us_in _ _ _ U2 0 _ eq_refl)|exact L2]|].
  destruct (proj1 (unify_spec K ts n) _ _ _ _ _ _ W0 Hu (us_clash _ _ _ U1)) as [W1 _ C1 C2 Q].
  destruct (apply_literals_spec _ _ _ _ _ W1 Ha) as (F & -> & Cv). pose proof (ufresh_wf _ _ W1 F) as W2.
  intros Hv rho V. destruct (result_env st' (context c) rho U2 (local1 _ _ _ X2 Hc1) V) as (rho' & V' & Hr).
  assert (Val : forall t, cov st' 1 t -> ev M rho (sigma st' 1 t) = ev M rho' t) by (intros t Ct; apply result_value; auto using wf_closed).
  destruct (Hv _ V') as (x & Hx & Hh). apply Il in Hx. destruct Hx as [->|Hx].
  - exfalso. unfold lit_holds in Hh. rewrite Pl in Hh. apply Hh. rewrite <- !Val by (eapply cov_fresh; eauto).
    rewrite (P_EqualityInferences.kept st st' 1 (left l)), (P_EqualityInferences.kept st st' 1 (right l)) by auto.
    assert (Vs : valid_env M (u_out st) rho) by (intros i S HS; apply V; apply (ex_out _ _ X2); auto).
    eapply sides_value; [exact Q|eapply ht_sigma; eauto|exact Vs].
  - eexists. split; [apply in_map_iff; exists x; split; [reflexivity|exact Hx]|].
    rewrite lit_new_holds. unfold lit_holds in Hh |- *. cbn [positive left right]. destruct (Cv x Hx). rewrite !Val by auto. exact Hh.
Qed.

(** ** Equality factoring *)
Lemma mono_factoring_one n c s t u v rest ls out m f T T' : mono_context M c -> ht c [] s T -> ht c [] t T -> ht c [] u T' -> ht c [] v T' -> et T' ->
  (forall l, In l rest -> ml c l) -> equality_factoring K ts n c s t u v rest = Some (Some (ls, out, m, f)) ->
  mt (Clause ls out) /\
  ((forall rho, valid_env M c rho -> ev M rho s = ev M rho t \/ ev M rho u = ev M rho v \/ cholds M rho rest) -> valid M (Clause ls out)).
Proof.
  intros HG Hs Ht Hu Hv HT Hl H. unfold equality_factoring in H. pose proof (start_ust _ HG) as U0. pose proof (start_wf c) as W0.
  destruct (unify K ts n (inference_start c) 1 s 1 u) as [[st|]|] eqn:Hun; [|discriminate|discriminate]. cbn [unify] in Hun.
  destruct (uapply n st 1 t) as [[t' st1]|] eqn:E1; [|discriminate].
  destruct (uapply n st1 1 v) as [[v' st2]|] eqn:E2; [|discriminate].
  destruct (uapply n st2 1 u) as [[u' st3]|] eqn:E3; [|discriminate].
  destruct (uapply n st3 1 v) as [[v'' st4]|] eqn:E4; [|discriminate].
  destruct (uapply_literals n st4 rest) as [[ls' st5]|] eqn:E5; [|discriminate]. injection H as <- <- _ _.
  destruct (proj1 (unify_typed M K ts CT n) (inference_start c) 1 s 1 u st [] T T' U0) with (3 := Hun) as (U & X & <-);
    [eexists; split; [reflexivity|left; auto]|eexists; split; [reflexivity|left; auto]|].
  pose proof (local1 _ _ _ X (eq_refl : ulocal (inference_start c) 1 = Some c)) as C0.
  destruct (uapply_typed M K n _ _ _ _ _ _ _ _ U C0 Ht E1) as (U1 & X1 & A1). pose proof (local1 _ _ _ X1 C0) as C1.
  destruct (uapply_typed M K n _ _ _ _ _ _ _ _ U1 C1 Hv E2) as (U2 & X2 & A2). pose proof (local1 _ _ _ X2 C1) as C2.
  destruct (uapply_typed M K n _ _ _ _ _ _ _ _ U2 C2 Hu E3) as (U3 & X3 & A3). pose proof (local1 _ _ _ X3 C2) as C3.
  destruct (uapply_typed M K n _ _ _ _ _ _ _ _ U3 C3 Hv E4) as (U4 & X4 & A4). pose proof (local1 _ _ _ X4 C3) as C4.
  destruct (apply_literals_typed n c _ _ _ _ U4 C4 Hl E5) as (U5 & X5 & A5).
  pose proof (ext_trans _ _ _ X4 X5) as Y4. pose proof (ext_trans _ _ _ X3 Y4) as Y3. pose proof (ext_trans _ _ _ X2 Y3) as Y2. pose proof (ext_trans _ _ _ X1 Y2) as Y1.
  assert (Up : forall sx x Tx, ext sx st5 -> ht (u_out sx) [] x Tx -> ht (u_out st5) [] x Tx).
  { intros sx x Tx Ex Hx. eapply ht_weaken; [exact Hx|]. intros. apply (ex_out _ _ Ex). auto. }
  split.
  - apply mt_in. split; [exact (us_in _ _ _ U5 0 _ eq_refl)|]. intros l [<-|[<-|Hin]]; auto; apply ml_new with T; eauto.
  - destruct (proj1 (unify_spec K ts n) _ _ _ _ _ _ W0 Hun (us_clash _ _ _ U)) as [W1 _ Cs Cu Q].
    destruct (uapply_fresh _ _ _ _ _ _ W1 E1) as (F1 & -> & Ct). pose proof (ufresh_wf _ _ W1 F1) as W2.
    destruct (uapply_fresh _ _ _ _ _ _ W2 E2) as (F2 & -> & Cv). pose proof (ufresh_wf _ _ W2 F2) as W3.
    destruct (uapply_fresh _ _ _ _ _ _ W3 E3) as (F3 & -> & Cu'). pose proof (ufresh_wf _ _ W3 F3) as W4.
    destruct (uapply_fresh _ _ _ _ _ _ W4 E4) as (F4 & -> & Cv2). pose proof (ufresh_wf _ _ W4 F4) as W5.
    destruct (apply_literals_spec _ _ _ _ _ W5 E5) as (F5 & -> & Cl). pose proof (ufresh_wf _ _ W5 F5) as W6.
    pose proof (ufresh_trans _ _ _ F4 F5) as G4. pose proof (ufresh_trans _ _ _ F3 G4) as G3.
    pose proof (ufresh_trans _ _ _ F2 G3) as G2. pose proof (ufresh_trans _ _ _ F1 G2) as G1.
    assert (N1 : 1 <> 0) by lia.
    rewrite <- (P_EqualityInferences.kept st st5 1 s) in Q by auto. rewrite <- (P_EqualityInferences.kept st st5 1 u) in Q by auto.
    rewrite <- (P_EqualityInferences.kept st1 st5 1 t) by auto. rewrite <- (P_EqualityInferences.kept st2 st5 1 v) by auto.
    rewrite <- (P_EqualityInferences.kept st3 st5 1 u) by auto. rewrite <- (P_EqualityInferences.kept st4 st5 1 v) by auto.
    assert (Ks : cov st5 1 s) by (apply (cov_fresh st st5); auto). assert (Kt : cov st5 1 t) by (apply (cov_fresh st1 st5); auto).
    assert (Ku : cov st5 1 u) by (apply (cov_fresh st st5); auto). assert (Kv : cov st5 1 v) by (apply (cov_fresh st2 st5); auto).
    intros Hh rho V. pose proof (local1 _ _ _ X5 C4) as C5. destruct (result_env st5 c rho U5 C5 V) as (rho' & V' & Hr).
    assert (Val : forall t, cov st5 1 t -> ev M rho (sigma st5 1 t) = ev M rho' t) by (intros z Cz; apply result_value; auto using wf_closed).
    assert (Esu : ev M rho' s = ev M rho' u).
    { rewrite <- !Val by auto. eapply sides_value; [exact Q| |exact V]. eapply ht_sigma; eauto. }
    cbn [literals]. destruct (Hh rho' V') as [H1|[H1|(x & Hx & Hx')]].
    + destruct (val_dec M (ev M rho' t) (ev M rho' v)) as [E|E].
      * exists (lit_new true (sigma st5 1 u) (sigma st5 1 v)). split; [simpl; auto|]. rewrite lit_new_holds. unfold lit_holds. cbn [positive left right]. rewrite !Val by auto. congruence.
      * exists (lit_new false (sigma st5 1 t) (sigma st5 1 v)). split; [simpl; auto|]. rewrite lit_new_holds. unfold lit_holds. cbn [positive left right]. rewrite !Val by auto. auto.
    + exists (lit_new true (sigma st5 1 u) (sigma st5 1 v)). split; [simpl; auto|]. rewrite lit_new_holds. unfold lit_holds. cbn [positive left right]. rewrite !Val by auto. auto.
    + eexists. split; [right; right; apply in_map_iff; exists x; split; [reflexivity|auto]|].
      rewrite lit_new_holds. unfold lit_holds in Hx' |- *. cbn [positive left right]. destruct (Cl x Hx). rewrite !Val by auto. exact Hx'.
Qed.
Lemma mono_factoring n c rs ls out : mt c -> find_equality_factorings K ts n c = Some rs -> In (ls, out) (result_pairs rs) ->
  mt (Clause ls out) /\ (valid M c -> valid M (Clause ls out)).
Proof.
  intros Hm H Hin. apply mt_in in Hm. destruct Hm as [HG HL]. unfold result_pairs in Hin. apply in_map_iff in Hin. destruct Hin as ([[[ls0 out0] m] f] & E & Hin). simpl in E. injection E as -> ->.
  unfold find_equality_factorings in H.
  destruct (literals c) as [|l0 r0] eqn:El; [injection H as <-; destruct Hin|].
  destruct (positive l0) eqn:P0; cbn [negb] in H; [|injection H as <-; destruct Hin].
  destruct (is_boolean_equality K l0 (context c)) as [[|]|]; [injection H as <-; destruct Hin| |discriminate].
  destruct (factorings_over K ts n (context c) (left l0) (right l0) [] r0) as [ra|] eqn:Ea; [|discriminate].
  destruct (factorings_over K ts n (context c) (right l0) (left l0) [] r0) as [rb|] eqn:Eb; [|discriminate].
  injection H as <-. apply in_app_iff in Hin.
  assert (G : forall s t, (s = left l0 /\ t = right l0) \/ (s = right l0 /\ t = left l0) ->
    forall p l r, r0 = p ++ l :: r -> positive l = true -> forall u v, (u = left l /\ v = right l) \/ (u = right l /\ v = left l) ->
    equality_factoring K ts n (context c) s t u v (p ++ r) = Some (Some (ls, out, m, f)) ->
    mt (Clause ls out) /\ (valid M c -> valid M (Clause ls out))).
  { intros s t Hst p l r Hr Pl u v Huv He.
    assert (Il : forall x, In x (literals c) <-> x = l0 \/ x = l \/ In x (p ++ r)).
    { intros x. rewrite El, Hr. simpl. rewrite !in_app_iff. simpl. intuition. }
    rewrite El in Il.
    destruct (HL l0) as (T & HT & H1 & H2); [apply Il; auto|]. destruct (HL l) as (T' & HT' & H1' & H2'); [apply Il; auto|].
    destruct (mono_factoring_one n (context c) s t u v (p ++ r) ls out m f T T') as [X Y]; auto.
    - destruct Hst as [[-> ->]|[-> ->]]; auto.
    - destruct Hst as [[-> ->]|[-> ->]]; auto.
    - destruct Huv as [[-> ->]|[-> ->]]; auto.
    - destruct Huv as [[-> ->]|[-> ->]]; auto.
    - intros x Hx. apply HL, Il. auto.
    - split; auto. intros Hv. apply Y. intros rho V. destruct (Hv rho V) as (x & Hx & Hh). rewrite El in Hx. apply Il in Hx. destruct Hx as [->|[->|Hx]].
      + left. unfold lit_holds in Hh. rewrite P0 in Hh. destruct Hst as [[-> ->]|[-> ->]]; auto.
      + right. left. unfold lit_holds in Hh. rewrite Pl in Hh. destruct Huv as [[-> ->]|[-> ->]]; auto.
      + right. right. exists x. auto. }
  destruct Hin as [Hin|Hin].
  - destruct (factorings_in _ _ _ _ _ _ _ _ _ Ea _ Hin) as (p & l & r & Hr & Pl & [He|He]); simpl in Hr.
    + exact (G _ _ (or_introl (conj eq_refl eq_refl)) p l r Hr Pl _ _ (or_introl (conj eq_refl eq_refl)) He).
    + exact (G _ _ (or_introl (conj eq_refl eq_refl)) p l r Hr Pl _ _ (or_intror (conj eq_refl eq_refl)) He).
  - destruct (factorings_in _ _ _ _ _ _ _ _ _ Eb _ Hin) as (p & l & r & Hr & Pl & [He|He]); simpl in Hr.
    + exact (G _ _ (or_intror (conj eq_refl eq_refl)) p l r Hr Pl _ _ (or_introl (conj eq_refl eq_refl)) He).
    + exact (G _ _ (or_intror (conj eq_refl eq_refl)) p l r Hr Pl _ _ (or_intror (conj eq_refl eq_refl)) He).
Qed.
End MF.
