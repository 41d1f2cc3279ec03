(** Resolution and rewriting of monomorphic clauses. *)
From Coq Require Import List Arith NArith Bool Lia.
Import ListNotations.
From Verif Require Import VariableMap Unifier Inference ClauseSet EqualityGraph Checker.
From Verif Require Import Term LocalContext Semantics TermProofs SemFacts TermNorm TermNormProofs Typing TypingProofs Literal Clause ClauseSem RenumberProofs ClauseProofs ClauseWf InferenceProofs
  VariableMapProofs UnifierProofs P_EqualityInferences CheckerProofs CheckerSem P_TermNorm P_Checker Monomorphic MonoProofs MonoNorm MonoReduce MonoUnify MonoRules SearchRules.

(** ** Lists *)
Lemma numbered_nth {A} (l : list A) : forall i j x, In (j, x) (numbered i l) <-> exists k, j = i + k /\ nth_error l k = Some x.
Proof.
  induction l as [|y r IH]; intros i j x; simpl.
  - split; [tauto|]. intros (k & _ & H). destruct k; discriminate.
  - rewrite IH. split.
    + intros [E|(k & -> & H)]; [injection E as <- <-; exists 0; split; [lia|auto]|exists (S k); split; [lia|auto]].
    + intros ([|k] & -> & H); [left; injection H as ->; f_equal; lia|right; exists k; split; [lia|auto]].
Qed.
Lemma without_in {A} (l : list A) x : forall i, In x (without i l) <-> exists j, j <> i /\ nth_error l j = Some x.
Proof.
  induction l as [|y r IH]; intros i.
  - assert (E : without i (@nil A) = []) by (destruct i; reflexivity). rewrite E. split; [intros []|]. intros (j & _ & H). destruct j; discriminate.
  - destruct i as [|i].
    + change (without 0 (y :: r)) with r. split.
      * intros H. apply In_nth_error in H. destruct H as [j H]. exists (S j). auto.
      * intros ([|j] & N & H); [congruence|]. apply nth_error_In with j. auto.
    + change (without (S i) (y :: r)) with (y :: without i r). simpl. rewrite IH. split.
      * intros [->|(j & N & H)]; [exists 0; auto|exists (S j); auto].
      * intros ([|j] & N & H); [left; injection H; auto|right; exists j; auto].
Qed.
Lemma index_of_nth l ls : forall j, index_of l ls = Some j -> nth_error ls j = Some l.
Proof.
  induction ls as [|x r IH]; intros j; simpl; [discriminate|]. unfold literal_eqb. destruct (literal_eq_dec x l) as [->|]; [intros [= <-]; auto|].
  destruct (index_of l r) as [k|]; [|discriminate]. intros [= <-]. apply IH. auto.
Qed.

Section SP.
Context (M : Model) (K : kctx) (ts : tstore) (CT : closed_types K) (R : respects M K).
Notation et := (element_type M).
Notation ht := (has_type M K).
Notation hq := (hq M K).
Notation ml := (mono_literal M K).
Notation mt := (mono_typed M K).
Notation ust := (ust M K).
Notation hs := (hs M K).

(** ** Any input scope *)
Lemma local_in st st' s c : ext st st' -> s <> 0 -> ulocal st s = Some c -> ulocal st' s = Some c.
Proof. intros [E _] N. destruct s; [congruence|]. simpl. rewrite E. auto. Qed.
Lemma apply_scope_typed n s c : s <> 0 -> forall ls st ls' st', ust st -> ulocal st s = Some c -> (forall l, In l ls -> ml c l) ->
  uapply_scope n st s ls = Some (ls', st') -> ust st' /\ ext st st' /\ forall l, In l ls' -> ml (u_out st') l.
Proof.
  intros Ns. induction ls as [|x r IH]; intros st ls' st' U Hc Hl H; cbn [uapply_scope] in H.
  - injection H as <- <-. split; auto. split; [apply ext_refl|]. intros l [].
  - unfold uapply_literal in H. destruct (Hl x (or_introl eq_refl)) as (T & HT & H1 & H2).
    destruct (uapply n st s (left x)) as [[a st1]|] eqn:Ea; [|discriminate].
    destruct (uapply_typed M K n _ _ _ _ _ _ _ _ U Hc H1 Ea) as (U1 & X1 & A1). pose proof (local_in _ _ _ _ X1 Ns Hc) as Hc1.
    destruct (uapply n st1 s (right x)) as [[b st2]|] eqn:Eb; [|discriminate].
    destruct (uapply_typed M K n _ _ _ _ _ _ _ _ U1 Hc1 H2 Eb) as (U2 & X2 & A2). pose proof (local_in _ _ _ _ X2 Ns Hc1) as Hc2.
    destruct (uapply_scope n st2 s r) as [[r' st3]|] eqn:Er; [|discriminate]. injection H as <- <-.
    destruct (IH _ _ _ U2 Hc2 (fun l Hl' => Hl l (or_intror Hl')) Er) as (U3 & X3 & A3).
    split; auto. split; [eapply ext_trans; [exact X1|]; eapply ext_trans; eauto|].
    intros l [<-|Hl']; auto. eapply ml_ext; [exact X3|]. apply ml_new with T; auto.
    eapply ht_weaken; [exact A1|]. intros. apply (ex_out _ _ X2). auto.
Qed.
Lemma cov_keep st st' s t : ufresh st st' -> cov st s t -> cov st' s t.
Proof. intros F C N j Hj. specialize (C N j Hj). destruct (vget (umap st s) j) as [r|] eqn:E; [|contradiction]. rewrite (uf_keep _ _ F s j r E). discriminate. Qed.
Lemma apply_scope_spec n s : s <> 0 -> forall ls st ls' st', uwf st -> uapply_scope n st s ls = Some (ls', st') ->
  ufresh st st' /\ ls' = map (fun l => lit_new (positive l) (sigma st' s (left l)) (sigma st' s (right l))) ls /\
  forall l, In l ls -> cov st' s (left l) /\ cov st' s (right l).
Proof.
  intros Ns. induction ls as [|x r IH]; intros st ls' st' W H; cbn [uapply_scope] in H.
  - injection H as <- <-. split; [apply ufresh_refl|]. split; auto. intros l [].
  - unfold uapply_literal in H. destruct (uapply n st s (left x)) as [[a st1]|] eqn:Ea; [|discriminate].
    destruct (uapply n st1 s (right x)) as [[b st2]|] eqn:Eb; [|discriminate].
    destruct (uapply_scope n st2 s r) as [[r' st3]|] eqn:Er; [|discriminate]. injection H as <- <-.
    destruct (uapply_fresh _ _ _ _ _ _ W Ea) as (F1 & -> & C1). pose proof (ufresh_wf _ _ W F1) as W1.
    destruct (uapply_fresh _ _ _ _ _ _ W1 Eb) as (F2 & -> & C2). pose proof (ufresh_wf _ _ W1 F2) as W2.
    destruct (IH _ _ _ W2 Er) as (F3 & -> & C3).
    pose proof (ufresh_trans _ _ _ F2 F3) as F23.
    split; [exact (ufresh_trans _ _ _ F1 F23)|]. split.
    + cbn [map]. f_equal. rewrite (P_EqualityInferences.kept st1 st3 s (left x)), (P_EqualityInferences.kept st2 st3 s (right x)); auto.
    + intros l [<-|Hl]; auto. split; [exact (cov_keep _ _ _ _ F23 C1)|exact (cov_keep _ _ _ _ F3 C2)].
Qed.
Lemma scope_env st s c rho : ust st -> ulocal st s = Some c -> valid_env M (u_out st) rho ->
  exists rho', valid_env M c rho' /\ forall i r, vget (umap st s) i = Some r -> rho' i = ev M rho r.
Proof.
  intros U Hc V. set (m := umap st s). pose proof (us_in _ _ _ U s c Hc) as Hm.
  set (ids := filter (fun i => match vget m i with Some _ => true | None => false end) (seq 0 (length c))).
  assert (S : suitable M (Clause [] c)) by (apply (mt_suitable M K CT R); split; [exact Hm|constructor]).
  destruct S as [_ S2 S3]. simpl in S2, S3.
  assert (Ty : forall i T, get_var_type c i = Some T -> forall r, vget m i = Some r -> mem M (ev M rho r) (ev M (nobs M) T)).
  { intros i T HT r Hr. destruct (us_map _ _ _ U _ _ _ Hr) as (T' & (c' & Hc' & HT') & H). assert (T' = T) by congruence. subst T'.
    apply (ht_value M K CT R _ _ _ rho H V). }
  destruct (all_completable M c ids S2) with (via M m rho) as (rho' & A & V'); auto.
  - intros v d _ Hd. rewrite (mc_deps M) in Hd by auto. destruct Hd.
  - intros v T Hv HT. apply filter_In in Hv. destruct Hv as [_ Hv]. unfold via at 1. destruct (vget m v) as [r|] eqn:E; [|discriminate].
    unfold ev at 2. rewrite (closed_eval M) by (apply (et_closed M); eapply (mc_get M); eauto). eapply Ty; eauto.
  - exists rho'. split; auto. intros i r Hr. rewrite A.
    + unfold via. fold m in Hr. rewrite Hr. auto.
    + apply filter_In. split; [|fold m in Hr; rewrite Hr; auto]. apply in_seq. split; [lia|].
      destruct (us_map _ _ _ U _ _ _ Hr) as (T' & (c' & Hc' & HT') & H). assert (c' = c) by congruence. subst c'.
      unfold get_var_type in HT'. destruct (nth_error c i) eqn:E; [|discriminate]. apply nth_error_Some. congruence.
Qed.
Lemma scope_value st s rho rho' t : s <> 0 -> closed_map (umap st s) -> cov st s t -> (forall i r, vget (umap st s) i = Some r -> rho' i = ev M rho r) ->
  ev M rho (sigma st s t) = ev M rho' t.
Proof.
  intros N L C H. unfold sigma. rewrite (ev_apply M _ _ _ L). apply eval_ext; auto. intros i Hi. specialize (C N i Hi).
  unfold via. destruct (vget (umap st s) i) as [r|] eqn:E; [|contradiction]. symmetry. auto.
Qed.
Lemma scope_sigma st s c t T : s <> 0 -> ust st -> ulocal st s = Some c -> cov st s t -> ht c [] t T -> ht (u_out st) [] (sigma st s t) T.
Proof.
  intros N U Hc C H. unfold sigma.
  set (c' := map (fun i => match vget (umap st s) i with Some _ => get_var_type c i | None => None end) (seq 0 (length c))).
  assert (Gc : forall i T, get_var_type c' i = Some T <-> get_var_type c i = Some T /\ vget (umap st s) i <> None).
  { intros i V. unfold get_var_type at 1, c'. destruct (Nat.lt_ge_cases i (length c)) as [L|L].
    - rewrite (map_nth_error _ i (seq 0 (length c)) (d := i)) by (rewrite (nth_error_nth' _ 0) by (rewrite seq_length; auto); rewrite seq_nth; auto).
      destruct (vget (umap st s) i); [|intuition discriminate]. destruct (get_var_type c i); intuition congruence.
    - rewrite (proj2 (nth_error_None _ _)) by (rewrite map_length, seq_length; auto).
      unfold get_var_type. rewrite (proj2 (nth_error_None _ _)) by auto. intuition discriminate. }
  apply (ht_apply M K) with c'.
  - intros i V HV Hn. apply Gc in HV. tauto.
  - intros i r V Hr HV. apply Gc in HV. destruct (us_map _ _ _ U _ _ _ Hr) as (V' & (d & Hd & HV') & X). assert (V' = V) by (destruct HV; congruence). subst. auto.
  - eapply ht_weaken; [exact H|]. intros i V Hi HV. apply Gc. split; auto. apply C; auto.
Qed.

Lemma two_ust a b : mono_context M a -> mono_context M b -> ust (two_scopes a b).
Proof.
  intros Ha Hb. constructor; simpl; auto.
  - intros [|[|[|[|s]]]] d E; simpl in E; try discriminate; injection E as <-; auto. intros [|i] T; discriminate.
  - intros [|[|[|[|s]]]] [|i] r E; discriminate.
  - intros [|i] _; reflexivity.
Qed.
Lemma two_wf a b : uwf (two_scopes a b).
Proof.
  constructor; simpl; auto.
  - intros [|[|[|[|s]]]] [|i] r v E; discriminate.
  - intros [|[|[|[|s]]]] [|i] r E; discriminate.
Qed.

(** ** Normalization *)
Lemma trace_keeps ls c cl ids : normalize_with_trace ls c = Some (cl, ids) -> mt (Clause ls c) ->
  mt cl /\ (valid M (Clause ls c) <-> valid M cl).
Proof.
  intros E H. split; [eapply (proj1 (mt_prefilled M K _ _ _ _ _ E H))|].
  destruct (mt_suitable M K CT R _ H) as [S1 S2 S3]. unfold normalize_with_trace in E.
  assert (F : faithful (Clause ls c) cl ids) by (eapply prefilled_faithful; eauto; constructor).
  assert (W : clause_wt M (Clause ls c)) by (intros r Hr x Hx; apply (pwt_wt _ _ S1); auto).
  destruct (faithful_preserves M _ _ ids F W (all_completable M c ids S2 (faithful_closed _ _ _ F) S3)) as [V _].
  split; auto. exact (faithful_reflects M _ _ _ F W).
Qed.

(** ** Resolution *)
Lemma mono_resolve n short si long li flipped s l ls out : mt short -> mt long ->
  nth_error (literals short) si = Some s -> nth_error (literals long) li = Some l -> positive s = negb (positive l) ->
  resolve K ts n short si long li flipped = Some (Some (ls, out)) ->
  mt (Clause ls out) /\ (valid M short -> valid M long -> valid M (Clause ls out)).
Proof.
  intros Hs Hl Es El Sg H. apply mt_in in Hs. apply mt_in in Hl. destruct Hs as [Gs Ls], Hl as [Gl Ll]. unfold resolve in H.
  destruct (negb (two_long_ok short long) || negb (others_found short long si li)) eqn:Eo; [discriminate|].
  apply orb_false_iff in Eo. destruct Eo as [_ Eo]. apply negb_false_iff in Eo. rewrite Es, El in H.
  destruct (if flipped then (right l, left l) else (left l, right l)) as [a b] eqn:Ef.
  destruct (Ls s (nth_error_In _ _ Es)) as (T & HT & T1 & T2). destruct (Ll l (nth_error_In _ _ El)) as (T' & HT' & T3 & T4).
  assert (Ta : ht (context long) [] a T' /\ ht (context long) [] b T') by (destruct flipped; injection Ef as <- <-; auto). destruct Ta as [Ta Tb].
  set (st0 := two_scopes (context short) (context long)) in *. pose proof (two_ust _ _ Gs Gl) as U0. pose proof (two_wf (context short) (context long)) as W0. fold st0 in U0, W0.
  assert (L1 : ulocal st0 1 = Some (context short)) by reflexivity. assert (L2 : ulocal st0 2 = Some (context long)) by reflexivity.
  cbn [unify] in H. destruct (unify_internal K ts n st0 1 (left s) 2 a) as [[st|]|] eqn:E1; try discriminate.
  destruct (proj1 (unify_typed M K ts CT n) st0 1 (left s) 2 a st [] T T' U0) with (3 := E1) as (U1 & X1 & _);
    [exists (context short); split; [exact L1|left; auto]|exists (context long); split; [exact L2|left; auto]|].
  pose proof (local_in _ _ 1 _ X1 ltac:(lia) L1) as L1a. pose proof (local_in _ _ 2 _ X1 ltac:(lia) L2) as L2a.
  destruct (unify_internal K ts n st 1 (right s) 2 b) as [[st1|]|] eqn:E2; try discriminate.
  destruct (proj1 (unify_typed M K ts CT n) st 1 (right s) 2 b st1 [] T T' U1) with (3 := E2) as (U2 & X2 & _);
    [exists (context short); split; [exact L1a|left; auto]|exists (context long); split; [exact L2a|left; auto]|].
  pose proof (local_in _ _ 1 _ X2 ltac:(lia) L1a) as L1b. pose proof (local_in _ _ 2 _ X2 ltac:(lia) L2a) as L2b.
  destruct (uapply_scope n st1 2 (without li (literals long))) as [[ls' st2]|] eqn:E3; [|discriminate]. cbn in H. injection H as -> <-.
  assert (Rest : forall x, In x (without li (literals long)) -> In x (literals long)).
  { intros x Hx. apply without_in in Hx. destruct Hx as (j & _ & Hj). eapply nth_error_In; eauto. }
  destruct (apply_scope_typed n 2 (context long) ltac:(lia) _ st1 ls st2 U2 L2b (fun x Hx => Ll x (Rest x Hx)) E3) as (U3 & X3 & L3).
  split; [apply mt_in; split; [exact (us_in _ _ _ U3 0 _ eq_refl)|exact L3]|].
  pose proof (local_in _ _ 1 _ X3 ltac:(lia) L1b) as L1c. pose proof (local_in _ _ 2 _ X3 ltac:(lia) L2b) as L2c.
  destruct (proj1 (unify_spec K ts n) _ _ _ _ _ _ W0 E1 (us_clash _ _ _ U1)) as [W1 R1 C1 C2 Q1].
  destruct (proj1 (unify_spec K ts n) _ _ _ _ _ _ W1 E2 (us_clash _ _ _ U2)) as [W2 R2 C3 C4 Q2].
  pose proof (ueq_ref _ _ _ _ _ _ R2 C1 C2 Q1) as Q1'. pose proof (cov_ref _ _ _ _ R2 C1) as C1'. pose proof (cov_ref _ _ _ _ R2 C2) as C2'.
  destruct (apply_scope_spec n 2 ltac:(lia) _ _ _ _ W2 E3) as (F & -> & Cv). pose proof (ufresh_wf _ _ W2 F) as W3.
  intros Vs Vl rho V.
  destruct (scope_env st2 1 (context short) rho U3 L1c V) as (r1 & V1 & A1).
  destruct (scope_env st2 2 (context long) rho U3 L2c V) as (r2 & V2 & A2).
  assert (Val1 : forall t, cov st2 1 t -> ev M rho (sigma st2 1 t) = ev M r1 t) by (intros t Ct; apply scope_value; auto; apply (uw_lc _ W3)).
  assert (Val2 : forall t, cov st2 2 t -> ev M rho (sigma st2 2 t) = ev M r2 t) by (intros t Ct; apply scope_value; auto; apply (uw_lc _ W3)).
  assert (Vst : valid_env M (u_out st1) rho) by (intros i S HS; apply V; apply (ex_out _ _ X3); auto).
  assert (Qa : ev M r1 (left s) = ev M r2 a).
  { rewrite <- Val1, <- Val2 by (eapply cov_keep; eauto). rewrite (P_EqualityInferences.kept st1 st2 1 (left s)), (P_EqualityInferences.kept st1 st2 2 a) by auto.
    eapply (sides_value M K CT R); [exact Q1'|eapply (scope_sigma st1 1); eauto|exact Vst]. }
  assert (Qb : ev M r1 (right s) = ev M r2 b).
  { rewrite <- Val1, <- Val2 by (eapply cov_keep; eauto). rewrite (P_EqualityInferences.kept st1 st2 1 (right s)), (P_EqualityInferences.kept st1 st2 2 b) by auto.
    eapply (sides_value M K CT R); [exact Q2|eapply (scope_sigma st1 1); eauto|exact Vst]. }
  assert (Fin : forall x, In x (without li (literals long)) -> lit_holds M r2 x ->
    exists y, In y (literals (Clause (map (fun l => lit_new (positive l) (sigma st2 2 (left l)) (sigma st2 2 (right l))) (without li (literals long))) (u_out st2))) /\ lit_holds M rho y).
  { intros x Hx Hh. eexists. split; [apply in_map_iff; exists x; split; [reflexivity|exact Hx]|].
    rewrite lit_new_holds. unfold lit_holds in Hh |- *. cbn [positive left right]. destruct (Cv x Hx). rewrite !Val2 by auto. exact Hh. }
  destruct (Vl _ V2) as (x & Hx & Hh). apply In_nth_error in Hx. destruct Hx as [j Hj].
  destruct (Nat.eq_dec j li) as [->|Nj]; [|apply (Fin x); auto; apply without_in; exists j; auto].
  assert (x = l) by congruence. subst x.
  destruct (Vs _ V1) as (y & Hy & Gh). apply In_nth_error in Hy. destruct Hy as [k Hk].
  destruct (Nat.eq_dec k si) as [->|Nk].
  - exfalso. assert (y = s) by congruence. subst y. unfold lit_holds in Gh, Hh. rewrite Sg in Gh. rewrite Qa, Qb in Gh.
    destruct flipped; injection Ef as <- <-; destruct (positive l); simpl in Gh; congruence.
  - unfold others_found in Eo. rewrite forallb_forall in Eo. specialize (Eo (k, y)). cbn [fst snd] in Eo.
    specialize (Eo ltac:(apply numbered_nth; exists k; auto)). destruct (Nat.eqb_spec k si); [congruence|]. cbn [orb] in Eo. apply andb_prop in Eo. destruct Eo as [G Eo].
    apply negb_true_iff in G. destruct (index_of y (literals long)) as [j|] eqn:Ej; [|discriminate]. apply negb_true_iff, Nat.eqb_neq in Eo.
    apply (Fin y); [apply without_in; exists j; split; auto; apply index_of_nth; auto|]. eapply ground_holds; [exact G|exact Gh].
Qed.
Lemma mono_try_resolution witnessed n pos pi neg ni flipped c : mt pos -> mt neg ->
  try_resolution K ts witnessed n pos pi neg ni flipped = Some (Some c) -> mt c /\ (valid M pos -> valid M neg -> valid M c).
Proof.
  intros Hp Hn H. unfold try_resolution in H. destruct (nth_error (literals pos) pi) as [p|] eqn:Ep; [|discriminate]. destruct (nth_error (literals neg) ni) as [m|] eqn:Em; [|discriminate].
  destruct (negb (positive p) || positive m) eqn:Es; [discriminate|]. apply orb_false_iff in Es. destruct Es as [S1 S2]. apply negb_false_iff in S1.
  assert (G : forall ls out, match normalize_with_trace ls out with None => None | Some (cl, ids) => Some (if witnessed out ids && clause_is_well_typed K cl then Some cl else None) end = Some (Some c) ->
    mt (Clause ls out) -> mt c /\ (valid M (Clause ls out) <-> valid M c)).
  { intros ls out E Hm. destruct (normalize_with_trace ls out) as [[cl ids]|] eqn:En; [|discriminate]. destruct (witnessed out ids && clause_is_well_typed K cl); [|discriminate].
    assert (cl = c) by congruence. subst. eapply trace_keeps; eauto. }
  destruct (Nat.ltb _ _).
  - destruct (resolve K ts n pos pi neg ni flipped) as [[[ls out]|]|] eqn:E; try discriminate.
    destruct (mono_resolve _ _ _ _ _ _ _ _ _ _ Hp Hn Ep Em ltac:(rewrite S1, S2; auto) E) as [A B]. destruct (G _ _ H A) as [A' B']. split; auto. intros. apply B'. auto.
  - destruct (resolve K ts n neg ni pos pi flipped) as [[[ls out]|]|] eqn:E; try discriminate.
    destruct (mono_resolve _ _ _ _ _ _ _ _ _ _ Hn Hp Em Ep ltac:(rewrite S1, S2; auto) E) as [A B]. destruct (G _ _ H A) as [A' B']. split; auto. intros. apply B'. auto.
Qed.
End SP.
