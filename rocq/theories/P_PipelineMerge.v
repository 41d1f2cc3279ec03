(** C45: the order in which parallel results arrive does not matter. *)
From Coq Require Import List ZArith Bool Arith Lia Permutation.
Import ListNotations.
From Verif Require Import BuildCache BuildCacheProofs PipelineMerge.

Section Proofs.
Context {E T F : Type} (fadd : F -> F -> F).
Notation event := (@event E).
Notation result := (@result E T F).
Notation builder := (@builder E T F).
Notation state := (@state E T F).
Implicit Types (b : builder) (r : result) (s : state).
(** What an observer sees, except the total number of goals: it grows while modules are loaded. *)
Definition hide_total (e : event) : nat * option Z * E := (build_id e, match progress e with Some (d, _) => Some d | None => None end, body e).
Definition observed b := (b_id b, b_status b, b_metrics b, b_timings b, b_cache b, b_used b, map hide_total (b_events b)).
(** merging one by one in order *)
Definition sequential (work : list (Z * result)) b : builder := fold_left (merge_result fadd) (map snd work) b.

Lemma merge_observed b c r : observed b = observed c -> observed (merge_result fadd b r) = observed (merge_result fadd c r).
Proof.
  unfold observed. intros H. injection H as H1 H2 H3 H4 H5 H6 H7. unfold merge_result. cbn [b_id b_status b_metrics b_timings b_cache b_used b_events]. rewrite !map_app, H1, H2, H3, H4, H5, H6, H7. do 2 f_equal. rewrite !map_map. apply map_ext.
  intros e. unfold hide_total. cbn. destruct (progress e) as [[? ?]|]; auto.
Qed.
Lemma eqb_iff (x y : nat) : Nat.eqb x y = true <-> x = y.
Proof. apply Nat.eqb_eq. Qed.
(** the invariant: results below [next] are merged in order, the others wait *)
Definition inv (work : list (Z * result)) (b0 : builder) s : Prop :=
  loaded s <= length work /\ (forall i, In i (seen s) -> i < loaded s) /\ (forall i, i < next_of s -> In i (seen s)) /\ ~ In (next_of s) (seen s) /\
  (forall i, mget Nat.eqb i (pending_of s) = if in_dec Nat.eq_dec i (seen s) then if Nat.ltb i (next_of s) then None else option_map snd (nth_error work i) else None) /\
  observed (builder_of s) = observed (sequential (firstn (next_of s) work) b0).
Lemma sequential_snoc work b0 n g r : nth_error work n = Some (g, r) -> sequential (firstn (S n) work) b0 = merge_result fadd (sequential (firstn n work) b0) r.
Proof.
  intros H. unfold sequential. assert (X : firstn (S n) work = firstn n work ++ [(g, r)]).
  { revert work H. induction n as [|n IH]; intros [|w work] H; try discriminate; [cbn in *; congruence|]. cbn in H. change (w :: firstn (S n) work = w :: (firstn n work ++ [(g, r)])). f_equal. apply IH. auto. }
  rewrite X, map_app, fold_left_app. reflexivity.
Qed.
Lemma remove_len (m : list (nat * result)) k r : mget Nat.eqb k m = Some r -> length (mremove Nat.eqb k m) < length m.
Proof.
  assert (L : forall m : list (nat * result), length (mremove Nat.eqb k m) <= length m).
  { clear. intros m. unfold mremove. induction m as [|[a c] m IH]; cbn; auto. destruct (negb (Nat.eqb a k)); cbn; lia. }
  induction m as [|[a c] m IH]; cbn; [discriminate|]. destruct (Nat.eqb a k); cbn; intros H; [specialize (L m); unfold mremove in L; lia|]. apply IH in H. unfold mremove in H. lia.
Qed.
Lemma ready_spec work b0 (sn : list nat) ld : forall fuel b p n,
  length p < fuel -> ld <= length work -> (forall i, In i sn -> i < ld) -> (forall i, i < n -> In i sn) ->
  (forall i, mget Nat.eqb i p = if in_dec Nat.eq_dec i sn then if Nat.ltb i n then None else option_map snd (nth_error work i) else None) ->
  observed b = observed (sequential (firstn n work) b0) ->
  match merge_ready fadd fuel b p n with (b', p', n') => inv work b0 (State b' ld sn p' n') end.
Proof.
  induction fuel as [|fuel IH]; intros b p n Hf Hl Hs Hn Hp Hb; [lia|]. cbn [merge_ready]. destruct (mget Nat.eqb n p) as [r|] eqn:Eg.
  - pose proof (remove_len p n r Eg) as RL. rewrite Hp in Eg. destruct (in_dec Nat.eq_dec n sn) as [Hin|]; [|discriminate]. rewrite (proj2 (Nat.ltb_ge n n)) in Eg by lia. destruct (nth_error work n) as [[g r']|] eqn:En; [|discriminate]. cbn in Eg. injection Eg as ->.
    apply IH; auto; [lia| | |].
    + intros i Hi. destruct (Nat.eq_dec i n) as [->|]; auto. apply Hn. lia.
    + intros i. rewrite mget_remove by apply eqb_iff. destruct (Nat.eqb_spec n i) as [->|Hi].
      * destruct (in_dec Nat.eq_dec i sn); auto. rewrite (proj2 (Nat.ltb_lt i (S i))) by lia. auto.
      * rewrite Hp. destruct (in_dec Nat.eq_dec i sn); auto. destruct (Nat.ltb_spec i n), (Nat.ltb_spec i (S n)); auto; lia.
    + rewrite (sequential_snoc _ _ _ _ _ En). apply merge_observed. auto.
  - unfold inv. cbn [loaded seen next_of pending_of builder_of]. repeat split; auto. intros Hin. rewrite Hp in Eg. destruct (in_dec Nat.eq_dec n sn); [|contradiction]. rewrite (proj2 (Nat.ltb_ge n n)) in Eg by lia.
    apply Hs in Hin. destruct (nth_error work n) eqn:En; [discriminate|]. apply nth_error_None in En. lia.
Qed.
Lemma step_inv ew work b0 s t : inv work b0 s -> step fadd ew work s t -> inv work b0 t.
Proof.
  intros I0 St. destruct St as [s0 g r Hs Hn|s0 i g r Hi Hs Hn]; destruct I0 as (I1 & I2 & I3 & I4 & I5 & I6).
  - unfold inv. cbn [loaded seen next_of pending_of builder_of]. split; [apply Nat.le_succ_l; apply nth_error_Some; congruence|]. split; [intros i Hi; apply I2 in Hi; lia|]. repeat split; auto.
  - unfold arrive, merge_pipeline_result.
    pose proof (ready_spec work b0 (i :: seen s0) (loaded s0) (S (length (mput Nat.eqb i r (pending_of s0)))) (builder_of s0) (mput Nat.eqb i r (pending_of s0)) (next_of s0)) as R.
    destruct (merge_ready _ _ _ _ _) as [[b' p'] n']. apply R; auto; clear R.
    + intros j [<-|Hj]; auto.
    + intros j Hj. right. auto.
    + intros j. rewrite mget_put by apply eqb_iff. rewrite I5. destruct (Nat.eqb_spec i j) as [->|Hj].
      * destruct (in_dec Nat.eq_dec j (j :: seen s0)) as [|N]; [|destruct N; left; auto]. destruct (Nat.ltb_spec j (next_of s0)) as [L|L]; [destruct Hs; auto|]. rewrite Hn. reflexivity.
      * destruct (in_dec Nat.eq_dec j (seen s0)) as [H1|H1], (in_dec Nat.eq_dec j (i :: seen s0)) as [H2|H2]; auto; [destruct H2; right; auto|]. destruct H2; contradiction.
Qed.
Lemma steps_inv ew work b0 s : steps fadd ew work (start b0) s -> inv work b0 s.
Proof.
  remember (start b0) as z. induction 1 as [|s t u H IH H1]; subst.
  - unfold inv, start. cbn [loaded seen next_of pending_of builder_of firstn]. repeat split; auto; try lia; try (intros i []).
  - eapply step_inv; eauto.
Qed.
(** Whatever the schedule, when it is over the results of the modules that were loaded are merged one by one in order. *)
Lemma finished_next ew work b0 s : steps fadd ew work (start b0) s -> finished ew work s -> next_of s = loaded s /\ pending_of s = [].
Proof.
  intros H [_ Fin]. apply steps_inv in H. destruct H as (I1 & I2 & I3 & I4 & I5 & I6).
  assert (N : next_of s = loaded s).
  { destruct (Nat.lt_trichotomy (next_of s) (loaded s)) as [L|[L|L]]; auto; [destruct I4; auto|]. specialize (I3 _ L). apply I2 in I3. lia. }
  split; auto. destruct (pending_of s) as [|[k r] p] eqn:Ep; auto. specialize (I5 k). cbn [mget] in I5. rewrite Nat.eqb_refl in I5. destruct (in_dec Nat.eq_dec k (seen s)) as [Hk|]; [|discriminate]. apply I2 in Hk. rewrite N in I5. rewrite (proj2 (Nat.ltb_lt k (loaded s))) in I5 by auto. discriminate.
Qed.

Lemma stopped_observed ew b c : observed b = observed c -> stopped ew b = stopped ew c.
Proof. unfold observed. intros H. injection H as _ H _ _ _ _ _. unfold stopped. rewrite H. auto. Qed.
Lemma stop_grows ew work b0 n : stopped ew (sequential (firstn n work) b0) = true -> stopped ew (sequential work b0) = true.
Proof.
  rewrite <- (firstn_skipn n work) at 2. unfold sequential. rewrite map_app, fold_left_app. set (b := fold_left _ _ b0). clearbody b. revert b. induction (map snd (skipn n work)) as [|r l IH]; intros b H; auto. cbn [fold_left]. apply IH.
  unfold stopped, merge_result in *. cbn [b_status]. destruct (r_status r), (b_status b), ew; cbn in *; auto.
Qed.
End Proofs.

(** Every schedule: at its end nothing waits, and the state is that of merging the loaded modules' results one by one in order.  If merging
    them all never stops the build, all modules are loaded, so every schedule ends with the same status, metrics, cache, timings and events,
    up to the total shown with the progress. *)
Theorem merge_is_sequential_partial : forall {E T F} fadd ew (work : list (Z * @result E T F)) b0 s,
  steps fadd ew work (start b0) s -> finished ew work s ->
  pending_of s = [] /\ observed (builder_of s) = observed (sequential fadd (firstn (loaded s) work) b0) /\
  (stopped ew (sequential fadd work b0) = false -> loaded s = length work /\ observed (builder_of s) = observed (sequential fadd work b0)).
Proof.
  intros E T F fadd ew work b0 s H Fin. destruct (finished_next fadd ew work b0 s H Fin) as [N P]. apply steps_inv in H. destruct H as (I1 & I2 & I3 & I4 & I5 & I6). rewrite N in I6. split; auto. split; auto.
  intros Ns. assert (L : loaded s = length work).
  { destruct Fin as [[L|St] _]; auto. rewrite (stopped_observed ew _ _ I6) in St. apply stop_grows in St. congruence. }
  split; auto. rewrite I6, L, firstn_all. auto.
Qed.
Print Assumptions merge_is_sequential_partial.

(** what merging in order amounts to *)
Definition worse (a b : status) : status := match a, b with Error, _ | _, Error => Error | Warning, _ | _, Warning => Warning | _, _ => Good end.
Theorem sequential_totals : forall {E T F} fadd (work : list (Z * @result E T F)) b0,
  b_status (sequential fadd work b0) = fold_right worse (b_status b0) (map (fun w => r_status (snd w)) work) /\
  goals_done (b_metrics (sequential fadd work b0)) = (goals_done (b_metrics b0) + fold_right Z.add 0 (map (fun w => goals_done (r_metrics (snd w))) work))%Z /\
  (forall i z, nth_error (counters (b_metrics b0)) i = Some z -> (forall w, In w work -> length (counters (r_metrics (snd w))) = length (counters (b_metrics b0))) ->
     nth_error (counters (b_metrics (sequential fadd work b0))) i = Some (z + fold_right Z.add 0 (map (fun w => nth i (counters (r_metrics (snd w))) 0) work))%Z) /\
  map body (b_events (sequential fadd work b0)) = map body (b_events b0) ++ flat_map (fun w => map body (r_events (snd w))) work.
Proof.
  intros E T F fadd work. unfold sequential. induction work as [|[g r] work IH]; intros b0; cbn [map snd fold_left fold_right flat_map].
  - repeat split; auto; [lia| |rewrite app_nil_r; auto]. intros i z H _. rewrite H. f_equal. lia.
  - destruct (IH (merge_result fadd b0 r)) as (A1 & A2 & A3 & A4). split; [|split; [|split]].
    + rewrite A1. unfold merge_result. cbn [b_status]. clear. induction (map _ work) as [|x l IHl]; cbn; [destruct (r_status r), (b_status b0); auto|]. rewrite IHl. destruct x, (r_status r), (fold_right worse (b_status b0) l); auto.
    + rewrite A2. unfold merge_result, add_module_result. cbn [b_metrics goals_done]. lia.
    + intros i z H Hl. assert (Lr : length (counters (r_metrics r)) = length (counters (b_metrics b0))) by (apply (Hl (g, r)); left; auto).
      assert (Al : forall a b i, length a = length b -> length (add_all a b) = length a /\ forall x y, nth_error a i = Some x -> nth_error b i = Some y -> nth_error (add_all a b) i = Some (x + y)%Z).
      { clear. induction a as [|x a IHa]; intros [|y b] i L; cbn in L; try lia; [split; auto; intros x y H; destruct i; discriminate|]. cbn [add_all length]. injection L as L. split; [f_equal; apply (IHa b i L)|]. destruct i as [|i]; cbn; [congruence|]. apply (IHa b i L). }
      assert (Hi : i < length (counters (b_metrics b0))) by (apply nth_error_Some; congruence).
      destruct (Al (counters (b_metrics b0)) (counters (r_metrics r)) i ltac:(auto)) as [L1 L2].
      rewrite (A3 i (z + nth i (counters (r_metrics r)) 0)%Z).
      * f_equal. lia.
      * cbn [merge_result b_metrics add_module_result counters]. apply L2; auto. apply nth_error_nth'. lia.
      * intros w Hw. cbn [merge_result b_metrics add_module_result counters]. rewrite L1. apply Hl. right; auto.
    + rewrite A4. unfold merge_result. cbn [b_events]. rewrite map_app, map_map. cbn [body]. rewrite <- app_assoc. auto.
Qed.
Print Assumptions sequential_totals.

(** The totals shown with the progress do depend on the schedule. *)
Definition pm_metrics : @metrics unit := Metrics 1 [1%Z] tt false.
Definition pm_builder : @builder unit unit unit := Builder 7 Good (Metrics 0 [0%Z] tt false) 0 [] (Cache [] []) [] [].
Definition pm_result (st : status) : @result unit unit unit := Result st pm_metrics [] None [] [Event 0 (Some (1, 1)%Z) tt].
Definition pm_work : list (Z * @result unit unit unit) := [(1%Z, pm_result Good); (5%Z, pm_result Good)].
Definition pm_add (a b : unit) : unit := tt.
Ltac load := eapply step_load; [reflexivity|reflexivity].
Ltac arr i := eapply (step_arrive _ _ _ _ i); [cbn; lia|cbn; intuition discriminate|reflexivity].
Theorem progress_total_refuted : exists s t, steps pm_add false pm_work (start pm_builder) s /\ finished false pm_work s /\ steps pm_add false pm_work (start pm_builder) t /\ finished false pm_work t /\ b_events (builder_of s) <> b_events (builder_of t).
Proof.
  eexists. eexists. split; [|split; [|split; [|split]]].
  - eapply steps_next; [eapply steps_next; [eapply steps_next; [eapply steps_next; [apply steps_refl|load]|load]|arr 1]|arr 0].
  - split; [left; reflexivity|]. cbn. intros i Hi. lia.
  - eapply steps_next; [eapply steps_next; [eapply steps_next; [eapply steps_next; [apply steps_refl|load]|arr 0]|load]|arr 1].
  - split; [left; reflexivity|]. cbn. intros i Hi. lia.
  - discriminate.
Qed.
Print Assumptions progress_total_refuted.
(** After an error even the number of goals done does. *)
Definition pm_error : list (Z * @result unit unit unit) := [(1%Z, pm_result Error); (5%Z, pm_result Good)].
Theorem error_schedule_refuted : exists s t, steps pm_add false pm_error (start pm_builder) s /\ finished false pm_error s /\ steps pm_add false pm_error (start pm_builder) t /\ finished false pm_error t /\
  goals_done (b_metrics (builder_of s)) <> goals_done (b_metrics (builder_of t)).
Proof.
  eexists. eexists. split; [|split; [|split; [|split]]].
  - eapply steps_next; [eapply steps_next; [eapply steps_next; [eapply steps_next; [apply steps_refl|load]|load]|arr 1]|arr 0].
  - split; [left; reflexivity|]. cbn. intros i Hi. lia.
  - eapply steps_next; [eapply steps_next; [apply steps_refl|load]|arr 0].
  - split; [right; reflexivity|]. cbn. intros i Hi. lia.
  - discriminate.
Qed.
Print Assumptions error_schedule_refuted.
(** Nor are the events those of a build on one thread: there every goal shows its own progress, here all goals of a module show the same. *)
Definition local_events (first total : Z) (n : nat) : list (@event unit) := map (fun k => Event 7 (Some (first + Z.of_nat (S k), total)%Z) tt) (seq 0 n).
Theorem event_progress_refuted : exists (r : @result unit unit unit), r_events r = local_events 0 2 2 /\ goals_done (r_metrics r) = 2%Z /\
  b_events (merge_result pm_add (more_total pm_builder 2) r) <> local_events 0 2 2.
Proof. exists (Result Good (Metrics 2 [2%Z] tt false) [] None [] (local_events 0 2 2)). repeat split; auto. discriminate. Qed.
Print Assumptions event_progress_refuted.
Example merge_case : exists s, steps pm_add false pm_work (start pm_builder) s /\ finished false pm_work s /\ stopped false (sequential pm_add pm_work pm_builder) = false /\ goals_done (b_metrics (builder_of s)) = 2%Z /\ next_of s = 2.
Proof.
  eexists. split; [|split; [|split; [|split]]].
  - eapply steps_next; [eapply steps_next; [eapply steps_next; [eapply steps_next; [apply steps_refl|load]|load]|arr 1]|arr 0].
  - split; [left; reflexivity|]. cbn. intros i Hi. lia.
  - reflexivity.
  - reflexivity.
  - reflexivity.
Qed.
