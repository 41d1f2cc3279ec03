(** C39: pruning a proof trace (certificate_trace.rs:197-230). *)
From Coq Require Import String List Arith Bool Lia Sorted.
Import ListNotations.
From Verif Require Import BoolReduction EqualityGraph TraceChecker TracePrune.
Open Scope list_scope.

(** The steps that stay: not auxiliary, or a premise of some step. *)
Definition stays (steps : list trace_step) (i : nat) : Prop :=
  exists s, nth_error steps i = Some s /\ (ts_generic s = false \/ exists t, In t steps /\ In i (ts_premises t)).

Lemma set_true_len l : forall i, length (set_true i l) = length l.
Proof. induction l; destruct i; simpl; auto. Qed.
Lemma set_true_nth l : forall i j, nth j (set_true i l) false = (Nat.eqb i j && Nat.ltb j (length l)) || nth j l false.
Proof.
  induction l as [|b l IH]; intros [|i] [|j]; simpl; auto; try (rewrite andb_false_r; destruct j; reflexivity). rewrite IH. reflexivity.
Qed.
Lemma set_all l : forall acc j, length (fold_left (fun acc p => set_true p acc) l acc) = length acc /\
  (nth j (fold_left (fun acc p => set_true p acc) l acc) false = true <-> (In j l /\ j < length acc) \/ nth j acc false = true).
Proof.
  induction l as [|i l IH]; simpl; intros acc j; [split; auto; tauto|].
  destruct (IH (set_true i acc) j) as [A B]. rewrite set_true_len in *. split; auto. rewrite B, set_true_nth, orb_true_iff, andb_true_iff, Nat.eqb_eq, Nat.ltb_lt. tauto.
Qed.
Lemma referenced_from l : forall acc j, length (fold_left (fun acc s => fold_left (fun acc p => set_true p acc) (ts_premises s) acc) l acc) = length acc /\
  (nth j (fold_left (fun acc s => fold_left (fun acc p => set_true p acc) (ts_premises s) acc) l acc) false = true <->
   (j < length acc /\ exists s, In s l /\ In j (ts_premises s)) \/ nth j acc false = true).
Proof.
  induction l as [|s l IH]; simpl; intros acc j; [split; auto; firstorder|].
  destruct (IH (fold_left (fun acc p => set_true p acc) (ts_premises s) acc) j) as [A B]. destruct (set_all (ts_premises s) acc j) as [C D].
  rewrite C in *. split; auto. rewrite B, D. split.
  - intros [(H & t & H1 & H2)|[(H1 & H2)|H]]; eauto; left; eauto.
  - intros [(H & t & [<-|H1] & H2)|H]; eauto; left; eauto.
Qed.
Lemma referenced_spec steps j : length (referenced steps) = length steps /\
  (nth j (referenced steps) false = true <-> j < length steps /\ exists s, In s steps /\ In j (ts_premises s)).
Proof.
  destruct (referenced_from steps (repeat false (length steps)) j) as [A B]. rewrite repeat_length in *. split; auto.
  unfold referenced. rewrite B. split; auto. intros [H|H]; auto. exfalso. revert H. generalize (length steps). clear.
  intros n. revert j. induction n; destruct j; simpl; intros H; try discriminate; eauto.
Qed.
Lemma auxiliary_generic s : auxiliary s = ts_generic s.
Proof. unfold auxiliary. destruct (ts_generic s); simpl; auto. rewrite andb_false_r. reflexivity. Qed.

(** [kept] is the list of the old numbers *)
Lemma keep_spec steps : forall used next m k, keep_steps used next steps = (m, k) ->
  exists kept, StronglySorted lt kept /\ length k = length kept /\ length m = length steps /\
  (forall j, In j kept <-> exists s, nth_error steps j = Some s /\ (ts_generic s = false \/ nth j used false = true)) /\
  (forall q j, nth_error kept q = Some j -> nth_error k q = nth_error steps j /\ nth_error m j = Some (Some (next + q))) /\
  (forall j q, nth_error m j = Some (Some q) -> next <= q /\ nth_error kept (q - next) = Some j).
Proof.
  induction steps as [|s r IH]; intros used next m k H; cbn [keep_steps] in H.
  - injection H as <- <-. exists []. split; [constructor|]. split; auto. split; auto. split; [|split].
    + intros j. split; [intros []|]. intros (s & H & _). destruct j; discriminate.
    + intros [|q] j H; discriminate.
    + intros [|j] q H; discriminate.
  - rewrite auxiliary_generic in H.
    assert (HD : hd false used = nth 0 used false) by (destruct used; auto).
    assert (TL : forall j, nth j (tl used) false = nth (S j) used false) by (destruct used; destruct j; auto).
    destruct (ts_generic s && negb (hd false used)) eqn:E.
    + destruct (keep_steps (tl used) next r) as [m' k'] eqn:E'. injection H as <- <-.
      destruct (IH _ _ _ _ E') as (kept & Hs & L & Lm & Hin & Hq & Hj). exists (map S kept). split; [|split; [|split; [|split; [|split]]]].
      * clear - Hs. induction Hs as [|a l Hl IHl F]; simpl; constructor; auto. apply Forall_forall. intros x Hx. apply in_map_iff in Hx.
        destruct Hx as (y & <- & Hy). rewrite Forall_forall in F. apply F in Hy. lia.
      * rewrite map_length. exact L.
      * simpl. congruence.
      * intros j. rewrite in_map_iff. split.
        -- intros (i & <- & Hi). apply Hin in Hi. destruct Hi as (t & H1 & H2). exists t. simpl. rewrite <- TL. auto.
        -- intros (t & H1 & H2). destruct j as [|j].
           ++ exfalso. injection H1 as ->. apply andb_prop in E. destruct E as [E1 E2]. rewrite HD in E2. destruct H2 as [H2|H2]; [congruence|]. rewrite H2 in E2. discriminate.
           ++ exists j. split; auto. apply Hin. exists t. rewrite TL. auto.
      * intros q j Hq'. rewrite nth_error_map in Hq'. destruct (nth_error kept q) as [i|] eqn:Ei; [|discriminate]. injection Hq' as <-. apply (Hq q i Ei).
      * intros [|j] q Hm; [discriminate|]. destruct (Hj j q Hm) as [H1 H2]. split; auto. rewrite nth_error_map, H2. reflexivity.
    + destruct (keep_steps (tl used) (S next) r) as [m' k'] eqn:E'. injection H as <- <-.
      destruct (IH _ _ _ _ E') as (kept & Hs & L & Lm & Hin & Hq & Hj). exists (0 :: map S kept). split; [|split; [|split; [|split; [|split]]]].
      * constructor; [|apply Forall_forall; intros x Hx; apply in_map_iff in Hx; destruct Hx as (y & <- & _); lia].
        clear - Hs. induction Hs as [|a l Hl IHl F]; simpl; constructor; auto. apply Forall_forall. intros x Hx. apply in_map_iff in Hx.
        destruct Hx as (y & <- & Hy). rewrite Forall_forall in F. apply F in Hy. lia.
      * simpl. rewrite map_length. congruence.
      * simpl. congruence.
      * intros j. split.
        -- intros [<-|Hj0]; [|apply in_map_iff in Hj0; destruct Hj0 as (i & <- & Hi); apply Hin in Hi; destruct Hi as (t & H1 & H2); exists t; simpl; rewrite <- TL; auto].
           exists s. split; auto. destruct (ts_generic s); auto. right. rewrite <- HD. destruct (hd false used); auto.
        -- intros (t & H1 & H2). destruct j as [|j]; [left; auto|right]. apply in_map, Hin. exists t. rewrite TL. auto.
      * intros [|q] j Hq'; [injection Hq' as <-; split; auto; simpl; f_equal; f_equal; lia|].
        simpl in Hq'. rewrite nth_error_map in Hq'. destruct (nth_error kept q) as [i|] eqn:Ei; [|discriminate]. injection Hq' as <-.
        destruct (Hq q i Ei) as [A B]. split; auto. simpl. rewrite B. do 2 f_equal. lia.
      * intros [|j] q Hm; [injection Hm as <-; split; auto; rewrite Nat.sub_diag; reflexivity|].
        destruct (Hj j q Hm) as [H1 H2]. split; [lia|]. replace (q - next) with (S (q - S next)) by lia. simpl. rewrite nth_error_map, H2. reflexivity.
Qed.
Lemma remap_premises_spec m : forall ps qs, remap_premises m ps = Ok qs -> Forall2 (fun p q => nth_error m p = Some (Some q)) ps qs.
Proof.
  induction ps as [|p ps IH]; simpl; intros qs H; [injection H as <-; constructor|].
  destruct (nth_error m p) as [[q|]|] eqn:E; try discriminate. destruct (remap_premises m ps) as [r| |] eqn:E'; try discriminate. injection H as <-.
  constructor; auto.
Qed.
Definition same_but_premises (s t : trace_step) : Prop :=
  ts_rule s = ts_rule t /\ ts_claim s = ts_claim t /\ ts_generic s = ts_generic t /\ ts_kind s = ts_kind t /\ ts_literal s = ts_literal t.
Lemma remap_steps_spec m : forall k out, remap_steps m k = Ok out ->
  Forall2 (fun s t => same_but_premises s t /\ Forall2 (fun p q => nth_error m p = Some (Some q)) (ts_premises s) (ts_premises t)) k out.
Proof.
  induction k as [|s k IH]; simpl; intros out H; [injection H as <-; constructor|].
  destruct (remap_premises m (ts_premises s)) as [ps| |] eqn:E; try discriminate. simpl in H.
  destruct (remap_steps m k) as [r| |] eqn:E'; try discriminate. injection H as <-. constructor; auto.
  split; [repeat split|]. apply remap_premises_spec. exact E.
Qed.
Lemma forall2_len {A B} (R : A -> B -> Prop) l r : Forall2 R l r -> length l = length r.
Proof. induction 1; simpl; auto. Qed.
Lemma forall2_nth {A B} (R : A -> B -> Prop) l r : Forall2 R l r -> forall i y, nth_error r i = Some y -> exists x, nth_error l i = Some x /\ R x y.
Proof. induction 1; intros [|i] z Hz; try discriminate; [injection Hz as <-; simpl; eauto|apply IHForall2, Hz]. Qed.

(** The pruned trace consists of exactly the steps that stay, in their order and unchanged except for the
    numbers of their premises, which point at the same steps as before. *)
Theorem pruning_keeps_support : forall steps out, prune steps = Ok out ->
  exists kept, StronglySorted lt kept /\ length out = length kept /\ (forall i, In i kept <-> stays steps i) /\
  forall q t, nth_error out q = Some t -> exists i s, nth_error kept q = Some i /\ nth_error steps i = Some s /\
    same_but_premises s t /\ Forall2 (fun p p' => nth_error kept p' = Some p) (ts_premises s) (ts_premises t).
Proof.
  intros steps out H. unfold prune in H. destruct (keep_steps (referenced steps) 0 steps) as [m k] eqn:E.
  destruct (keep_spec _ _ _ _ _ E) as (kept & Hs & L & Lm & Hin & Hq & Hj). pose proof (remap_steps_spec _ _ _ H) as F.
  exists kept. split; auto. split; [rewrite <- (forall2_len _ _ _ F); auto|]. split.
  - intros i. rewrite Hin. unfold stays. split; intros (s & H1 & H2); exists s; split; auto; destruct H2 as [H2|H2]; auto; right.
    + apply referenced_spec in H2. apply H2.
    + apply referenced_spec. split; auto. apply nth_error_Some. congruence.
  - intros q t Ht. destruct (forall2_nth _ _ _ F q t Ht) as (s & Hs' & S1 & S2).
    assert (Hk : q < length kept) by (rewrite <- L; apply nth_error_Some; congruence).
    destruct (nth_error kept q) as [i|] eqn:Ei; [|apply nth_error_None in Ei; lia].
    exists i, s. destruct (Hq q i Ei) as [A _]. split; auto. split; [congruence|]. split; auto.
    clear - S2 Hj. induction S2; constructor; auto. destruct (Hj _ _ H) as [_ H1]. rewrite Nat.sub_0_r in H1. exact H1.
Qed.
Print Assumptions pruning_keeps_support.

(** It panics exactly if a step that stays has a premise that does not exist; in particular not if premises
    point backwards. *)
Theorem pruning_panics_iff : forall steps,
  (exists out, prune steps = Ok out) <-> (forall i s p, nth_error steps i = Some s -> stays steps i -> In p (ts_premises s) -> p < length steps).
Proof.
  intros steps. unfold prune. destruct (keep_steps (referenced steps) 0 steps) as [m k] eqn:E.
  destruct (keep_spec _ _ _ _ _ E) as (kept & Hs & L & Lm & Hin & Hq & Hj).
  assert (St : forall i, stays steps i <-> In i kept).
  { intros i. rewrite Hin. unfold stays. split; intros (s & H1 & H2); exists s; split; auto; destruct H2 as [H2|H2]; auto; right.
    - apply referenced_spec. split; auto. apply nth_error_Some. congruence.
    - apply referenced_spec in H2. apply H2. }
  split.
  - intros [out H] i s p Hi Hst Hp. apply St in Hst. apply In_nth_error in Hst. destruct Hst as [q Hk]. destruct (Hq q i Hk) as [A _].
    pose proof (remap_steps_spec _ _ _ H) as F. rewrite Hi in A.
    assert (G : exists t, In t out /\ Forall2 (fun p q => nth_error m p = Some (Some q)) (ts_premises s) (ts_premises t)).
    { clear - F A. revert q A. induction F as [|x y l r Hxy F IH]; intros [|q] A; try discriminate.
      - injection A as <-. exists y. simpl. tauto.
      - destruct (IH q A) as (t & ? & ?). exists t. simpl; auto. }
    destruct G as (t & _ & G). clear - G Hp Lm. induction G as [|x y l r Hxy G IH]; [destruct Hp|]. destruct Hp as [<-|Hp]; auto.
    rewrite <- Lm. apply nth_error_Some. congruence.
  - intros H.
    assert (T : forall ps, (forall p, In p ps -> In p kept) -> exists qs, remap_premises m ps = Ok qs).
    { induction ps as [|p ps IH]; simpl; intros Hp; eauto. destruct (In_nth_error kept p (Hp p (or_introl eq_refl))) as [q Hk].
      destruct (Hq q p Hk) as [_ ->]. destruct (IH (fun x Hx => Hp x (or_intror Hx))) as [qs ->]. simpl. eauto. }
    assert (T2 : forall l, (forall s, In s l -> exists i, nth_error steps i = Some s /\ In i kept) -> exists out, remap_steps m l = Ok out).
    { induction l as [|s l IH]; simpl; intros Hl; eauto. destruct (Hl s (or_introl eq_refl)) as (i & H1 & H2).
      destruct (T (ts_premises s)) as [qs ->].
      { intros p Hp. assert (P : p < length steps) by (eapply H; eauto; apply St; auto).
        apply St. destruct (nth_error steps p) as [u|] eqn:Eu; [|apply nth_error_None in Eu; lia]. exists u. split; auto. right. exists s. split; auto. eapply nth_error_In; eauto. }
      simpl. destruct (IH (fun x Hx => Hl x (or_intror Hx))) as [out ->]. simpl. eauto. }
    apply T2. intros s Hk. apply In_nth_error in Hk. destruct Hk as [q Hk].
    assert (Hl : q < length kept) by (rewrite <- L; apply nth_error_Some; congruence).
    destruct (nth_error kept q) as [i|] eqn:Ei; [|apply nth_error_None in Ei; lia]. exists i. destruct (Hq q i Ei) as [A _]. split; [congruence|]. eapply nth_error_In; eauto.
Qed.
Print Assumptions pruning_panics_iff.
Corollary pruning_total : forall steps, (forall i s p, nth_error steps i = Some s -> In p (ts_premises s) -> p < i) -> exists out, prune steps = Ok out.
Proof.
  intros steps H. apply pruning_panics_iff. intros i s p Hi _ Hp. apply (Nat.lt_trans _ i); [eapply H; eauto|]. apply nth_error_Some. congruence.
Qed.

Open Scope string_scope.
(** a generic step nobody uses is dropped, one that is used stays *)
Definition tp_steps := [Step RClaim "forall(x: Nat) { p(x) }" [] true None None; Step RFact "q" [] true None None;
  Step RInst "q2" [1] false None None; Step RContra "false" [2; 1] false None None].
Example pruning_case : prune tp_steps = Ok [Step RFact "q" [] true None None; Step RInst "q2" [0] false None None; Step RContra "false" [1; 0] false None None] /\
  (forall i s p, nth_error tp_steps i = Some s -> In p (ts_premises s) -> p < i) /\
  prune [Step RInst "q" [7] false None None] = Panic /\ prune [Step RInst "q" [7] true None None] = Ok [].
Proof.
  split; [reflexivity|]. split; [|split; reflexivity].
  intros [|[|[|[|i]]]] s p H Hp; simpl in H; try (injection H as <-; simpl in Hp; intuition lia). destruct i; discriminate.
Qed.

(** One pass is not a fixed point: a generic step used only by a dropped step stays. *)
Theorem pruning_once_refuted : exists steps once twice, prune steps = Ok once /\ prune once = Ok twice /\ length twice < length once.
Proof.
  exists [Step RFact "q" [] true None None; Step RInst "r" [0] true None None]. eexists. eexists.
  split; [reflexivity|]. split; [reflexivity|]. simpl. lia.
Qed.
Print Assumptions pruning_once_refuted.
