From Coq Require Import List Arith Lia Bool.
Import ListNotations.
From Verif Require Import ProjectManager.

Section PMP.
Context {P : Type}.
Variable f : nat -> P -> P.
Variable p0 : P.

Definition replay (l : list nat) : P := fold_left (fun p i => f i p) l p0.

(** Tasks whose closure has run. *)
Definition ran (p : pc) : bool :=
  match p with
  | MApplied | MBumped _ | MTokened _ | MDone _
  | CApplied _ | CBumped _ _ | CTokened _ _ | CDone _ _ => true
  | _ => false
  end.

(** Between running the closure and bumping the epoch. *)
Definition mid (p : pc) : bool :=
  match p with MApplied | CApplied _ => true | _ => false end.
(** Between bumping the epoch and installing the token. *)
Definition mid2 (p : pc) : bool :=
  match p with MBumped _ | CBumped _ _ => true | _ => false end.

Definition local_inv (s : @state P) (i : nat) (p : pc) : Prop :=
  match p with
  | RToken t => t = token s
  | RView t e => t = token s /\ e = epoch s
  | RDropped t e => t = e /\ e <= epoch s
  | MApplied => nth_error (log s) (epoch s) = Some i
  | MBumped e | MTokened e =>
      e = epoch s /\ exists k, e = S k /\ nth_error (log s) k = Some i
  | MDone e => e <= epoch s /\ exists k, e = S k /\ nth_error (log s) k = Some i
  | CRechecked w => w = epoch s
  | CApplied w => w = epoch s /\ nth_error (log s) w = Some i
  | CBumped w e | CTokened w e =>
      e = epoch s /\ e = S w /\ nth_error (log s) w = Some i
  | CDone w e => e <= epoch s /\ e = S w /\ nth_error (log s) w = Some i
  | _ => True
  end.

Record inv (s : @state P) : Prop := Inv {
  inv_w : forall i j, writes (tasks s i) = true -> writes (tasks s j) = true -> i = j;
  inv_rw : forall i j, writes (tasks s i) = true -> reads (tasks s j) = false;
  inv_proj : proj s = replay (log s);
  inv_len0 : (forall i, mid (tasks s i) = false) -> length (log s) = epoch s;
  inv_len1 : forall i, mid (tasks s i) = true -> length (log s) = S (epoch s);
  inv_tok0 : (forall i, mid2 (tasks s i) = false) -> token s = epoch s;
  inv_tok1 : forall i, mid2 (tasks s i) = true -> S (token s) = epoch s;
  inv_fresh : fresh s = S (token s);
  inv_ran : forall i, In i (log s) <-> ran (tasks s i) = true;
  inv_nodup : NoDup (log s);
  inv_local : forall i, local_inv s i (tasks s i)
}.

Lemma mid_writes p : mid p = true -> writes p = true.
Proof. destruct p; simpl; congruence. Qed.
Lemma mid2_writes p : mid2 p = true -> writes p = true.
Proof. destruct p; simpl; congruence. Qed.
Lemma mid_mid2 p : mid p = true -> mid2 p = false.
Proof. destruct p; simpl; congruence. Qed.

Lemma inv_initial s : initial p0 s -> inv s.
Proof.
  intros (Hp & He & Ht & Hc & Hf & Hl & Hi).
  assert (Hw : forall i, writes (tasks s i) = false).
  { intros i. specialize (Hi i). destruct (tasks s i); simpl in *; tauto. }
  constructor.
  - intros i j H. rewrite Hw in H. discriminate.
  - intros i j H. rewrite Hw in H. discriminate.
  - rewrite Hl. exact Hp.
  - intros _. rewrite Hl, He. reflexivity.
  - intros i H. apply mid_writes in H. rewrite Hw in H. discriminate.
  - intros _. congruence.
  - intros i H. apply mid2_writes in H. rewrite Hw in H. discriminate.
  - congruence.
  - intros i. rewrite Hl. specialize (Hi i). destruct (tasks s i); simpl in *; split; intros; try tauto; discriminate.
  - rewrite Hl. constructor.
  - intros i. specialize (Hi i). destruct (tasks s i); simpl in *; tauto.
Qed.

Lemma set_task_eq (s : @state P) i p : tasks (set_task s i p) i = p.
Proof. simpl. rewrite Nat.eqb_refl. reflexivity. Qed.
Lemma set_task_neq (s : @state P) i p j : j <> i -> tasks (set_task s i p) j = tasks s j.
Proof. intros H. simpl. apply Nat.eqb_neq in H. rewrite H. reflexivity. Qed.

(** Steps that only move one program counter. *)
Lemma inv_move s i p :
  inv s ->
  mid (tasks s i) = false -> mid p = false ->
  mid2 (tasks s i) = false -> mid2 p = false ->
  ran p = ran (tasks s i) ->
  (writes p = true -> writes (tasks s i) = true \/
     forall j, writes (tasks s j) = false /\ reads (tasks s j) = false) ->
  (reads p = true -> reads (tasks s i) = true \/ forall j, writes (tasks s j) = false) ->
  local_inv s i p ->
  inv (set_task s i p).
Proof.
  intros [I1 I2 I3 I4 I5 I6 I7 I8 I9 I10 I11] Hm Hm' H2 H2' Hr Hw Hrd Hl.
  constructor; simpl.
  - intros a b Ha Hb.
    destruct (Nat.eqb_spec a i), (Nat.eqb_spec b i); subst; auto.
    + destruct (Hw Ha) as [Hw'|Hw']; [apply I1; auto|].
      destruct (Hw' b). congruence.
    + destruct (Hw Hb) as [Hw'|Hw']; [apply I1; auto|].
      destruct (Hw' a). congruence.
  - intros a b Ha.
    destruct (Nat.eqb_spec a i), (Nat.eqb_spec b i); subst.
    + destruct p; simpl in *; congruence.
    + destruct (Hw Ha) as [Hw'|Hw']; [eapply I2; eauto|]. apply Hw'.
    + destruct (reads p) eqn:Hp; auto.
      destruct (Hrd eq_refl) as [Hr'|Hr']; [rewrite (I2 a i Ha) in Hr'; discriminate|].
      rewrite Hr' in Ha. discriminate.
    + eapply I2; eauto.
  - exact I3.
  - intros H. apply I4. intros j. specialize (H j).
    destruct (Nat.eqb_spec j i); subst; auto.
  - intros j H. destruct (Nat.eqb_spec j i); subst; [congruence|]. eapply I5; eauto.
  - intros H. apply I6. intros j. specialize (H j).
    destruct (Nat.eqb_spec j i); subst; auto.
  - intros j H. destruct (Nat.eqb_spec j i); subst; [congruence|]. eapply I7; eauto.
  - exact I8.
  - intros j. rewrite I9. destruct (Nat.eqb_spec j i); subst; [rewrite Hr|]; tauto.
  - exact I10.
  - intros j. destruct (Nat.eqb_spec j i); subst; [|exact (I11 j)].
    destruct p; simpl in *; auto.
Qed.

Lemma local_cancel s i p : local_inv (cancel_current s) i p <-> local_inv s i p.
Proof. destruct p; simpl; tauto. Qed.

Lemma inv_cancel s : inv s -> inv (cancel_current s).
Proof.
  intros [I1 I2 I3 I4 I5 I6 I7 I8 I9 I10 I11]. constructor; auto.
Qed.

Lemma replay_snoc l i : replay (l ++ [i]) = f i (replay l).
Proof. unfold replay. rewrite fold_left_app. reflexivity. Qed.

Lemma nth_error_snoc {A} (l : list A) x : nth_error (l ++ [x]) (length l) = Some x.
Proof. rewrite nth_error_app2, Nat.sub_diag; auto. Qed.

Lemma nth_error_mono {A} (l : list A) x k y :
  nth_error l k = Some y -> nth_error (l ++ [x]) k = Some y.
Proof.
  intros H. rewrite nth_error_app1; auto. apply nth_error_Some. congruence.
Qed.

Lemma inv_run s i p :
  inv s -> writes (tasks s i) = true -> mid (tasks s i) = false ->
  mid2 (tasks s i) = false -> ran (tasks s i) = false ->
  (p = MApplied \/ p = CApplied (epoch s)) ->
  inv (set_task (run_closure f s i) i p).
Proof.
  intros [I1 I2 I3 I4 I5 I6 I7 I8 I9 I10 I11] Hw Hm Hm2 Hr Hp.
  assert (Hlen : length (log s) = epoch s).
  { apply I4. intros j. destruct (mid (tasks s j)) eqn:E; auto.
    assert (j = i) by (apply I1; auto using mid_writes). subst. congruence. }
  assert (Hpw : writes p = true) by (destruct Hp; subst; reflexivity).
  assert (Hpm : mid p = true) by (destruct Hp; subst; reflexivity).
  assert (Hpm2 : mid2 p = false) by (destruct Hp; subst; reflexivity).
  assert (Hpr : ran p = true) by (destruct Hp; subst; reflexivity).
  constructor; simpl.
  - intros a b Ha Hb.
    destruct (Nat.eqb_spec a i), (Nat.eqb_spec b i); subst; auto.
  - intros a b Ha.
    destruct (Nat.eqb_spec b i); subst.
    + destruct p; simpl in *; congruence.
    + eapply I2; eauto.
  - rewrite replay_snoc, I3. reflexivity.
  - intros H. specialize (H i). rewrite Nat.eqb_refl in H. congruence.
  - intros j H. rewrite app_length. simpl. lia.
  - intros H. apply I6. intros j. destruct (Nat.eqb_spec j i) as [->|Hn]; auto.
    specialize (H j). apply Nat.eqb_neq in Hn. rewrite Hn in H. auto.
  - intros j H. destruct (Nat.eqb_spec j i); subst; [congruence|]. eapply I7; eauto.
  - exact I8.
  - intros j. rewrite in_app_iff. simpl. rewrite I9.
    destruct (Nat.eqb_spec j i); subst.
    + rewrite Hpr. tauto.
    + split; [intros [H|[H|[]]]; auto; congruence|auto].
  - apply NoDup_remove_1 with (a := i) (l' := []) in I10 || idtac.
    rewrite <- (rev_involutive (log s ++ [i])). apply NoDup_rev.
    rewrite rev_app_distr. simpl. constructor.
    + rewrite <- in_rev. rewrite I9. congruence.
    + apply NoDup_rev. exact I10.
  - intros j. destruct (Nat.eqb_spec j i); subst.
    + destruct Hp; subst; simpl; rewrite <- Hlen; [apply nth_error_snoc|].
      split; auto. apply nth_error_snoc.
    + specialize (I11 j). destruct (tasks s j) eqn:E; simpl in *; auto.
      * apply nth_error_mono; auto.
      * destruct I11 as [H1 [k [Hk1 Hk2]]]. split; auto. exists k. split; auto. apply nth_error_mono; auto.
      * destruct I11 as [H1 [k [Hk1 Hk2]]]. split; auto. exists k. split; auto. apply nth_error_mono; auto.
      * destruct I11 as [H1 [k [Hk1 Hk2]]]. split; auto. exists k. split; auto. apply nth_error_mono; auto.
      * destruct I11. split; auto. apply nth_error_mono; auto.
      * destruct I11 as (?&?&?). repeat split; auto. apply nth_error_mono; auto.
      * destruct I11 as (?&?&?). repeat split; auto. apply nth_error_mono; auto.
      * destruct I11 as (?&?&?). repeat split; auto. apply nth_error_mono; auto.
Qed.

Lemma others_not_writing s i j :
  inv s -> writes (tasks s i) = true -> j <> i ->
  writes (tasks s j) = false /\ reads (tasks s j) = false.
Proof.
  intros I Hw Hn. split.
  - destruct (writes (tasks s j)) eqn:E; auto.
    exfalso. apply Hn. eapply inv_w; eauto.
  - eapply inv_rw; eauto.
Qed.

Lemma inv_bump s i p :
  inv s -> mid (tasks s i) = true ->
  (tasks s i = MApplied /\ p = MBumped (S (epoch s)) \/
   exists w, tasks s i = CApplied w /\ p = CBumped w (S (epoch s))) ->
  inv (set_task (bump s) i p).
Proof.
  intros I Hm Hp. pose proof I as [I1 I2 I3 I4 I5 I6 I7 I8 I9 I10 I11].
  assert (Hw : writes (tasks s i) = true) by auto using mid_writes.
  assert (Hpw : writes p = true) by (destruct Hp as [[_ ->]|(w&_&->)]; reflexivity).
  assert (Hpm : mid p = false) by (destruct Hp as [[_ ->]|(w&_&->)]; reflexivity).
  assert (Hpm2 : mid2 p = true) by (destruct Hp as [[_ ->]|(w&_&->)]; reflexivity).
  assert (Hpr : ran p = true) by (destruct Hp as [[_ ->]|(w&_&->)]; reflexivity).
  assert (Hr : ran (tasks s i) = true) by (destruct Hp as [[-> _]|(w&->&_)]; reflexivity).
  assert (Ht : token s = epoch s).
  { apply I6. intros j. destruct (Nat.eq_dec j i) as [->|Hn]; [auto using mid_mid2|].
    destruct (others_not_writing s i j I Hw Hn) as [Hx _].
    destruct (mid2 (tasks s j)) eqn:E; auto. apply mid2_writes in E. congruence. }
  constructor; simpl.
  - intros a b Ha Hb.
    destruct (Nat.eqb_spec a i), (Nat.eqb_spec b i); subst; auto.
  - intros a b Ha.
    destruct (Nat.eqb_spec b i); subst.
    + destruct p; simpl in *; congruence.
    + eapply I2; eauto.
  - exact I3.
  - intros _. eapply I5; eauto.
  - intros j H. destruct (Nat.eqb_spec j i); subst; [congruence|].
    destruct (others_not_writing s i j I Hw n). apply mid_writes in H. congruence.
  - intros H. specialize (H i). rewrite Nat.eqb_refl in H. congruence.
  - intros j H. lia.
  - exact I8.
  - intros j. rewrite I9. destruct (Nat.eqb_spec j i); subst; [rewrite Hpr, Hr|]; tauto.
  - exact I10.
  - intros j. destruct (Nat.eqb_spec j i); subst.
    + specialize (I11 i). destruct Hp as [[E ->]|(w&E&->)]; rewrite E in I11; simpl in *.
      * split; auto. exists (epoch s). auto.
      * destruct I11. subst w. auto.
    + destruct (others_not_writing s i j I Hw n) as [Hx Hy].
      specialize (I11 j). destruct (tasks s j) eqn:E; simpl in *; auto; try discriminate.
      * lia.
      * destruct I11 as [H1 H2]. split; auto.
      * destruct I11 as [H1 H2]. split; auto.
Qed.

Lemma inv_token s i p :
  inv s -> mid2 (tasks s i) = true ->
  ((exists e, tasks s i = MBumped e /\ p = MTokened e) \/
   exists w e, tasks s i = CBumped w e /\ p = CTokened w e) ->
  inv (set_task (new_token s) i p).
Proof.
  intros I Hm Hp. pose proof I as [I1 I2 I3 I4 I5 I6 I7 I8 I9 I10 I11].
  assert (Hw : writes (tasks s i) = true) by auto using mid2_writes.
  assert (Hpw : writes p = true) by (destruct Hp as [(e&_&->)|(w&e&_&->)]; reflexivity).
  assert (Hpm : mid p = false) by (destruct Hp as [(e&_&->)|(w&e&_&->)]; reflexivity).
  assert (Hpm2 : mid2 p = false) by (destruct Hp as [(e&_&->)|(w&e&_&->)]; reflexivity).
  assert (Hpr : ran p = true) by (destruct Hp as [(e&_&->)|(w&e&_&->)]; reflexivity).
  assert (Hr : ran (tasks s i) = true) by (destruct Hp as [(e&->&_)|(w&e&->&_)]; reflexivity).
  assert (Hmi : mid (tasks s i) = false) by (destruct Hp as [(e&->&_)|(w&e&->&_)]; reflexivity).
  constructor; simpl.
  - intros a b Ha Hb.
    destruct (Nat.eqb_spec a i), (Nat.eqb_spec b i); subst; auto.
  - intros a b Ha.
    destruct (Nat.eqb_spec b i); subst.
    + destruct p; simpl in *; congruence.
    + eapply I2; eauto.
  - exact I3.
  - intros H. apply I4. intros j. destruct (Nat.eqb_spec j i) as [->|Hn]; auto.
    specialize (H j). apply Nat.eqb_neq in Hn. rewrite Hn in H. auto.
  - intros j H. destruct (Nat.eqb_spec j i); subst; [congruence|]. eapply I5; eauto.
  - intros _. rewrite I8. eapply I7; eauto.
  - intros j H. destruct (Nat.eqb_spec j i); subst; [congruence|].
    destruct (others_not_writing s i j I Hw n). apply mid2_writes in H. congruence.
  - reflexivity.
  - intros j. rewrite I9. destruct (Nat.eqb_spec j i); subst; [rewrite Hpr, Hr|]; tauto.
  - exact I10.
  - intros j. destruct (Nat.eqb_spec j i); subst.
    + specialize (I11 i). destruct Hp as [(e&E&->)|(w&e&E&->)]; rewrite E in I11; simpl in *; auto.
    + destruct (others_not_writing s i j I Hw n) as [Hx Hy].
      specialize (I11 j). destruct (tasks s j) eqn:E; simpl in *; auto; try discriminate.
Qed.

Ltac mv E := apply inv_move; auto using inv_cancel; simpl; rewrite ?E; simpl; auto; try discriminate.

Lemma inv_step s i s' : inv s -> step f s i s' -> inv s'.
Proof.
  intros I H. pose proof (inv_local _ I i) as L.
  destruct H as [i E F|i E|i t E|i t e E|i E|i E F|i E|i E|i e E|i e E|i w E F|i w E F|i w E
                |i w E F|i w E F|i w E F|i w E|i w E|i w e E|i w e E|i w E];
    rewrite E in L; simpl in L.
  - mv E.
  - mv E.
  - mv E.
  - mv E. destruct L as [-> ->]. split; auto.
    apply (inv_tok0 _ I). intros j. destruct (mid2 (tasks s j)) eqn:E2; auto.
    apply mid2_writes in E2. pose proof (inv_rw _ I j i E2) as X. rewrite E in X. discriminate.
  - mv E.
  - mv E.
  - apply inv_run; rewrite ?E; auto.
  - apply inv_bump; rewrite ?E; auto.
  - apply inv_token; rewrite ?E; eauto.
  - mv E. destruct L as [-> ?]. split; auto.
  - mv E.
  - mv E.
  - mv E.
  - mv E.
  - mv E.
  - mv E.
  - subst. apply inv_run; rewrite ?E; auto.
  - apply inv_bump; rewrite ?E; eauto.
  - apply inv_token; rewrite ?E; eauto 6.
  - mv E. destruct L as (-> & ? & ?). auto.
  - mv E.
Qed.

Lemma reachable_inv s : reachable f p0 s -> inv s.
Proof. induction 1; eauto using inv_initial, inv_step. Qed.

(** ** Snapshots *)

Lemma view_snapshot s i t e :
  reachable f p0 s -> tasks s i = RView t e ->
  e = epoch s /\ e = length (log s) /\ proj s = replay (log s) /\ t = token s.
Proof.
  intros R E. apply reachable_inv in R. pose proof (inv_local _ R i) as L. rewrite E in L.
  destruct L as [-> ->]. split; [auto|split;[|split;[apply R|auto]]].
  symmetry. apply (inv_len0 _ R). intros j. destruct (mid (tasks s j)) eqn:Em; auto.
  apply mid_writes in Em. pose proof (inv_rw _ R j i Em) as X. rewrite E in X. discriminate.
Qed.

(** While a view is alive nobody changes the project or the epoch. *)
Lemma view_stable s i t e j s' :
  reachable f p0 s -> tasks s i = RView t e -> step f s j s' ->
  proj s' = proj s /\ epoch s' = epoch s /\ log s' = log s.
Proof.
  intros R E H. apply reachable_inv in R.
  assert (W : forall k, writes (tasks s k) = false).
  { intros k. destruct (writes (tasks s k)) eqn:Ek; auto.
    pose proof (inv_rw _ R k i Ek) as X. rewrite E in X. discriminate. }
  specialize (W j).
  inversion H; subst; simpl; auto; rewrite H0 in W; discriminate.
Qed.

Lemma conditional_exact s i w e :
  reachable f p0 s -> tasks s i = CDone w e ->
  e = S w /\ nth_error (log s) w = Some i.
Proof.
  intros R E. apply reachable_inv in R. pose proof (inv_local _ R i) as L. rewrite E in L.
  simpl in L. tauto.
Qed.

Lemma mutate_exact s i e :
  reachable f p0 s -> tasks s i = MDone e ->
  exists k, e = S k /\ nth_error (log s) k = Some i.
Proof.
  intros R E. apply reachable_inv in R. pose proof (inv_local _ R i) as L. rewrite E in L.
  simpl in L. tauto.
Qed.

Lemma refused_not_run s i w :
  reachable f p0 s -> tasks s i = CErr w -> ~ In i (log s).
Proof.
  intros R E. apply reachable_inv in R. rewrite (inv_ran _ R). rewrite E. discriminate.
Qed.

Lemma log_nodup s : reachable f p0 s -> NoDup (log s).
Proof. intros R. apply reachable_inv in R. apply R. Qed.

(** ** Cancellation when mutators do not overlap *)

Definition active (p : pc) : bool :=
  match p with
  | MCancelled | MLocked | MApplied | MBumped _ | MTokened _
  | CCancelled _ | CLocked _ | CRechecked _ | CApplied _ | CBumped _ _ | CTokened _ _
  | CRefusing _ => true
  | _ => false
  end.

Definition no_overlap (s : @state P) : Prop :=
  forall i j, active (tasks s i) = true -> active (tasks s j) = true -> i = j.

Inductive reachable_seq : @state P -> Prop :=
| rseq_init s : initial p0 s -> reachable_seq s
| rseq_step s i s' : reachable_seq s -> step f s i s' -> no_overlap s' -> reachable_seq s'.

Lemma reachable_seq_reachable s : reachable_seq s -> reachable f p0 s.
Proof. induction 1; [apply reach_init|eapply reach_step]; eauto. Qed.

(** The active mutator has cancelled the current token. *)
Definition pre_token (p : pc) : bool :=
  match p with
  | MCancelled | MLocked | MApplied | MBumped _
  | CCancelled _ | CLocked _ | CRechecked _ | CApplied _ | CBumped _ _ => true
  | _ => false
  end.

Lemma pre_token_active p : pre_token p = true -> active p = true.
Proof. destruct p; simpl; congruence. Qed.

Record cinv (s : @state P) : Prop := CInv {
  cinv_old : forall t, t < token s -> In t (cancelled s);
  cinv_cur : forall i, pre_token (tasks s i) = true -> In (token s) (cancelled s)
}.

Lemma cinv_move s i p :
  cinv s -> (pre_token p = true -> pre_token (tasks s i) = true) -> cinv (set_task s i p).
Proof.
  intros [C1 C2] H. constructor; simpl; auto.
  intros j. destruct (Nat.eqb_spec j i); subst; eauto.
Qed.

Lemma cinv_cancel s i p : cinv s -> cinv (set_task (cancel_current s) i p).
Proof.
  intros [C1 C2]. constructor; simpl; auto.
Qed.

Lemma reachable_seq_cinv s : reachable_seq s -> cinv s /\ no_overlap s.
Proof.
  induction 1 as [s Hi|s i s' R [C N] Hs N'].
  - destruct Hi as (Hp & He & Ht & Hc & Hf & Hl & Hi).
    assert (A : forall i, active (tasks s i) = false).
    { intros i. specialize (Hi i). destruct (tasks s i); simpl in *; tauto. }
    split; [constructor|].
    + rewrite Ht. lia.
    + intros i H. apply pre_token_active in H. rewrite A in H. discriminate.
    + intros i j H. rewrite A in H. discriminate.
  - split; auto.
    pose proof (reachable_inv _ (reachable_seq_reachable _ R)) as I.
    inversion Hs; subst;
      try solve [apply cinv_move; [exact C|simpl; rewrite ?H; simpl; auto; discriminate]];
      try solve [apply cinv_cancel; auto].
    + apply cinv_move; auto; [|simpl; rewrite H; auto].
      destruct C as [C1 C2]. constructor; simpl; auto.
    + apply cinv_move; auto; [|simpl; rewrite H; auto].
      destruct C as [C1 C2]. constructor; simpl; auto.
    + (* m_token *)
      assert (Hc : In (token s) (cancelled s)) by (apply (cinv_cur _ C i); rewrite H; auto).
      constructor; simpl.
      * intros t Ht. rewrite (inv_fresh _ I) in Ht.
        destruct (Nat.eq_dec t (token s)); [subst; auto|apply (cinv_old _ C); lia].
      * intros j Hj. exfalso. destruct (Nat.eqb_spec j i); [discriminate|].
        apply n. apply N; [apply pre_token_active; auto|rewrite H; auto].
    + apply cinv_move; auto; [|simpl; rewrite H; auto].
      destruct C as [C1 C2]. constructor; simpl; auto.
    + apply cinv_move; auto; [|simpl; rewrite H; auto].
      destruct C as [C1 C2]. constructor; simpl; auto.
    + assert (Hc : In (token s) (cancelled s)) by (apply (cinv_cur _ C i); rewrite H; auto).
      constructor; simpl.
      * intros t Ht. rewrite (inv_fresh _ I) in Ht.
        destruct (Nat.eq_dec t (token s)); [subst; auto|apply (cinv_old _ C); lia].
      * intros j Hj. exfalso. destruct (Nat.eqb_spec j i); [discriminate|].
        apply n. apply N; [apply pre_token_active; auto|rewrite H; auto].
Qed.

Definition holds_token (p : pc) (t e : nat) : Prop := p = RView t e \/ p = RDropped t e.

Lemma seq_cancels s i t e j e' :
  reachable_seq s -> holds_token (tasks s i) t e -> tasks s j = MDone e' -> e < e' ->
  In t (cancelled s).
Proof.
  intros R H Hj Hlt.
  destruct (reachable_seq_cinv _ R) as [C N].
  pose proof (reachable_inv _ (reachable_seq_reachable _ R)) as I.
  pose proof (inv_local _ I j) as L. rewrite Hj in L. destruct L as [Le _].
  destruct H as [H|H]; pose proof (inv_local _ I i) as L; rewrite H in L; simpl in L.
  - destruct L. lia.
  - destruct L as [-> L].
    destruct (in_dec Nat.eq_dec e (cancelled s)) as [Hin|Hn]; auto.
    assert (A : forall k, mid2 (tasks s k) = false).
    { intros k. destruct (mid2 (tasks s k)) eqn:E; auto. exfalso.
      pose proof (inv_tok1 _ I k E) as T1.
      assert (Hc : In (token s) (cancelled s))
        by (apply (cinv_cur _ C k); destruct (tasks s k); simpl in *; congruence).
      destruct (Nat.eq_dec e (token s)); [subst; auto|].
      apply Hn. apply (cinv_old _ C). lia. }
    pose proof (inv_tok0 _ I A). apply (cinv_old _ C). lia.
Qed.

End PMP.

(** ** The race that leaves a stale build running *)

Definition race_tasks (i : nat) : pc := match i with 0 => MStart | 1 => MStart | _ => RStart end.
Definition race_init : @state nat := State 0 0 0 [] 1 [] race_tasks.
Definition incr (_ p : nat) : nat := S p.

Lemma race_initial : initial 0 race_init.
Proof.
  repeat split. intros [|[|i]]; exact I.
Qed.

Ltac race_free :=
  intros j; destruct j as [|[|[|j]]]; simpl; repeat split; reflexivity.
Ltac go k tac :=
  match goal with
  | R : reachable incr 0 ?s |- _ =>
      let R' := fresh in
      eassert (R' : reachable incr 0 _) by (eapply (reach_step _ _ s k); [exact R|tac]);
      clear R; rename R' into R
  end.

Lemma stale_build_reachable :
  exists s, reachable incr 0 s /\ tasks s 2 = RDropped 1 1 /\ tasks s 1 = MDone 2 /\
            epoch s = 2 /\ ~ In 1 (cancelled s) /\ forall j, active (tasks s j) = false.
Proof.
  pose proof (reach_init incr 0 _ race_initial) as R.
  go 0 ltac:(eapply step_m_cancel; reflexivity).
  go 1 ltac:(eapply step_m_cancel; reflexivity).
  go 0 ltac:(eapply step_m_lock; [reflexivity|race_free]).
  go 0 ltac:(eapply step_m_run; reflexivity).
  go 0 ltac:(eapply step_m_bump; reflexivity).
  go 0 ltac:(eapply step_m_token; reflexivity).
  go 0 ltac:(eapply step_m_unlock; reflexivity).
  go 2 ltac:(eapply step_r_lock; [reflexivity|race_free]).
  go 2 ltac:(eapply step_r_token; reflexivity).
  go 2 ltac:(eapply step_r_epoch; reflexivity).
  go 2 ltac:(eapply step_r_drop; reflexivity).
  go 1 ltac:(eapply step_m_lock; [reflexivity|race_free]).
  go 1 ltac:(eapply step_m_run; reflexivity).
  go 1 ltac:(eapply step_m_bump; reflexivity).
  go 1 ltac:(eapply step_m_token; reflexivity).
  go 1 ltac:(eapply step_m_unlock; reflexivity).
  eexists. split; [exact R|].
  simpl. repeat split; try reflexivity.
  - intros H. repeat destruct H as [H|H]; try discriminate; auto.
  - intros [|[|[|j]]]; reflexivity.
Qed.

(** ** The race that leaves the current token cancelled *)

Definition race2_tasks (i : nat) : pc := match i with 0 => CStart 0 | 1 => MStart | _ => RStart end.
Definition race2_init : @state nat := State 0 0 0 [] 1 [] race2_tasks.

Lemma race2_initial : initial 0 race2_init.
Proof. repeat split. intros [|[|i]]; exact I. Qed.

Lemma refused_cancels_reachable :
  exists s, reachable incr 0 s /\ tasks s 0 = CErr 0 /\ tasks s 1 = MDone 1 /\
            (forall j, active (tasks s j) = false) /\ In (token s) (cancelled s).
Proof.
  pose proof (reach_init incr 0 _ race2_initial) as R.
  go 0 ltac:(eapply step_c_check_ok; reflexivity).
  go 1 ltac:(eapply step_m_cancel; reflexivity).
  go 1 ltac:(eapply step_m_lock; [reflexivity|race_free]).
  go 1 ltac:(eapply step_m_run; reflexivity).
  go 1 ltac:(eapply step_m_bump; reflexivity).
  go 1 ltac:(eapply step_m_token; reflexivity).
  go 1 ltac:(eapply step_m_unlock; reflexivity).
  go 0 ltac:(eapply step_c_cancel; reflexivity).
  go 0 ltac:(eapply step_c_lock; [reflexivity|race_free]).
  go 0 ltac:(eapply step_c_recheck_no; [reflexivity|simpl; discriminate]).
  go 0 ltac:(eapply step_c_refuse; reflexivity).
  eexists. split; [exact R|].
  simpl. repeat split; try reflexivity.
  - intros [|[|[|j]]]; reflexivity.
  - auto.
Qed.

(** A live view in the middle of a run: one mutation done, a second one waiting. *)
Lemma live_view_reachable :
  exists s, reachable incr 0 s /\ tasks s 2 = RView 1 1 /\ tasks s 1 = MCancelled /\ proj s = 1.
Proof.
  pose proof (reach_init incr 0 _ race_initial) as R.
  go 0 ltac:(eapply step_m_cancel; reflexivity).
  go 0 ltac:(eapply step_m_lock; [reflexivity|race_free]).
  go 0 ltac:(eapply step_m_run; reflexivity).
  go 0 ltac:(eapply step_m_bump; reflexivity).
  go 0 ltac:(eapply step_m_token; reflexivity).
  go 0 ltac:(eapply step_m_unlock; reflexivity).
  go 2 ltac:(eapply step_r_lock; [reflexivity|race_free]).
  go 2 ltac:(eapply step_r_token; reflexivity).
  go 2 ltac:(eapply step_r_epoch; reflexivity).
  go 1 ltac:(eapply step_m_cancel; reflexivity).
  eexists. split; [exact R|]. simpl. auto.
Qed.

(** A conditional mutation that succeeds. *)
Definition race3_tasks (i : nat) : pc := match i with 0 => CStart 0 | _ => RStart end.
Definition race3_init : @state nat := State 0 0 0 [] 1 [] race3_tasks.

Lemma conditional_success_reachable :
  exists s, reachable incr 0 s /\ tasks s 0 = CDone 0 1.
Proof.
  assert (I0 : initial 0 race3_init) by (repeat split; intros [|i]; exact I).
  pose proof (reach_init incr 0 _ I0) as R.
  go 0 ltac:(eapply step_c_check_ok; reflexivity).
  go 0 ltac:(eapply step_c_cancel; reflexivity).
  go 0 ltac:(eapply step_c_lock; [reflexivity|race_free]).
  go 0 ltac:(eapply step_c_recheck_ok; reflexivity).
  go 0 ltac:(eapply step_c_run; reflexivity).
  go 0 ltac:(eapply step_c_bump; reflexivity).
  go 0 ltac:(eapply step_c_token; reflexivity).
  go 0 ltac:(eapply step_c_unlock; reflexivity).
  eexists. split; [exact R|]. reflexivity.
Qed.

(** A run without overlap in which a later mutation cancels the earlier build. *)
Ltac gos k tac :=
  match goal with
  | R : reachable_seq incr 0 ?s |- _ =>
      let R' := fresh in
      eassert (R' : reachable_seq incr 0 _)
        by (eapply (rseq_step _ _ s k); [exact R|tac|
              intros [|[|[|?]]] [|[|[|?]]]; simpl; intros; auto; discriminate]);
      clear R; rename R' into R
  end.

Lemma sequential_cancel_reachable :
  exists s, reachable_seq incr 0 s /\ tasks s 2 = RDropped 1 1 /\ tasks s 1 = MDone 2.
Proof.
  pose proof (rseq_init incr 0 _ race_initial) as R.
  gos 0 ltac:(eapply step_m_cancel; reflexivity).
  gos 0 ltac:(eapply step_m_lock; [reflexivity|race_free]).
  gos 0 ltac:(eapply step_m_run; reflexivity).
  gos 0 ltac:(eapply step_m_bump; reflexivity).
  gos 0 ltac:(eapply step_m_token; reflexivity).
  gos 0 ltac:(eapply step_m_unlock; reflexivity).
  gos 2 ltac:(eapply step_r_lock; [reflexivity|race_free]).
  gos 2 ltac:(eapply step_r_token; reflexivity).
  gos 2 ltac:(eapply step_r_epoch; reflexivity).
  gos 2 ltac:(eapply step_r_drop; reflexivity).
  gos 1 ltac:(eapply step_m_cancel; reflexivity).
  gos 1 ltac:(eapply step_m_lock; [reflexivity|race_free]).
  gos 1 ltac:(eapply step_m_run; reflexivity).
  gos 1 ltac:(eapply step_m_bump; reflexivity).
  gos 1 ltac:(eapply step_m_token; reflexivity).
  gos 1 ltac:(eapply step_m_unlock; reflexivity).
  eexists. split; [exact R|]. split; reflexivity.
Qed.
