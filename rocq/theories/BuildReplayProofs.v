(** Lemmas about verifying a module again with the certificates of its goals in order. *)
From Coq Require Import List Arith Bool Lia.
Import ListNotations.
From Verif Require Import LoweredModule BuildModule BuildModuleProofs.

Section Proofs.
  Context {Cert : Type}.
  Context (cert_goal : Cert -> nat) (goal_name : nat -> nat).
  Context (check : Cert -> nat -> list nat -> bool) (trim : Cert -> nat -> list nat -> Cert).
  Context (search : nat -> list nat -> found) (make : nat -> list nat -> option Cert) (cancelled : nat -> bool).
  Context (set : settings Cert).
  Context (Hc : forall g, cancelled g = false) (Ho : b_override set = None) (Hf : b_filter set = None) (Hn : b_force set = false).
  Notation claim_ := (verify_claim cert_goal goal_name check trim search make cancelled set).
  Notation item_ := (build_item cert_goal goal_name check trim search make cancelled set).
  Notation items_ := (build_items cert_goal goal_name check trim search make cancelled set).

  Definition fits (l : nat * list nat) (e : nat * Cert) : Prop := cert_goal (snd e) = goal_name (fst l) /\ check (snd e) (fst l) (snd l) = true.
  Definition trims (L : list (nat * list nat)) (pre : list (nat * Cert)) : list Cert := map (fun x => trim (snd (snd x)) (fst (fst x)) (snd (fst x))) (combine L pre).
  Lemma trims_app L1 L2 p1 p2 : length L1 = length p1 -> trims (L1 ++ L2) (p1 ++ p2) = trims L1 p1 ++ trims L2 p2.
  Proof. unfold trims. revert p1. induction L1 as [|l L1 IH]; intros [|e p1] H; simpl in *; try discriminate; auto. f_equal. apply IH. lia. Qed.
  Lemma Forall2_len {A B} (P : A -> B -> Prop) l m : Forall2 P l m -> length l = length m.
  Proof. induction 1; simpl; auto. Qed.

  Lemma NoDup_app_r {A} (l m : list A) : NoDup (l ++ m) -> NoDup m.
  Proof. induction l as [|a l IH]; simpl; auto. intros H. inversion H; auto. Qed.
  Lemma remove_absent i (w : list (nat * Cert)) : ~ In i (map fst w) -> remove_index i w = w.
  Proof.
    unfold remove_index. induction w as [|[j c] w IH]; simpl; auto. intros H. destruct (j =? i) eqn:E; simpl; [apply Nat.eqb_eq in E; exfalso; apply H; auto|].
    f_equal. apply IH. auto.
  Qed.
  Lemma claim_replay g V i c s b cs w : cert_goal c = goal_name g -> check c g V = true -> NoDup (map fst ((i, c) :: w)) ->
    claim_ g V (BST s b cs ((i, c) :: w)) = Some (BST s b (cs ++ [trim c g V]) w).
  Proof.
    intros H1 H2 H3. unfold verify_claim, wanted, verify_goal. rewrite Hf, Hc, Ho, Hn. cbn [st_work st_status st_good st_certs]. unfold entries. cbn [filter snd].
    rewrite H1, Nat.eqb_refl. cbn [try_cached]. rewrite H2. f_equal. f_equal. unfold remove_index. cbn [filter fst]. rewrite Nat.eqb_refl. simpl.
    inversion H3; subst. apply remove_absent. auto.
  Qed.

  Definition replays (run : list nat * bstate Cert -> option (list nat * bstate Cert)) (log : list nat * list (nat * list nat) -> list nat * list (nat * list nat)) (proc : list nat) : Prop :=
    exists L proc', (forall l, log (proc, l) = (proc', l ++ L)) /\
      forall s b cs pre rest, (b_exit set = true -> s = Good) -> Forall2 fits L pre -> NoDup (map fst (pre ++ rest)) ->
        run (proc, BST s b cs (pre ++ rest)) = Some (proc', BST s b (cs ++ trims L pre) rest).
  Lemma items_replay is : forall top proc, replays (items_ top is) (verify_items top is) proc.
  Proof.
    assert (K : forall is, Forall (fun i => forall top proc, replays (item_ top i) (verify_item top i) proc) is -> forall top proc, replays (items_ top is) (verify_items top is) proc).
    { clear is. induction 1 as [|i is Hi His IH]; intros top proc.
      - exists [], proc. split; [intros l; rewrite app_nil_r; auto|]. intros s b cs pre rest _ H _. inversion H; subst. simpl. rewrite app_nil_r. auto.
      - destruct (Hi top proc) as (L1 & p1 & A1 & A2). destruct (IH top p1) as (L2 & p2 & B1 & B2). exists (L1 ++ L2), p2. split.
        + intros l. unfold verify_items in *. simpl. rewrite A1, B1, app_assoc. auto.
        + intros s b cs pre rest Hs H N. apply Forall2_app_inv_l in H. destruct H as (q1 & q2 & F1 & F2 & ->). rewrite items_cons, <- app_assoc.
          rewrite A2; [|auto|auto|rewrite app_assoc; auto]. cbn [snd st_status].
          assert (X : b_exit set && negb (is_good s) = false) by (destruct (b_exit set) eqn:Ex; [rewrite Hs; auto|auto]). rewrite X.
          rewrite B2; [|auto|auto|rewrite <- app_assoc, map_app in N; apply NoDup_app_r in N; auto]. rewrite trims_app by (eapply Forall2_len; eauto). rewrite app_assoc. auto. }
    apply K. apply Forall_forall. intros i _. clear is. induction i as [f|g f|is e IH] using litem_ind'; intros top proc.
    - exists [], (proc ++ [f]). split; [intros l; simpl; rewrite app_nil_r; auto|]. intros s b cs pre rest _ H _. inversion H; subst. simpl. rewrite app_nil_r. auto.
    - exists [(g, proc)], (proc ++ [f]). split; [auto|]. intros s b cs pre rest _ H N. inversion H as [|x [j c] l l' [H1 H2] H3]; subst. inversion H3; subst. simpl in H1, H2.
      cbn [build_item app]. rewrite claim_replay; auto.
    - destruct (K is IH false proc) as (L & p1 & A1 & A2). exists L, (match e with Some f => proc ++ [f] | None => proc end). split.
      + intros l. cbn [verify_item]. f_equal. specialize (A1 l). unfold verify_items in A1.
        destruct (match is with [] => true | _ => false end && top) eqn:Et; [destruct is; [|discriminate]; simpl in A1; congruence|rewrite A1; auto].
      + intros s b cs pre rest Hs H N. cbn [build_item]. change (build_list set (item_ false) is (proc, BST s b cs (pre ++ rest))) with (items_ false is (proc, BST s b cs (pre ++ rest))).
        pose proof (A2 s b cs pre rest Hs H N) as Y. destruct (match is with [] => true | _ => false end && top) eqn:Et; [destruct is; [|discriminate]; injection Y as _ Y1 Y2; rewrite <- Y1, Y2; auto|].
        rewrite Y. auto.
  Qed.
End Proofs.
