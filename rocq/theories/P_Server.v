(** Properties C40-C42: concurrent access to the project in the language server. *)
From Coq Require Import List Arith.
Import ListNotations.
From Verif Require Import ProjectManager ProjectManagerProofs.

(** C40.  A live view shows the project obtained by running exactly the first [epoch]
    closures, in log order, and nothing changes while the view is alive. *)
Theorem view_is_consistent_snapshot :
  forall (P : Type) (f : nat -> P -> P) (p0 : P) s i tok ep,
    reachable f p0 s -> tasks s i = RView tok ep ->
    ep = epoch s /\ ep = length (log s) /\
    proj s = fold_left (fun p k => f k p) (log s) p0 /\
    (forall j s', step f s j s' -> proj s' = proj s /\ epoch s' = epoch s).
Proof.
  intros P f p0 s i tok ep R E.
  destruct (view_snapshot f p0 s i tok ep R E) as (A & B & C & _).
  repeat split; auto; destruct (view_stable f p0 s i tok ep j s' R E H) as (X & Y & _); auto.
Qed.
Print Assumptions view_is_consistent_snapshot.

Example view_is_consistent_snapshot_case :
  exists s, reachable incr 0 s /\ tasks s 2 = RView 1 1 /\ tasks s 1 = MCancelled /\ proj s = 1.
Proof. exact live_view_reachable. Qed.

(** C40.  A conditional mutation that reports success for epoch [w] ran as the mutation
    number [w], i.e. on the state obtained by the first [w] closures; every closure runs at
    most once. *)
Theorem conditional_mutation_is_exact :
  forall (P : Type) (f : nat -> P -> P) (p0 : P) s i w e,
    reachable f p0 s -> tasks s i = CDone w e ->
    e = S w /\ nth_error (log s) w = Some i /\ NoDup (log s).
Proof.
  intros P f p0 s i w e R E. destruct (conditional_exact f p0 s i w e R E).
  repeat split; auto. exact (log_nodup f p0 s R).
Qed.
Print Assumptions conditional_mutation_is_exact.

Example conditional_mutation_is_exact_case :
  exists s, reachable incr 0 s /\ tasks s 0 = CDone 0 1.
Proof. exact conditional_success_reachable. Qed.

(** C40.  The epoch returned by an unconditional mutation is its position in the log. *)
Theorem mutation_epoch_is_position :
  forall (P : Type) (f : nat -> P -> P) (p0 : P) s i e,
    reachable f p0 s -> tasks s i = MDone e ->
    exists k, e = S k /\ nth_error (log s) k = Some i.
Proof. intros. eapply mutate_exact; eauto. Qed.
Print Assumptions mutation_epoch_is_position.

Example mutation_epoch_is_position_case :
  exists s, reachable incr 0 s /\ tasks s 1 = MDone 2.
Proof. destruct stale_build_reachable as (s & R & _ & E & _). exists s. auto. Qed.

(** C41 is violated: a build started at epoch 1 keeps an uncancelled token although the
    mutation to epoch 2 has completed and no task is active any more. *)
Theorem mutation_cancels_outstanding_builds_refuted :
  exists s reader mutator,
    reachable incr 0 s /\ tasks s reader = RDropped 1 1 /\ tasks s mutator = MDone 2 /\
    ~ In 1 (cancelled s) /\ (forall j, active (tasks s j) = false).
Proof.
  destruct stale_build_reachable as (s & R & A & B & _ & C & D).
  exists s, 2, 1. auto.
Qed.
Print Assumptions mutation_cancels_outstanding_builds_refuted.

(** C41, the part that holds: when no two mutators overlap (between cancelling and
    unlocking), a completed mutation leaves every earlier token cancelled. *)
Theorem mutation_cancels_outstanding_builds_partial :
  forall (P : Type) (f : nat -> P -> P) (p0 : P) s i tok ep j e',
    reachable_seq f p0 s ->
    (tasks s i = RView tok ep \/ tasks s i = RDropped tok ep) ->
    tasks s j = MDone e' -> ep < e' -> In tok (cancelled s).
Proof. intros. eapply seq_cancels; eauto. Qed.
Print Assumptions mutation_cancels_outstanding_builds_partial.

Example mutation_cancels_outstanding_builds_case :
  exists s, reachable_seq incr 0 s /\ tasks s 2 = RDropped 1 1 /\ tasks s 1 = MDone 2.
Proof. exact sequential_cancel_reachable. Qed.

(** C42 is violated: after a refused conditional mutation, with no task active, the token
    that every later build receives is already cancelled. *)
Theorem refused_mutation_has_no_effect_refuted :
  exists s refused mutator,
    reachable incr 0 s /\ tasks s refused = CErr 0 /\ tasks s mutator = MDone 1 /\
    (forall j, active (tasks s j) = false) /\ In (token s) (cancelled s).
Proof.
  destruct refused_cancels_reachable as (s & R & A & B & C & D).
  exists s, 0, 1. auto.
Qed.
Print Assumptions refused_mutation_has_no_effect_refuted.

(** C42, the part that holds: a refused closure never ran, so the project is the result of
    the other closures only. *)
Theorem refused_mutation_has_no_effect_partial :
  forall (P : Type) (f : nat -> P -> P) (p0 : P) s i w,
    reachable f p0 s -> tasks s i = CErr w ->
    ~ In i (log s) /\ proj s = fold_left (fun p k => f k p) (log s) p0.
Proof.
  intros P f p0 s i w R E. split; [eapply refused_not_run; eauto|].
  apply (reachable_inv f p0 s R).
Qed.
Print Assumptions refused_mutation_has_no_effect_partial.

Example refused_mutation_has_no_effect_case :
  exists s, reachable incr 0 s /\ tasks s 0 = CErr 0.
Proof. destruct refused_cancels_reachable as (s & R & A & _). exists s. auto. Qed.
