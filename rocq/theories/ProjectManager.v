(** Model of src/server/project_manager.rs: a project behind a reader/writer lock, a
    cancellation token behind a second lock, and an atomic epoch counter, used concurrently
    by any number of tasks.

    Every task is a small program counter; one [step] is one atomic action of one task.
    The scheduler is arbitrary (any task may move next whenever its action is enabled).
    Simplifications: the inner lock around the token is only ever held for one read or one
    write, so taking it, using it and releasing it is one atomic action; tokio's fairness
    queue is not modelled (we allow every grant order); [Project] is an arbitrary type and
    the closure run by a mutator is an arbitrary function of the task. *)
From Coq Require Import List Arith Lia Bool.
Import ListNotations.

Section PM.
Context {P : Type}.

(** Program counters.  project_manager.rs:46-55 ([read]), 67-93 ([mutate_with_epoch]),
    107-143 ([mutate_if_epoch_with_epoch]). *)
Inductive pc : Type :=
(* read: 47 lock, 48 clone token, 49 load epoch, 50-54 view alive, later dropped *)
| RStart | RLocked | RToken (tok : nat) | RView (tok epoch : nat) | RDropped (tok epoch : nat)
(* mutate_with_epoch: 72-75 cancel, 78 lock, 81 f, 84 epoch, 87-90 token, 93 unlock *)
| MStart | MCancelled | MLocked | MApplied | MBumped (epoch : nat) | MTokened (epoch : nat)
| MDone (epoch : nat)
(* mutate_if_epoch_with_epoch: 112 check, 117-120 cancel, 123 lock, 126 check, 131 f,
   134 epoch, 137-140 token, 143 unlock *)
| CStart (want : nat) | CChecked (want : nat) | CCancelled (want : nat) | CLocked (want : nat)
| CRechecked (want : nat) | CApplied (want : nat) | CBumped (want epoch : nat)
| CTokened (want epoch : nat) | CRefusing (want : nat)
| CDone (want epoch : nat) | CErr (want : nat).

Record state : Type := State {
  proj : P;                  (* RwLock<Project> contents *)
  epoch : nat;               (* AtomicU64 *)
  token : nat;               (* the token stored in RwLock<CancellationToken> *)
  cancelled : list nat;      (* tokens on which cancel() was called *)
  fresh : nat;               (* next CancellationToken::new() identity *)
  log : list nat;            (* ghost: tasks whose closure ran, oldest first *)
  tasks : nat -> pc
}.

Definition set_task (s : state) (i : nat) (p : pc) : state :=
  State (proj s) (epoch s) (token s) (cancelled s) (fresh s) (log s)
        (fun j => if Nat.eqb j i then p else tasks s j).

(** Who holds the project lock. *)
Definition reads (p : pc) : bool :=
  match p with RLocked | RToken _ | RView _ _ => true | _ => false end.

Definition writes (p : pc) : bool :=
  match p with
  | MLocked | MApplied | MBumped _ | MTokened _
  | CLocked _ | CRechecked _ | CApplied _ | CBumped _ _ | CTokened _ _ | CRefusing _ => true
  | _ => false
  end.

Definition read_free (s : state) : Prop := forall j, writes (tasks s j) = false.
Definition write_free (s : state) : Prop :=
  forall j, writes (tasks s j) = false /\ reads (tasks s j) = false.

Definition cancel_current (s : state) : state :=
  State (proj s) (epoch s) (token s) (token s :: cancelled s) (fresh s) (log s) (tasks s).
Definition run_closure (f : nat -> P -> P) (s : state) (i : nat) : state :=
  State (f i (proj s)) (epoch s) (token s) (cancelled s) (fresh s) (log s ++ [i]) (tasks s).
Definition bump (s : state) : state :=
  State (proj s) (S (epoch s)) (token s) (cancelled s) (fresh s) (log s) (tasks s).
Definition new_token (s : state) : state :=
  State (proj s) (epoch s) (fresh s) (cancelled s) (S (fresh s)) (log s) (tasks s).

Inductive step (f : nat -> P -> P) (s : state) : nat -> state -> Prop :=
(* read, 46-55 *)
| step_r_lock i : tasks s i = RStart -> read_free s -> step f s i (set_task s i RLocked)
| step_r_token i : tasks s i = RLocked -> step f s i (set_task s i (RToken (token s)))
| step_r_epoch i t : tasks s i = RToken t -> step f s i (set_task s i (RView t (epoch s)))
| step_r_drop i t e : tasks s i = RView t e -> step f s i (set_task s i (RDropped t e))
(* mutate_with_epoch, 67-93 *)
| step_m_cancel i : tasks s i = MStart -> step f s i (set_task (cancel_current s) i MCancelled)
| step_m_lock i : tasks s i = MCancelled -> write_free s -> step f s i (set_task s i MLocked)
| step_m_run i : tasks s i = MLocked -> step f s i (set_task (run_closure f s i) i MApplied)
| step_m_bump i : tasks s i = MApplied ->
    step f s i (set_task (bump s) i (MBumped (S (epoch s))))
| step_m_token i e : tasks s i = MBumped e -> step f s i (set_task (new_token s) i (MTokened e))
| step_m_unlock i e : tasks s i = MTokened e -> step f s i (set_task s i (MDone e))
(* mutate_if_epoch_with_epoch, 107-143 *)
| step_c_check_ok i w : tasks s i = CStart w -> epoch s = w ->
    step f s i (set_task s i (CChecked w))
| step_c_check_no i w : tasks s i = CStart w -> epoch s <> w ->
    step f s i (set_task s i (CErr w))
| step_c_cancel i w : tasks s i = CChecked w ->
    step f s i (set_task (cancel_current s) i (CCancelled w))
| step_c_lock i w : tasks s i = CCancelled w -> write_free s ->
    step f s i (set_task s i (CLocked w))
| step_c_recheck_ok i w : tasks s i = CLocked w -> epoch s = w ->
    step f s i (set_task s i (CRechecked w))
| step_c_recheck_no i w : tasks s i = CLocked w -> epoch s <> w ->
    step f s i (set_task s i (CRefusing w))
| step_c_run i w : tasks s i = CRechecked w ->
    step f s i (set_task (run_closure f s i) i (CApplied w))
| step_c_bump i w : tasks s i = CApplied w ->
    step f s i (set_task (bump s) i (CBumped w (S (epoch s))))
| step_c_token i w e : tasks s i = CBumped w e ->
    step f s i (set_task (new_token s) i (CTokened w e))
| step_c_unlock i w e : tasks s i = CTokened w e -> step f s i (set_task s i (CDone w e))
| step_c_refuse i w : tasks s i = CRefusing w -> step f s i (set_task s i (CErr w)).

(** A task that has not started. *)
Definition initial_pc (p : pc) : Prop :=
  match p with RStart | MStart | CStart _ => True | _ => False end.

(** ProjectManager::new, 25-43: epoch 0, one fresh token. *)
Definition initial (p0 : P) (s : state) : Prop :=
  proj s = p0 /\ epoch s = 0 /\ token s = 0 /\ cancelled s = [] /\ fresh s = 1 /\
  log s = [] /\ forall i, initial_pc (tasks s i).

Inductive reachable (f : nat -> P -> P) (p0 : P) : state -> Prop :=
| reach_init s : initial p0 s -> reachable f p0 s
| reach_step s i s' : reachable f p0 s -> step f s i s' -> reachable f p0 s'.

End PM.
