(** Model of how results of parallel module builds are merged (src/builder.rs:895-929, 1407-1560, 1588-1644).
    The workers are not modelled: the result of module [i] is given, its index is [i], and it may arrive at any time after the
    module was put on the queue.  Loading yields one module at a time.  The integer counters of the metrics are one list, the
    times (floats) are added by a given function, and [eval_skip_metrics] and [eval_search_instrumentation] are left out. *)
From Coq Require Import List ZArith Bool Arith.
Import ListNotations.
From Verif Require Import BuildCache.

(** 1190-1223 *)
Inductive status := Good | Warning | Error.
Definition is_error (s : status) : bool := match s with Error => true | _ => false end.
Definition is_good (s : status) : bool := match s with Good => true | _ => false end.

Section Merge.
Context {E T F : Type} (fadd : F -> F -> F).
(** 1167-1187; [E] is the rest of the event *)
Record event := Event { build_id : nat; progress : option (Z * Z); body : E }.
(** 463-545 *)
Record metrics := Metrics { goals_done : Z; counters : list Z; times : F; eval_mode : bool }.
(** 329-337, without the index *)
Record result := Result { r_status : status; r_metrics : metrics; r_timings : list T; r_cache : option cache; r_used : list (descriptor * nat); r_events : list event }.
(** 203-300; only what merging changes, and [goals_total] *)
Record builder := Builder {
  b_id : nat; b_status : status; b_metrics : metrics; b_total : Z; b_timings : list T; b_cache : cache; b_used : list (descriptor * nat); b_events : list event }.

Fixpoint add_all (a b : list Z) : list Z :=
  match a, b with x :: a, y :: b => (x + y)%Z :: add_all a b | _, _ => [] end.
(** 895-929 *)
Definition add_module_result (m r : metrics) : metrics :=
  Metrics (goals_done m + goals_done r) (add_all (counters m) (counters r)) (fadd (times m) (times r)) (eval_mode m || eval_mode r).
(** 1617-1640 *)
Definition merge_result (b : builder) (r : result) : builder :=
  let m := add_module_result (b_metrics b) (r_metrics r) in
  Builder (b_id b)
    (match r_status r with Error => Error | Warning => if is_good (b_status b) then Warning else b_status b | Good => b_status b end)
    m (b_total b) (b_timings b ++ r_timings r)
    (match r_cache r with Some c => merge_updates (b_cache b) c | None => b_cache b end)
    (fold_left (fun u e => mput desc_eqb (fst e) (snd e) u) (r_used r) (b_used b))
    (b_events b ++ map (fun e => Event (b_id b) (match progress e with Some _ => Some (goals_done m, b_total b) | None => None end) (body e)) (r_events r)).
(** 1611-1614, the loop *)
Fixpoint merge_ready (fuel : nat) (b : builder) (pending : list (nat * result)) (next : nat) : builder * list (nat * result) * nat :=
  match fuel with
  | 0 => (b, pending, next)
  | S fuel => match mget Nat.eqb next pending with
              | Some r => merge_ready fuel (merge_result b r) (mremove Nat.eqb next pending) (S next)
              | None => (b, pending, next)
              end
  end.
(** 1604-1615 *)
Definition merge_pipeline_result (b : builder) (i : nat) (r : result) (pending : list (nat * result)) (next : nat) : builder * list (nat * result) * nat :=
  let pending := mput Nat.eqb i r pending in merge_ready (S (length pending)) b pending next.

(** 1407-1540.  [loaded] modules were put on the queue, the results of [seen] have arrived. *)
Record state := State { builder_of : builder; loaded : nat; seen : list nat; pending_of : list (nat * result); next_of : nat }.
Definition start (b : builder) : state := State b 0 [] [] 0.
(** 1482-1484, 1517-1521 *)
Definition stopped (exit_on_warning : bool) (b : builder) : bool := is_error (b_status b) || (exit_on_warning && negb (is_good (b_status b))).
Definition more_total (b : builder) (g : Z) : builder := Builder (b_id b) (b_status b) (b_metrics b) (b_total b + g) (b_timings b) (b_cache b) (b_used b) (b_events b).
Definition arrive (s : state) (i : nat) (r : result) : state :=
  match merge_pipeline_result (builder_of s) i r (pending_of s) (next_of s) with (b, p, n) => State b (loaded s) (i :: seen s) p n end.
(** [work] is the goal count and the result of every module, in loading order *)
Inductive step (exit_on_warning : bool) (work : list (Z * result)) : state -> state -> Prop :=
| step_load s g r : stopped exit_on_warning (builder_of s) = false -> nth_error work (loaded s) = Some (g, r) ->
    step exit_on_warning work s (State (more_total (builder_of s) g) (S (loaded s)) (seen s) (pending_of s) (next_of s))
| step_arrive s i g r : i < loaded s -> ~ In i (seen s) -> nth_error work i = Some (g, r) -> step exit_on_warning work s (arrive s i r).
Inductive steps (exit_on_warning : bool) (work : list (Z * result)) : state -> state -> Prop :=
| steps_refl s : steps exit_on_warning work s s
| steps_next s t u : steps exit_on_warning work s t -> step exit_on_warning work t u -> steps exit_on_warning work s u.
(** the loop of 1524-1541 is over *)
Definition finished (exit_on_warning : bool) (work : list (Z * result)) (s : state) : Prop :=
  (loaded s = length work \/ stopped exit_on_warning (builder_of s) = true) /\ forall i, i < loaded s -> In i (seen s).
End Merge.
