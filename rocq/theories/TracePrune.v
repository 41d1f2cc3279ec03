(** Model of the pruning of a proof trace (src/certificate_trace.rs:17-56, 197-230). *)
From Coq Require Import String List Arith Bool.
Import ListNotations.
From Verif Require Import BoolReduction EqualityGraph TraceChecker.

(** 27-50 [TraceStep] *)
Record trace_step := Step {
  ts_rule : trule;
  ts_claim : string;
  ts_premises : list nat;
  ts_generic : bool;
  ts_kind : option kind;
  ts_literal : option nat
}.
(** 54-56 [is_serialized_generic_artifact] *)
Definition generic_artifact (code : string) : bool := String.prefix "(forall(" code || String.prefix "forall(" code.
(** 198-205: [referenced], a premise out of range is ignored *)
Fixpoint set_true (i : nat) (l : list bool) : list bool :=
  match i, l with
  | _, [] => []
  | 0, _ :: r => true :: r
  | S i, b :: r => b :: set_true i r
  end.
Definition referenced (steps : list trace_step) : list bool :=
  fold_left (fun acc s => fold_left (fun acc p => set_true p acc) (ts_premises s) acc) steps (repeat false (length steps)).
(** 210-214 *)
Definition auxiliary (s : trace_step) : bool :=
  let artifact := match ts_rule s with RClaim => true | _ => false end
    && match ts_premises s with [] => true | _ => false end && ts_generic s && generic_artifact (ts_claim s) in
  ts_generic s || artifact.
(** 207-220: the new numbers and the steps kept *)
Fixpoint keep_steps (used : list bool) (next : nat) (steps : list trace_step) : list (option nat) * list trace_step :=
  match steps with
  | [] => ([], [])
  | s :: r =>
    if auxiliary s && negb (hd false used) then
      let (m, k) := keep_steps (tl used) next r in (None :: m, k)
    else
      let (m, k) := keep_steps (tl used) (S next) r in (Some next :: m, s :: k)
  end.
(** 221-228: renumber the premises, [Panic] if one is missing *)
Fixpoint remap_premises (m : list (option nat)) (ps : list nat) : res (list nat) :=
  match ps with
  | [] => Ok []
  | p :: r =>
    match nth_error m p with
    | Some (Some q) => do r <- remap_premises m r; Ok (q :: r)
    | _ => Panic
    end
  end.
Fixpoint remap_steps (m : list (option nat)) (steps : list trace_step) : res (list trace_step) :=
  match steps with
  | [] => Ok []
  | s :: r =>
    do ps <- remap_premises m (ts_premises s);
    do r <- remap_steps m r;
    Ok (Step (ts_rule s) (ts_claim s) ps (ts_generic s) (ts_kind s) (ts_literal s) :: r)
  end.
(** 197-230 [without_unreferenced_auxiliary_steps] *)
Definition prune (steps : list trace_step) : res (list trace_step) :=
  let (m, k) := keep_steps (referenced steps) 0 steps in remap_steps m k.
