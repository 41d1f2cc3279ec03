(** Model of the checkpoints for evaluations that skip claims: [EvalSkipTail] (src/builder.rs 138-172) and its use in [verify_lowered_items] (2760-2850),
    [update_eval_skip_tail_for_lowered_goal] (2664-2680), [record_lowered_barrier] (2682-2686) and [verify_eval_goal] (2587-2629).

    Simplified: a processor is the list of its facts, as in LoweredModule.v; adding the imports of a goal is left out.  The outcomes of
    searches and errors are left out, so that every goal is reached.  [max_skip] is the maximum of the skip modes (2569-2574). *)
From Coq Require Import List Arith Bool.
Import ListNotations.
From Verif Require Import LoweredModule.

Section Eval.
  Context (max_skip : nat) (plain : nat -> bool).
  (** builder.rs 145-171; [Vec::remove(0)] is [tl] *)
  Definition record_plain {T} (cps : list T) (c : T) : list T :=
    if max_skip =? 0 then cps else let cps := cps ++ [c] in if max_skip <? length cps then tl cps else cps.
  Definition checkpoint_for {T} (cps : list T) (skip : nat) : option T :=
    if (skip =? 0) || (length cps <? skip) then None else nth_error cps (length cps - skip).

  (** A goal, the facts of the processor and the checkpoints when it is evaluated *)
  Definition entry : Type := nat * list nat * list (list nat).
  (** builder.rs 2772-2843: a claim is plain if its goal is anonymous (2631-2633); the barrier clears the checkpoints, and a block has
      its own *)
  Fixpoint eval_item (top : bool) (i : litem) (st : list nat * list (list nat) * list entry) : list nat * list (list nat) * list entry :=
    let '(proc, cps, log) := st in
    match i with
    | IFact f => (proc ++ [f], [], log)
    | IClaim g f => (proc ++ [f], if plain g then record_plain cps proc else [], log ++ [(g, proc, cps)])
    | IBlock is ext =>
        let log := if match is with [] => true | _ => false end && top then log
                   else snd (fold_left (fun st i => eval_item false i st) is (proc, [], log)) in
        (match ext with Some f => proc ++ [f] | None => proc end, [], log)
    end.
  Definition eval_items (top : bool) (is : list litem) st := fold_left (fun st i => eval_item top i st) is st.
  (** builder.rs 2598-2613: the facts with which a goal is searched for in a skip mode *)
  Definition search_facts (e : entry) (skip : nat) : option (list nat) :=
    let '(g, V, cps) := e in if skip =? 0 then Some V else checkpoint_for cps skip.
End Eval.
