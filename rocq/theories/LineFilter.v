(** Model of the selection of goals by lines: [GoalFilter] (src/builder.rs 119-137), [should_verify_for_line_filter] (2635-2662), [set_single_goal_with_index]
    and [set_goal_range] (2163-2209), [validate_goal_filter] (2230-2252).

    Simplified: lines are numbers without a bound, and only the filter for the module that is verified; other modules are left out by
    the callers.  The first lines of the goals are a list, in the order in which [verify_lowered_items] comes to them (C66). *)
From Coq Require Import List Arith Bool.
Import ListNotations.

(** builder.rs 122-137 *)
Inductive goal_filter := SingleLine (line : nat) (goal_index : option nat) | LineRange (start stop : nat).
(** builder.rs 2163-2209: external lines begin with 1; for line 0 the subtraction overflows, which is no value *)
Definition set_single_goal (external : nat) (goal_index : option nat) : option goal_filter :=
  match external with 0 => None | S l => Some (SingleLine l goal_index) end.
Definition set_goal_range (start stop : nat) : option goal_filter :=
  match start, stop with S s, S e => Some (LineRange s e) | _, _ => None end.

Section Filter.
  Context (f : goal_filter) (eval : bool).
  (** builder.rs 2635-2662: the decision and the new [single_line_goal_count] *)
  Definition should_verify (count first_line : nat) : bool * nat :=
    match f with
    | SingleLine line goal_index =>
        if first_line <? line then (negb eval, count)
        else if line <? first_line then (false, count)
        else (match goal_index with Some i => S count <=? i | None => true end, S count)
    | LineRange start stop => ((first_line <=? stop) && (negb eval || (start <=? first_line)), count)
    end.
  (** The decisions for the goals of a module in order (2702-2711), and the count at the end *)
  Fixpoint decide (count : nat) (lines : list nat) : list bool * nat :=
    match lines with
    | [] => ([], count)
    | l :: lines => let (d, count) := should_verify count l in let (ds, count) := decide count lines in (d :: ds, count)
    end.
  Definition decisions (lines : list nat) : list bool := fst (decide 0 lines).
  (** builder.rs 2230-2252 *)
  Definition validate (lines : list nat) : bool :=
    match f with
    | SingleLine _ (Some i) => i <=? snd (decide 0 lines)
    | _ => true
    end.
  (** The filter as BuildModule.v takes it *)
  Definition selects (lines : list nat) (g : nat) : bool := nth g (decisions lines) false.
End Filter.
