(** Model of src/elaborator/termination_checker.rs and of the values it looks at (src/elaborator/acorn_value.rs:706-773).
    Types are dropped (a binder keeps the number of its variables), so values inside types are not seen.
    Variables are stack levels.  Constants are numbers; a constant of a family carries the values of the family's parameters. *)
From Coq Require Import List Arith Bool.
Import ListNotations.

Inductive value :=
| Var (j : nat)
| Const (c : nat) (bound : list value)
| App (f : value) (args : list value)
| TypeApp (f : value)
| Lambda (n : nat) (b : value)
| ForAll (n : nat) (b : value)
| Exists (n : nat) (b : value)
| Binary (op : nat) (l r : value)
| Not (v : value)
| Try (v : value)
| Grouping (v : value)
| Bool (b : bool)
| Ite (a b c : value)
| Match (s : value) (cases : list (nat * nat * value * value)).   (* new variables, constructor, pattern, result *)

(** acorn_value.rs:3238-3244 *)
Fixpoint as_name (v : value) : option nat :=
  match v with Const c _ => Some c | TypeApp f => as_name f | _ => None end.

(** 7-19; [None] is a panic (index out of range) *)
Record state := State { sub_map : list (option nat); strict : list bool }.
Definition act := state -> option state.
Definition with_map (m : list (option nat)) (s : state) : state := State m (strict s).
Definition all_false (s : state) : state := State (sub_map s) (map (fun _ => false) (strict s)).
(** 93-111: the argument at position [i] *)
Definition arg_strict (s : state) (i : nat) (arg : option value) : option bool :=
  match arg with
  | Some (Var j) => if Nat.eqb i j then Some false
                    else match nth_error (sub_map s) j with
                         | Some (Some k) => Some (Nat.eqb k i)
                         | Some None => Some false
                         | None => None
                         end
  | _ => Some false
  end.
Fixpoint call_strict (s : state) (i : nat) (l : list bool) (args : list value) : option (list bool) :=
  match l with
  | [] => Some []
  | b :: l => match arg_strict s i (nth_error args i), call_strict s (S i) l args with
              | Some x, Some r => Some ((b && x) :: r)
              | _, _ => None
              end
  end.
Definition recursive_call (s : state) (args : list value) : option state :=
  match call_strict s 0 (strict s) args with Some l => Some (State (sub_map s) l) | None => None end.
Fixpoint run_all (l : list act) (s : state) : option state :=
  match l with [] => Some s | a :: l => match a s with Some s => run_all l s | None => None end end.
(** push variables, run, truncate *)
Definition scoped (vars : list (option nat)) (l : list act) : act := fun s =>
  match run_all l (with_map (sub_map s ++ vars) s) with
  | Some s' => Some (with_map (firstn (length (sub_map s)) (sub_map s')) s')
  | None => None
  end.

Section Checker.
Context (name : nat).
(** 33-130.  [pend] are the arguments that [v] is applied to, each with its own traversal: a curried call is uncurried (77-85). *)
Fixpoint traverse (v : value) (pend : list (value * act)) : act :=
  let then_args := fun (a : act) => run_all (a :: map snd pend) in
  match v with
  | App f args => traverse f (map (fun a => (a, traverse a [])) args ++ pend)
  | Const c _ =>
    then_args (fun s => if Nat.eqb c name then match pend with [] => Some (all_false s) | _ => recursive_call s (map fst pend) end else Some s)
  | TypeApp f =>
    then_args (match as_name f, pend with
               | Some c, _ :: _ => if Nat.eqb c name then fun s => recursive_call s (map fst pend) else traverse f []
               | _, _ => traverse f []
               end)
  | Var _ | Bool _ => then_args Some
  | Lambda n b | ForAll n b | Exists n b => then_args (scoped (repeat None n) [traverse b []])
  | Binary _ l r => then_args (run_all [traverse l []; traverse r []])
  | Not v | Try v | Grouping v => then_args (traverse v [])
  | Ite a b c => then_args (run_all [traverse a []; traverse b []; traverse c []])
  | Match s cases =>
    let sup := match s with Var i => Some i | _ => None end in
    then_args (run_all (traverse s [] :: map (fun c => match c with (n, _, p, r) => scoped (repeat sup n) [traverse p []; traverse r []] end) cases))
  end.
(** 22-30, 133-138; [num_args] is the number of the function's own arguments (binding_map.rs:2444-2447) *)
Definition check (num_args : nat) (body : value) : option bool :=
  match traverse body [] (State (map Some (seq 0 num_args)) (repeat true num_args)) with
  | Some s => Some (existsb (fun b => b) (strict s))
  | None => None
  end.
End Checker.
