(** Model of src/kernel/local_context.rs and of the renumbering functions of term.rs. *)
From Coq Require Import List Arith NArith Bool.
Import ListNotations.
From Verif Require Import Term.

(** local_context.rs:11-18 *)
Definition lctx := list (option term).

(** 72-74 *)
Definition get_var_type (c : lctx) (i : nat) : option term :=
  match nth_error c i with Some (Some t) => Some t | _ => None end.

(** 92-96 *)
Definition push_type (c : lctx) (t : term) : lctx := c ++ [Some t].

(** 100-105 *)
Fixpoint set_type (c : lctx) (i : nat) (t : term) : lctx :=
  match i, c with
  | 0, [] => [Some t]
  | 0, _ :: r => Some t :: r
  | S j, [] => None :: set_type [] j t
  | S j, x :: r => x :: set_type r j t
  end.

(** 125-131 *)
Definition ctx_replace_variable (c : lctx) (id : nat) (v : term) : lctx :=
  map (option_map (replace_variable id v)) c.

(** 134-138 *)
Definition from_types (l : list term) : lctx := map Some l.

(** [iter().position(|&x| x == id)] *)
Fixpoint position (id : nat) (l : list nat) : option nat :=
  match l with
  | [] => None
  | x :: r => if Nat.eqb x id then Some 0 else option_map S (position id r)
  end.

(** term.rs:2403-2419 [renumber_variables]; [None] is the "not in var_ids" panic. *)
Fixpoint renumber_variables (ids : list nat) (t : term) : option term :=
  match t with
  | TAtom (FreeVar i) => option_map (fun p => TVar p) (position i ids)
  | TAtom _ => Some t
  | TApp f a =>
    match renumber_variables ids f, renumber_variables ids a with
    | Some f', Some a' => Some (TApp f' a') | _, _ => None
    end
  | TBind k ty b =>
    match renumber_variables ids ty, renumber_variables ids b with
    | Some ty', Some b' => Some (TBind k ty' b') | _, _ => None
    end
  end.

(** local_context.rs:44-63 [remap]; [None] is the panic. *)
Fixpoint remap_from (c : lctx) (ids todo : list nat) : option lctx :=
  match todo with
  | [] => Some []
  | id :: r =>
    match get_var_type c id with
    | None => None
    | Some T =>
      match renumber_variables ids T, remap_from c ids r with
      | Some T', Some rest => Some (Some T' :: rest)
      | _, _ => None
      end
    end
  end.
Definition remap (c : lctx) (ids : list nat) : option lctx := remap_from c ids ids.

(** 147-159 [validate_variable_ordering] *)
Fixpoint ordering_from (i : nat) (c : lctx) : bool :=
  match c with
  | [] => true
  | None :: r => ordering_from (S i) r
  | Some T :: r => Nat.leb (least_unused T) i && ordering_from (S i) r
  end.
Definition validate_variable_ordering (c : lctx) : bool := ordering_from 0 c.
