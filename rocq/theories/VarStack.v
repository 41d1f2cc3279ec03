(** Model of src/elaborator/stack.rs:16-76.  The hash map is a list of its entries in any order. *)
From Coq Require Import String List Arith Bool.
Import ListNotations.
From Verif Require Import BuildCache.

Section Stack.
Context {T : Type}.
Definition stack := list (string * (nat * T)).
Definition atom_id (n : nat) : nat := Nat.modulo n (Nat.pow 2 16).
(** 48-52; the level is the number of entries, cut to 16 bits *)
Definition insert (s : stack) (name : string) (ty : T) : stack * nat :=
  let i := atom_id (length s) in (mput String.eqb name (i, ty) s, i).
(** 58-66 *)
Definition remove (s : stack) (name : string) : stack := mremove String.eqb name s.
Definition remove_all (s : stack) (names : list string) : stack := fold_left remove names s.
(** 69-71 *)
Definition get (s : stack) (name : string) : option (nat * T) := mget String.eqb name s.
(** [answer[i] = x]; [None] is the panic for an index out of bounds *)
Fixpoint write {A} (l : list A) (i : nat) (x : A) : option (list A) :=
  match l, i with
  | [], _ => None
  | _ :: r, 0 => Some (x :: r)
  | a :: r, S i => option_map (cons a) (write r i x)
  end.
Fixpoint writes {A} (l : list A) (w : list (nat * A)) : option (list A) :=
  match w with [] => Some l | (i, x) :: w => match write l i x with Some l => writes l w | None => None end end.
(** 31-37 *)
Definition names (s : stack) : option (list string) := writes (repeat EmptyString (length s)) (map (fun e => (fst (snd e), fst e)) s).
(** 39-46 *)
Fixpoint unwrap_all {A} (l : list (option A)) : option (list A) :=
  match l with [] => Some [] | Some a :: l => option_map (cons a) (unwrap_all l) | None :: _ => None end.
Definition entries (s : stack) : option (list (string * T)) :=
  match writes (repeat None (length s)) (map (fun e => (fst (snd e), Some (fst e, snd (snd e)))) s) with Some l => unwrap_all l | None => None end.
End Stack.
