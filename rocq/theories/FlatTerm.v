(** Model of the flat storage of terms (src/kernel/term.rs): a pre-order vector of components,
    where a compound component stores the 16-bit offset of its right child. *)
From Coq Require Import List Arith NArith Bool Lia.
Import ListNotations.
From Verif Require Import Term.

Inductive mark := MApp | MBind (k : bkind).

(** term.rs:23-59 [TermComponent]; the offset is a [u16], kept below 65536 by [as_u16]. *)
Inductive component := CMark (m : mark) (off : N) | CAtom (a : atom).

Definition flat := list component.

(** the [as u16] casts of term.rs:1768, 1778, 1799, 1817, 2522 *)
Definition as_u16 (n : nat) : N := (N.of_nat n mod 65536)%N.

(** term.rs:1765-1825 [pi], [lambda], [forall], [exists], and the body of [apply] (2516-2531)
    before [from_components]. *)
Definition build (m : mark) (l r : flat) : flat := CMark m (as_u16 (S (length l))) :: l ++ r.

(** term.rs:1627-1753 [from_components], without its debug-only check; [None] is a panic. *)
Definition from_components (c : flat) : option flat :=
  match c with
  | [] => None
  | CAtom _ :: r => match r with [] => Some c | _ => None end
  | CMark m off :: _ =>
    let need := match m with MApp => 2 | MBind _ => 3 end in
    if Nat.ltb (length c) need then None
    else if N.ltb off 2 || N.leb (N.of_nat (length c)) off then None
    else Some c
  end.

(** term.rs:2516-2531 [apply] with one argument *)
Definition apply1 (f a : flat) : option flat := from_components (build MApp f a).

(** term.rs:337-399 [decompose] *)
Inductive decomposition := DAtom (a : atom) | DNode (m : mark) (l r : flat).

(** [&c[a..b]]; [None] is the out-of-range panic. *)
Definition slice (c : flat) (a b : nat) : option flat :=
  if Nat.leb a b && Nat.leb b (length c) then Some (firstn (b - a) (skipn a c)) else None.

Definition decompose (c : flat) : option decomposition :=
  match c with
  | [CAtom a] => Some (DAtom a)
  | [CMark _ _] => None
  | CMark m off :: _ =>
    match slice c 1 (N.to_nat off), slice c (N.to_nat off) (length c) with
    | Some l, Some r => Some (DNode m l r)
    | _, _ => None
    end
  | _ => None
  end.

(** The stored form of a tree, as produced by the builders. *)
Fixpoint encode (t : term) : flat :=
  match t with
  | TAtom a => [CAtom a]
  | TApp f a => build MApp (encode f) (encode a)
  | TBind k A b => build (MBind k) (encode A) (encode b)
  end.

(** Number of components. *)
Fixpoint size (t : term) : nat :=
  match t with
  | TAtom _ => 1
  | TApp f a => S (size f + size a)
  | TBind _ A b => S (size A + size b)
  end.

(** Every left child fits below the 16-bit offset. *)
Fixpoint fits (t : term) : Prop :=
  match t with
  | TAtom _ => True
  | TApp f a => (N.of_nat (S (size f)) < 65536)%N /\ fits f /\ fits a
  | TBind _ A b => (N.of_nat (S (size A)) < 65536)%N /\ fits A /\ fits b
  end.

(** term.rs:1943-1966 [check_subterm], on the suffix starting at the given position (the code
    indexes into the whole vector; positions are relative to the suffix here).  The result is
    the remaining suffix.  [fuel] bounds the recursion depth. *)
Fixpoint check_subterm (fuel : nat) (c : flat) : option flat :=
  match fuel with
  | 0 => None
  | S n =>
    match c with
    | [] => None
    | CAtom _ :: r => Some r
    | CMark _ off :: r =>
      if N.leb (N.of_nat (length c)) off then None else
      match check_subterm n r with
      | None => None
      | Some rest =>
        if N.eqb (N.of_nat (length c - length rest)) off then check_subterm n rest else None
      end
    end
  end.

(** term.rs:1942-1990 [validate_structure_impl] *)
Definition validate_structure (c : flat) : bool :=
  (if Nat.ltb 1 (length c) then
     match c with
     | CMark _ off :: _ => negb (N.ltb off 2) && negb (N.leb (N.of_nat (length c)) off)
     | _ => false
     end
   else true) &&
  match check_subterm (length c) c with Some [] => true | _ => false end.

(** term.rs:1552-1564 [find_subterm_end_at]; [None] is an out-of-range panic or (for offsets
    that loop) lack of fuel. *)
Fixpoint find_subterm_end (fuel : nat) (c : flat) (start : nat) : option nat :=
  match fuel with
  | 0 => None
  | S n =>
    match nth_error c start with
    | None => None
    | Some (CMark _ off) => find_subterm_end n c (start + N.to_nat off)
    | Some (CAtom _) => Some (S start)
    end
  end.
