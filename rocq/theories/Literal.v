(** Model of src/kernel/literal.rs. *)
From Coq Require Import List Arith NArith Bool.
Import ListNotations.
From Verif Require Import Term LocalContext Kbo.

(** 12-17 *)
Record literal := Lit { positive : bool; left : term; right : term }.

Definition literal_eq_dec (a b : literal) : {a = b} + {a <> b}.
Proof. decide equality; try apply term_eq_dec. apply Bool.bool_dec. Defined.
Definition literal_eqb (a b : literal) : bool := if literal_eq_dec a b then true else false.

(** 434-437 [needs_to_flip] *)
Definition needs_to_flip (l r : term) : bool :=
  match extended_kbo_cmp l r with Lt => true | _ => false end.

(** 181-201 [new_with_flip] and 20-23 [new] *)
Definition lit_new_with_flip (pos : bool) (l r : term) : literal * bool :=
  if needs_to_flip l r then (Lit pos r l, true) else (Lit pos l r, false).
Definition lit_new (pos : bool) (l r : term) : literal := fst (lit_new_with_flip pos l r).

(** 204-206 *)
Definition from_signed_term (t : term) (pos : bool) : literal := lit_new pos t ttrue.

(** 78-84 *)
Definition negate (l : literal) : literal := Lit (negb (positive l)) (left l) (right l).

(** 87-94 *)
Definition lit_is_tautology (l : literal) : bool := positive l && term_eqb (left l) (right l).
Definition lit_is_impossible (l : literal) : bool := negb (positive l) && term_eqb (left l) (right l).

(** 97-99 *)
Definition is_signed_term (l : literal) : bool := is_true (right l).

(** 112-114 *)
Definition lit_has_any_variable (l : literal) : bool :=
  has_any_variable (left l) || has_any_variable (right l).

(** 342-348 *)
Definition extract_polarity (l : literal) : literal * bool :=
  if positive l then (l, true) else (negate l, false).

(** 406-430: the order on literals (negative first, then larger terms first) *)
Definition bool_cmp (a b : bool) : comparison :=
  match a, b with false, true => Lt | true, false => Gt | _, _ => Eq end.
Definition lit_cmp (a b : literal) : comparison :=
  lexc (bool_cmp (positive a) (positive b))
    (lexc (extended_kbo_cmp (left b) (left a)) (extended_kbo_cmp (right b) (right a))).

(** 230-242 *)
Definition lit_stable_cmp (a b : literal) : comparison :=
  lexc (bool_cmp (positive a) (positive b))
    (lexc (stable_cmp (left a) (left b)) (stable_cmp (right a) (right b))).

(** 219-226 *)
Definition lit_extended_kbo_cmp (a b : literal) : comparison :=
  lexc (extended_kbo_cmp (left a) (left b)) (extended_kbo_cmp (right a) (right b)).

(** [Vec::sort] / [sort_by]: a stable sort by a comparison.  For a comparison that is a total
    preorder every stable sort gives this result; otherwise the code's result is some other
    permutation. *)
Section Sort.
Context {A : Type} (cmp : A -> A -> comparison).
Fixpoint insert (x : A) (l : list A) : list A :=
  match l with
  | [] => [x]
  | y :: r => match cmp x y with Gt => y :: insert x r | _ => x :: l end
  end.
Definition sort (l : list A) : list A := fold_right insert [] l.
End Sort.

(** [Vec::dedup]: drop elements equal to the previous one kept. *)
Section Dedup.
Context {A : Type} (eqb : A -> A -> bool).
Fixpoint dedup_from (last : A) (l : list A) : list A :=
  match l with
  | [] => []
  | x :: r => if eqb x last then dedup_from last r else x :: dedup_from x r
  end.
Definition dedup (l : list A) : list A :=
  match l with [] => [] | x :: r => x :: dedup_from x r end.
End Dedup.

(** Renumbering (term.rs:2424-2476).  [add_var] pushes a variable after the variables of its type;
    [None] is the cycle panic (or the recursion bound, which acyclic types never reach). *)
Fixpoint add_var (fuel : nat) (c : lctx) (in_progress : list nat) (ids : list nat) (v : nat)
  : option (list nat) :=
  match fuel with
  | 0 => None
  | S n =>
    if existsb (Nat.eqb v) ids then Some ids else
    if existsb (Nat.eqb v) in_progress then None else
    let deps := match get_var_type c v with Some T => vars T | None => [] end in
    match fold_left (fun o d => match o with
                                | None => None
                                | Some ids => add_var n c (v :: in_progress) ids d
                                end) deps (Some ids) with
    | None => None
    | Some ids' => Some (ids' ++ [v])
    end
  end.
(** one more than the longest chain of distinct variables with a type, plus an untyped one *)
Definition add_fuel (c : lctx) : nat := S (S (length c)).

(** term.rs:2463-2475: all free variables of a term in order; each is replaced by its position *)
Fixpoint normalize_var_ids (c : lctx) (ids : list nat) (t : term) : option (term * list nat) :=
  match t with
  | TAtom (FreeVar i) =>
    match add_var (add_fuel c) c [] ids i with
    | None => None
    | Some ids' => option_map (fun p => (TVar p, ids')) (position i ids')
    end
  | TAtom _ => Some (t, ids)
  | TApp f a =>
    match normalize_var_ids c ids f with
    | None => None
    | Some (f', ids1) =>
      match normalize_var_ids c ids1 a with
      | None => None
      | Some (a', ids2) => Some (TApp f' a', ids2)
      end
    end
  | TBind k A b =>
    match normalize_var_ids c ids A with
    | None => None
    | Some (A', ids1) =>
      match normalize_var_ids c ids1 b with
      | None => None
      | Some (b', ids2) => Some (TBind k A' b', ids2)
      end
    end
  end.

(** 158-177 [Literal::normalize_var_ids_with_context]; the third component tells whether it flipped *)
Definition lit_normalize_var_ids (c : lctx) (ids : list nat) (l : literal)
  : option (literal * list nat * bool) :=
  match normalize_var_ids c ids (left l) with
  | None => None
  | Some (a, ids1) =>
    match normalize_var_ids c ids1 (right l) with
    | None => None
    | Some (b, ids2) =>
      let '(l', f) := lit_new_with_flip (positive l) a b in Some (l', ids2, f)
    end
  end.

(** 246-258 [normalized_reversed_with_var_ids] *)
Definition normalized_reversed (c : lctx) (l : literal) : option (term * term * lctx * list nat) :=
  match normalize_var_ids c [] (right l) with
  | None => None
  | Some (r, ids1) =>
    match normalize_var_ids c ids1 (left l) with
    | None => None
    | Some (a, ids2) => option_map (fun c' => (r, a, c', ids2)) (remap c ids2)
    end
  end.
