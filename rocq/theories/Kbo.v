(** Model of the term orderings of src/kernel/term.rs (multi_weight to stable_cmp,
    1115-1314) and of atom.rs:105-128 [stable_partial_order].

    The comparison functions look at a term only through its weights, its head atom, its
    [num_args] and (recursively) its [iter_args]; [view] collects these in one tree so that the
    recursion over arguments is structural.  Arithmetic on [weight1] (u32) is unbounded here:
    overflowing it needs a term of more than 2^32 components.  [weight2] wraps at 2^32 and the
    variable counts wrap at 2^8, as in a release build. *)
From Coq Require Import List Arith NArith Bool.
Import ListNotations.
From Verif Require Import Term.

(** [Ordering::then]-style chaining *)
Definition lexc (c d : comparison) : comparison := match c with Eq => d | _ => c end.

(** derived [Ord] of [Symbol] (symbol.rs:10) *)
Definition sym_rank (s : symbol) : N :=
  match s with
  | STrue => 0 | SFalse => 1 | SNot => 2 | SAnd => 3 | SOr => 4 | SEq => 5 | SIte => 6
  | SBool => 7 | SType0 => 8 | SType _ _ => 9 | STypeclass _ _ => 10 | SGlobal _ _ => 11
  | SScoped _ => 12
  end.
Definition sym_fields (s : symbol) : N * N :=
  match s with
  | SType m i | STypeclass m i | SGlobal m i => (m, i)
  | SScoped i => (i, 0%N)
  | _ => (0%N, 0%N)
  end.
Definition sym_cmp (a b : symbol) : comparison :=
  lexc (N.compare (sym_rank a) (sym_rank b))
    (lexc (N.compare (fst (sym_fields a)) (fst (sym_fields b)))
          (N.compare (snd (sym_fields a)) (snd (sym_fields b)))).

(** derived [Ord] of [Atom] (atom.rs:13) *)
Definition atom_cmp (a b : atom) : comparison :=
  match a, b with
  | FreeVar i, FreeVar j => Nat.compare i j
  | FreeVar _, _ => Lt
  | _, FreeVar _ => Gt
  | BoundVar i, BoundVar j => Nat.compare i j
  | BoundVar _, _ => Lt
  | _, BoundVar _ => Gt
  | Sym s, Sym t => sym_cmp s t
  end.

(** atom.rs:105-128 [stable_partial_order] *)
Definition is_bool_constant (a : atom) : bool :=
  match a with Sym STrue | Sym SFalse => true | _ => false end.
Definition stable_partial_order (a b : atom) : comparison :=
  match a, b with
  | FreeVar _, FreeVar _ => Eq
  | BoundVar i, BoundVar j => Nat.compare i j
  | _, _ =>
    if is_bool_constant a && is_bool_constant b then atom_cmp a b
    else if is_bool_constant a then Lt
    else if is_bool_constant b then Gt
    else atom_cmp a b
  end.

(** term.rs:1117-1192 [multi_weight]: contribution of one atom to weight1 and weight2 *)
Definition w32 : N := 4294967296.
Definition atom_w1 (a : atom) : N :=
  match a with FreeVar _ => 0 | Sym STrue | Sym SFalse => 0 | _ => 1 end.
Definition atom_w2 (a : atom) : N :=
  match a with
  | Sym (SGlobal m i) | Sym (SType m i) | Sym (STypeclass m i) => (4 * (m * 65536 + i)) mod w32
  | Sym (SScoped i) => (1 + 4 * i) mod w32
  | _ => 0
  end.

Fixpoint weight1 (t : term) : N :=
  match t with
  | TAtom a => atom_w1 a
  | TApp f a => weight1 f + weight1 a
  | TBind _ A b => 1 + weight1 A + weight1 b
  end.
Fixpoint weight2 (t : term) : N :=
  match t with
  | TAtom a => atom_w2 a
  | TApp f a => (weight2 f + weight2 a) mod w32
  | TBind _ A b => (weight2 A + weight2 b) mod w32
  end.

(** 1150-1154: the u8 counter of variable [i], and the length of the counter vector *)
Fixpoint occurrences (x : nat) (t : term) : N :=
  match t with
  | TAtom (FreeVar i) => if Nat.eqb i x then 1 else 0
  | TAtom _ => 0
  | TApp f a => occurrences x f + occurrences x a
  | TBind _ A b => occurrences x A + occurrences x b
  end.
Definition refcount (x : nat) (t : term) : N := (occurrences x t mod 256)%N.
Definition refcounts (t : term) : list N := map (fun x => refcount x t) (seq 0 (least_unused t)).

(** 3105-3115 [dominates] *)
Fixpoint dominates (a b : list N) : bool :=
  match b, a with
  | [], _ => true
  | _ :: _, [] => false
  | y :: b', x :: a' => N.leb y x && dominates a' b'
  end.

(** 1195-1223 [kbo_helper] *)
Definition kbo_helper (s t : term) (check_domination : bool) : comparison :=
  match lexc (N.compare (weight1 s) (weight1 t)) (N.compare (weight2 s) (weight2 t)) with
  | Gt => if negb check_domination || dominates (refcounts s) (refcounts t) then Gt else Eq
  | Lt => if negb check_domination || dominates (refcounts t) (refcounts s) then Lt else Eq
  | Eq => Eq
  end.

(** 1279-1281 [kbo_cmp] *)
Definition kbo_cmp (s t : term) : comparison := kbo_helper s t true.

(** What the tie-breaks see of a term: weights, head atom, num_args (1026-1037, where a binder
    counts as one argument), iter_args. *)
Inductive view := View (w1 w2 : N) (head : atom) (nargs : nat) (vargs : list view).

Definition view_w1 v := match v with View a _ _ _ _ => a end.
Definition view_w2 v := match v with View _ a _ _ _ => a end.
Definition view_head v := match v with View _ _ a _ _ => a end.
Definition view_nargs v := match v with View _ _ _ a _ => a end.
Definition view_args v := match v with View _ _ _ _ a => a end.

Fixpoint view_of (t : term) : view :=
  match t with
  | TAtom a => View (atom_w1 a) (atom_w2 a) a 0 []
  | TApp f x =>
    let v := view_of f in
    View (weight1 t) (weight2 t) (view_head v) (S (view_nargs v)) (view_args v ++ [view_of x])
  | TBind _ A _ => View (weight1 t) (weight2 t) (head_atom A) 1 []
  end.

Section Zip.
Context (cmp : view -> view -> comparison).
Fixpoint ziplex (l m : list view) : comparison :=
  match l, m with
  | x :: l', y :: m' => lexc (cmp x y) (ziplex l' m')
  | _, _ => Eq
  end.
End Zip.

(** 1226-1250 [partial_tiebreak] *)
Fixpoint partial_tiebreak (v w : view) {struct v} : comparison :=
  match v, w with
  | View _ _ h n l, View _ _ h' n' l' =>
    lexc (stable_partial_order h h')
      (lexc (Nat.compare n' n) (ziplex partial_tiebreak l l'))
  end.

(** 1284-1298 [extended_kbo_cmp], with 1254-1275 [total_tiebreak] inlined *)
Fixpoint extended_view_cmp (v w : view) {struct v} : comparison :=
  match v, w with
  | View a b h n l, View a' b' h' n' l' =>
    lexc (N.compare a a')
      (lexc (N.compare b b')
        (lexc (partial_tiebreak v w)
          (lexc (atom_cmp h' h) (ziplex extended_view_cmp l l'))))
  end.

Definition extended_kbo_cmp (s t : term) : comparison :=
  extended_view_cmp (view_of s) (view_of t).

(** 1304-1314 [stable_cmp] *)
Definition stable_cmp (s t : term) : comparison :=
  lexc (kbo_helper s t false) (partial_tiebreak (view_of s) (view_of t)).
