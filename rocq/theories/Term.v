(** Model of the kernel's terms: src/kernel/symbol.rs, atom.rs and the structural part of
    term.rs.  The code stores a term as a flat pre-order vector; here a term is the tree that
    [TermRef::decompose] (term.rs:337-399) exposes.  The relation between the two is the
    subject of [FlatTerm.v].

    Simplifications: variable ids and de Bruijn indexes are unbounded ([AtomId] and [u16] in
    the code, whose [checked_add]/[try_from] failures need more than 65535 variables or
    nested binders). *)
From Coq Require Import List Arith NArith Bool Lia.
Import ListNotations.

(** symbol.rs:11-58, same constructor order (the derived [Ord] uses it). *)
Inductive symbol :=
| STrue | SFalse | SNot | SAnd | SOr | SEq | SIte | SBool | SType0
| SType (m i : N) | STypeclass (m i : N) | SGlobal (m i : N) | SScoped (i : N).

(** atom.rs:14-26 *)
Inductive atom := FreeVar (i : nat) | BoundVar (i : nat) | Sym (s : symbol).

(** The four binders of term.rs:33-58 [Pi], [Lambda], [ForAll], [Exists]. *)
Inductive bkind := KPi | KLam | KAll | KEx.

(** term.rs:65-88 [Decomposition]; the four binder cases share one constructor. *)
Inductive term :=
| TAtom (a : atom)
| TApp (f a : term)
| TBind (k : bkind) (ty body : term).

Notation TVar i := (TAtom (FreeVar i)).
Notation TBound i := (TAtom (BoundVar i)).
Notation TSym s := (TAtom (Sym s)).
Notation ttrue := (TSym STrue).
Notation tfalse := (TSym SFalse).
Notation tbool := (TSym SBool).

Definition symbol_eq_dec (a b : symbol) : {a = b} + {a <> b}.
Proof. decide equality; apply N.eq_dec. Defined.
Definition atom_eq_dec (a b : atom) : {a = b} + {a <> b}.
Proof. decide equality; [apply Nat.eq_dec|apply Nat.eq_dec|apply symbol_eq_dec]. Defined.
Definition bkind_eq_dec (a b : bkind) : {a = b} + {a <> b}.
Proof. decide equality. Defined.
Definition term_eq_dec (a b : term) : {a = b} + {a <> b}.
Proof. decide equality; [apply atom_eq_dec|apply bkind_eq_dec]. Defined.
Definition term_eqb (a b : term) : bool := if term_eq_dec a b then true else false.

Lemma term_eqb_eq a b : term_eqb a b = true <-> a = b.
Proof. unfold term_eqb. destruct term_eq_dec; split; congruence. Qed.
Lemma term_eqb_refl a : term_eqb a a = true.
Proof. apply term_eqb_eq. reflexivity. Qed.

(** term.rs:289-317 [get_head_atom]: leftmost atom, also through binders. *)
Fixpoint head_atom (t : term) : atom :=
  match t with
  | TAtom a => a
  | TApp f _ => head_atom f
  | TBind _ ty _ => head_atom ty
  end.

(** term.rs:505-507 [is_true] *)
Definition is_true (t : term) : bool :=
  match head_atom t with Sym STrue => true | _ => false end.

(** term.rs:2516-2531 [apply] *)
Definition apply (f : term) (args : list term) : term := fold_left TApp args f.

(** term.rs:1042-1080 [iter_args]: the arguments along the application spine. *)
Fixpoint args_acc (t : term) (acc : list term) : list term :=
  match t with TApp f a => args_acc f (a :: acc) | _ => acc end.
Definition args (t : term) : list term := args_acc t [].

(** The head of the spine. *)
Fixpoint spine_head (t : term) : term :=
  match t with TApp f _ => spine_head f | _ => t end.

(** term.rs:1082-1091 [iter_atoms]: atoms in pre-order. *)
Fixpoint atoms (t : term) : list atom :=
  match t with
  | TAtom a => [a]
  | TApp f a => atoms f ++ atoms a
  | TBind _ ty b => atoms ty ++ atoms b
  end.

(** term.rs:961-970 [has_variable] *)
Fixpoint has_variable (x : nat) (t : term) : bool :=
  match t with
  | TAtom (FreeVar i) => Nat.eqb i x
  | TAtom _ => false
  | TApp f a => has_variable x f || has_variable x a
  | TBind _ ty b => has_variable x ty || has_variable x b
  end.

(** term.rs:976-985 [has_any_variable] *)
Fixpoint has_any_variable (t : term) : bool :=
  match t with
  | TAtom (FreeVar _) => true
  | TAtom _ => false
  | TApp f a => has_any_variable f || has_any_variable a
  | TBind _ ty b => has_any_variable ty || has_any_variable b
  end.

(** The free variables in structural order, with repetitions. *)
Definition atom_vars (l : list atom) : list nat :=
  flat_map (fun a => match a with FreeVar i => [i] | _ => [] end) l.
Definition vars (t : term) : list nat := atom_vars (atoms t).

(** term.rs:1108-1113 [least_unused_variable] (max plus one). *)
Definition least_unused (t : term) : nat := list_max (map S (vars t)).

(** term.rs:578-632 [references_bound] *)
Fixpoint references_bound_at (index depth : nat) (t : term) : bool :=
  match t with
  | TAtom (BoundVar i) => Nat.eqb i (index + depth)
  | TAtom _ => false
  | TApp f a => references_bound_at index depth f || references_bound_at index depth a
  | TBind _ ty b => references_bound_at index depth ty || references_bound_at index (S depth) b
  end.
Definition references_bound (index : nat) (t : term) : bool := references_bound_at index 0 t.

(** [has_bound_variable]: any [BoundVariable] atom at all. *)
Fixpoint has_bound_variable (t : term) : bool :=
  match t with
  | TAtom (BoundVar _) => true
  | TAtom _ => false
  | TApp f a => has_bound_variable f || has_bound_variable a
  | TBind _ ty b => has_bound_variable ty || has_bound_variable b
  end.

(** term.rs:2689-2730 [has_escaping_bound_variable] *)
Fixpoint has_escaping_at (depth : nat) (t : term) : bool :=
  match t with
  | TAtom (BoundVar i) => Nat.leb depth i
  | TAtom _ => false
  | TApp f a => has_escaping_at depth f || has_escaping_at depth a
  | TBind _ ty b => has_escaping_at depth ty || has_escaping_at (S depth) b
  end.
Definition has_escaping_bound_variable (t : term) : bool := has_escaping_at 0 t.

(** term.rs:2853-2945 [shift_bound] with a non-negative amount. *)
Fixpoint shift_up (cutoff amount : nat) (t : term) : term :=
  match t with
  | TAtom (BoundVar i) => if Nat.leb cutoff i then TBound (i + amount) else t
  | TAtom _ => t
  | TApp f a => TApp (shift_up cutoff amount f) (shift_up cutoff amount a)
  | TBind k ty b => TBind k (shift_up cutoff amount ty) (shift_up (S cutoff) amount b)
  end.

(** term.rs:2853-2945 [shift_bound] with amount [-amount]; [None] is the underflow panic. *)
Fixpoint shift_down (cutoff amount : nat) (t : term) : option term :=
  match t with
  | TAtom (BoundVar i) =>
    if Nat.leb cutoff i then (if Nat.leb amount i then Some (TBound (i - amount)) else None) else Some t
  | TAtom _ => Some t
  | TApp f a =>
    match shift_down cutoff amount f, shift_down cutoff amount a with
    | Some f', Some a' => Some (TApp f' a') | _, _ => None
    end
  | TBind k ty b =>
    match shift_down cutoff amount ty, shift_down (S cutoff) amount b with
    | Some ty', Some b' => Some (TBind k ty' b') | _, _ => None
    end
  end.

(** term.rs:2736-2835 [substitute_bound] *)
Fixpoint substitute_bound_at (index : nat) (r : term) (depth : nat) (t : term) : term :=
  match t with
  | TAtom (BoundVar i) => if Nat.eqb i (index + depth) then shift_up 0 depth r else t
  | TAtom _ => t
  | TApp f a => TApp (substitute_bound_at index r depth f) (substitute_bound_at index r depth a)
  | TBind k ty b =>
    TBind k (substitute_bound_at index r depth ty) (substitute_bound_at index r (S depth) b)
  end.
Definition substitute_bound (index : nat) (r t : term) : term := substitute_bound_at index r 0 t.

(** term.rs:2841-2845 [open_bound] *)
Definition open_bound (t r : term) : option term :=
  shift_down 0 1 (substitute_bound 0 (shift_up 0 1 r) t).

(** term.rs:1896-1909 [type_apply_with_arg] *)
Definition type_apply_with_arg (ty arg : term) : option term :=
  match ty with
  | TBind KPi _ out => if has_bound_variable out then open_bound out arg else Some out
  | _ => None
  end.

(** term.rs:2292-2371 [replace_variable]: the value is not shifted under binders. *)
Fixpoint replace_variable (id : nat) (v t : term) : term :=
  match t with
  | TAtom (FreeVar i) => if Nat.eqb i id then v else t
  | TAtom _ => t
  | TApp f a => TApp (replace_variable id v f) (replace_variable id v a)
  | TBind k ty b => TBind k (replace_variable id v ty) (replace_variable id v b)
  end.

(** term.rs:2374-2386 [replace_variables]: one after the other. *)
Fixpoint replace_variables (l : list (nat * term)) (t : term) : term :=
  match l with
  | [] => t
  | (id, v) :: r => replace_variables r (replace_variable id v t)
  end.

(** term.rs:2389-2399 [replace_atom] *)
Fixpoint replace_atom (old new : atom) (t : term) : term :=
  match t with
  | TAtom a => if atom_eq_dec a old then TAtom new else t
  | TApp f a => TApp (replace_atom old new f) (replace_atom old new a)
  | TBind k ty b => TBind k (replace_atom old new ty) (replace_atom old new b)
  end.

(** term.rs:2949-3000 [replace_subterm] *)
Fixpoint replace_subterm (old new t : term) : term :=
  if term_eq_dec t old then new else
  match t with
  | TAtom _ => t
  | TApp f a => TApp (replace_subterm old new f) (replace_subterm old new a)
  | TBind k ty b => TBind k (replace_subterm old new ty) (replace_subterm old new b)
  end.

(** term.rs:3031-3095 [convert_free_to_bound_at_depth] *)
Fixpoint convert_free_to_bound_at (n depth : nat) (t : term) : term :=
  match t with
  | TAtom (FreeVar i) => if Nat.ltb i n then TBound (depth + n - 1 - i) else t
  | TAtom (BoundVar i) => if Nat.leb depth i then TBound (i + n) else t
  | TAtom _ => t
  | TApp f a => TApp (convert_free_to_bound_at n depth f) (convert_free_to_bound_at n depth a)
  | TBind k ty b =>
    TBind k (convert_free_to_bound_at n depth ty) (convert_free_to_bound_at n (S depth) b)
  end.
(** term.rs:3008-3028 [convert_free_to_bound] *)
Definition convert_free_to_bound (n : nat) (t : term) : term :=
  if Nat.eqb n 0 then t else convert_free_to_bound_at n 0 t.

(** term.rs:10-18, 1316-1330 [get_term_at_path] *)
Inductive path_step := PFun | PArg.
Fixpoint term_at_path (t : term) (p : list path_step) : option term :=
  match p with
  | [] => Some t
  | s :: r =>
    match t with
    | TApp f a => match s with PFun => term_at_path f r | PArg => term_at_path a r end
    | _ => None
    end
  end.

(** The four logical term builders, term.rs:2197-2215. *)
Definition tnot (t : term) : term := TApp (TSym SNot) t.
Definition tand (a b : term) : term := TApp (TApp (TSym SAnd) a) b.
Definition tor (a b : term) : term := TApp (TApp (TSym SOr) a) b.
Definition teq (ty a b : term) : term := TApp (TApp (TApp (TSym SEq) ty) a) b.
Definition tite (ty c a b : term) : term := TApp (TApp (TApp (TApp (TSym SIte) ty) c) a) b.
