(** Model of src/kernel/fingerprint.rs: the index of terms and literals by fingerprints. *)
From Coq Require Import List Arith NArith Bool.
Import ListNotations.
From Verif Require Import Term LocalContext Literal Typing.

(** 15-37 [TypeCategory] *)
Inductive category :=
| CGround (m i : N) | CBool | CType0 | CArrow | CApplied | CVariable | CTypeclass (m i : N).
Definition category_eqb (a b : category) : bool :=
  match a, b with
  | CGround m i, CGround m' i' | CTypeclass m i, CTypeclass m' i' => N.eqb m m' && N.eqb i i'
  | CBool, CBool | CType0, CType0 | CArrow, CArrow | CApplied, CApplied | CVariable, CVariable => true
  | _, _ => false
  end.

(** 41-57 [from_type_ref] *)
Definition from_type (t : term) : category :=
  match t with
  | TAtom (FreeVar _) => CVariable
  | TSym (STypeclass m i) => CTypeclass m i
  | TSym SBool => CBool
  | TSym SType0 => CType0
  | TSym (SType m i) => CGround m i
  | TBind KPi _ _ => CArrow
  | _ => CApplied
  end.

(** 64-80 [could_match] *)
Definition could_match (a b : category) : bool :=
  match a, b with
  | CVariable, _ | _, CVariable => true
  | CTypeclass _ _, CGround _ _ | CGround _ _, CTypeclass _ _
  | CTypeclass _ _, CBool | CBool, CTypeclass _ _
  | CTypeclass _ _, CType0 | CType0, CTypeclass _ _
  | CTypeclass _ _, CTypeclass _ _ => true
  | _, _ => category_eqb a b
  end.

(** 152-170 [get_head_and_arg_count] *)
Fixpoint head_and_count (t : term) : atom * nat :=
  match t with
  | TApp f _ => let (a, n) := head_and_count f in (a, S n)
  | TAtom a => (a, 0)
  | TBind _ _ _ => (FreeVar 0, 0)
  end.

Section Index.
Context (K : kctx).

(** 118-143: peeling Pi types off the type of the head; [None] is the panic of [get_type_with_context] *)
Fixpoint peel (c : lctx) (t : term) (n : nat) (ty : term) : option category :=
  match n with
  | 0 => Some (from_type ty)
  | S n =>
    match ty with
    | TBind KPi _ out =>
      match out with
      | TAtom (BoundVar _) => option_map from_type (get_type K c t)
      | _ => peel c t n out
      end
    | _ => option_map from_type (get_type K c t)
    end
  end.

(** 86-150 [get_type_category] *)
Definition type_category (c : lctx) (t : term) : option category :=
  match t with
  | TAtom (FreeVar i) =>
    Some (match get_var_type c i with Some T => from_type T | None => CVariable end)
  | TAtom (BoundVar _) => Some CVariable
  | TAtom (Sym s) => Some (from_type (symbol_type K s))
  | TApp _ _ =>
    let (h, n) := head_and_count t in
    match h with
    | FreeVar i => match get_var_type c i with Some T => peel c t n T | None => Some CVariable end
    | Sym s => peel c t n (symbol_type K s)
    | BoundVar _ => Some CVariable
    end
  | TBind KPi _ _ => Some CType0
  | TBind KLam _ _ => Some CVariable
  | TBind _ _ _ => Some CBool
  end.

(** 173-184 [FingerprintComponent] *)
Inductive component := Below | Nothing | Something (g : category) (a : atom).

(** 205-222: where a path that leaves the term stops *)
Fixpoint stops (t : term) (p : list path_step) : component :=
  match p with
  | [] => Nothing
  | s :: r =>
    match t with
    | TAtom (FreeVar _) => Below
    | TApp f a => stops (match s with PFun => f | PArg => a end) r
    | _ => Nothing
    end
  end.
(** 187-226 [FingerprintComponent::new] *)
Definition component_at (c : lctx) (t : term) (p : list path_step) : option component :=
  match term_at_path t p with
  | Some s =>
    option_map (fun g => Something g (match head_atom s with FreeVar _ => FreeVar 0 | a => a end)) (type_category c s)
  | None => Some (stops t p)
  end.

(** atom.rs:92-94 [is_variable] *)
Definition is_variable (a : atom) : bool := match a with Sym _ => false | _ => true end.
Definition atom_same (a b : atom) : bool := term_eqb (TAtom a) (TAtom b).

(** 229-245 [could_unify] *)
Definition could_unify1 (a b : component) : bool :=
  match a, b with
  | Below, _ | _, Below => true
  | Nothing, Nothing => true
  | Something t1 a1, Something t2 a2 =>
    could_match t1 t2 && (is_variable a1 || is_variable a2 || atom_same a1 a2)
  | _, _ => false
  end.
(** 252-269 [could_specialize] *)
Definition could_specialize1 (a b : component) : bool :=
  match a, b with
  | Below, _ => true
  | _, Below => false
  | Nothing, Nothing => true
  | Something t1 a1, Something t2 a2 => could_match t1 t2 && (is_variable a1 || atom_same a1 a2)
  | _, _ => false
  end.

(** 273-281 [PATHS] *)
Definition paths : list (list path_step) :=
  [[]; [PFun]; [PArg]; [PFun; PFun]; [PFun; PArg]; [PArg; PFun]; [PArg; PArg]].

Fixpoint all_some {A : Type} (l : list (option A)) : option (list A) :=
  match l with
  | [] => Some []
  | x :: r => match x, all_some r with Some y, Some r' => Some (y :: r') | _, _ => None end
  end.
(** 289-300 [TermFingerprint::new] *)
Definition fingerprint (c : lctx) (t : term) : option (list component) := all_some (map (component_at c t) paths).
(** 302-309, 311-318 *)
Definition could_unify (a b : list component) : bool := forallb (fun p => could_unify1 (fst p) (snd p)) (combine a b).
Definition could_specialize (a b : list component) : bool :=
  forallb (fun p => could_specialize1 (fst p) (snd p)) (combine a b).

(** 355-381, 477-503: the trees that are searched *)
Definition searched (query stored : category) : bool :=
  match query with
  | CVariable | CTypeclass _ _ => true
  | CGround _ _ =>
    category_eqb stored query || category_eqb stored CVariable || match stored with CTypeclass _ _ => true | _ => false end
  | _ => category_eqb stored query || category_eqb stored CVariable
  end.

(** 323-325, 430-432: the trees.  A hash map of sorted maps of vectors is modelled as the list of its
    entries with their category; the order of the results is not modelled. *)
Definition index (F T : Type) := list (category * F * T).

(** 335-347 [FingerprintUnifier::insert]; [None] is a panic *)
Definition insert_term {T} (x : index (list component) T) (c : lctx) (t : term) (v : T) : option (index (list component) T) :=
  match fingerprint c t, type_category c t with
  | Some f, Some g => Some (x ++ [(g, f, v)])
  | _, _ => None
  end.
(** 350-396 [find_unifying] *)
Definition find_unifying {T} (x : index (list component) T) (c : lctx) (t : term) : option (list T) :=
  match fingerprint c t, type_category c t with
  | Some f, Some g =>
    Some (map snd (filter (fun e => searched g (fst (fst e)) && could_unify f (snd (fst e))) x))
  | _, _ => None
  end.

(** 399-426 [LiteralFingerprint] *)
Definition lit_fingerprint (c : lctx) (a b : term) : option (list component * list component) :=
  match fingerprint c a, fingerprint c b with Some x, Some y => Some (x, y) | _, _ => None end.
(** 441-454 [FingerprintSpecializer::insert] *)
Definition insert_literal {T} (x : index (list component * list component) T) (c : lctx) (l : literal) (v : T)
  : option (index (list component * list component) T) :=
  match lit_fingerprint c (left l) (right l), type_category c (left l) with
  | Some f, Some g => Some (x ++ [(g, f, v)])
  | _, _ => None
  end.
(** 458-516 [find_specializing] *)
Definition find_specializing {T} (x : index (list component * list component) T) (c : lctx) (a b : term)
  : option (list T) :=
  match lit_fingerprint c a b, type_category c a with
  | Some f, Some g =>
    Some (map snd (filter (fun e => searched g (fst (fst e)) &&
      (could_specialize (fst f) (fst (snd (fst e))) && could_specialize (snd f) (snd (snd (fst e))))) x))
  | _, _ => None
  end.
End Index.
