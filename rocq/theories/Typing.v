(** Model of the type computation of src/kernel/term.rs and symbol_table.rs. *)
From Coq Require Import List Arith NArith Bool.
Import ListNotations.
From Verif Require Import Term LocalContext.

Notation type0 := (TSym SType0).

(** The part of KernelContext read here: kinds of type constructors (type_store.rs
    [get_type_kind]), types of constants (symbol_table.rs:434-470), and the typeclass
    relations [type_term_is_instance_of] and [typeclass_extends], which are not modelled further.
    [k_value_params] tells whether a constant has value parameters (symbol_table.rs:387
    [get_polymorphic_info]). *)
Record kctx := {
  k_type : N -> N -> term;
  k_global : N -> N -> term;
  k_scoped : N -> term;
  k_instance : term -> lctx -> N * N -> bool;
  k_extends : N * N -> N * N -> bool;
  k_value_params : symbol -> bool
}.

Definition tarrow (a b : term) : term := TBind KPi a b.

(** symbol_table.rs:15-65, 473-490 *)
Definition symbol_type (K : kctx) (s : symbol) : term :=
  match s with
  | STrue | SFalse => tbool
  | SNot => tarrow tbool tbool
  | SAnd | SOr => tarrow tbool (tarrow tbool tbool)
  | SEq => tarrow type0 (tarrow (TBound 0) (tarrow (TBound 1) tbool))
  | SIte => tarrow type0 (tarrow tbool (tarrow (TBound 1) (tarrow (TBound 2) (TBound 3))))
  | SBool | SType0 | STypeclass _ _ => type0
  | SType m i => k_type K m i
  | SGlobal m i => k_global K m i
  | SScoped i => k_scoped K i
  end.

(** term.rs:695-770, 858-935 [abstract_free_var_as_bound_at_depth] *)
Fixpoint abstract_var (v depth : nat) (t : term) : term :=
  match t with
  | TAtom (FreeVar i) => if Nat.eqb i v then TBound depth else t
  | TAtom (BoundVar i) => if Nat.leb depth i then TBound (S i) else t
  | TAtom _ => t
  | TApp f a => TApp (abstract_var v depth f) (abstract_var v depth a)
  | TBind k A b => TBind k (abstract_var v depth A) (abstract_var v (S depth) b)
  end.

Fixpoint tsize (t : term) : nat :=
  match t with
  | TAtom _ => 1
  | TApp f a => S (tsize f + tsize a)
  | TBind _ A b => S (tsize A + tsize b)
  end.

(** term.rs:647-795 [get_type_with_context]; [None] is a panic.  The recursion goes under a lambda
    through an opened body, so it is bounded by the size of the term. *)
Fixpoint get_type_fuel (n : nat) (K : kctx) (c : lctx) (t : term) : option term :=
  match n with
  | 0 => None
  | S n =>
    match t with
    | TAtom (FreeVar i) => get_var_type c i
    | TAtom (BoundVar _) => None
    | TAtom (Sym s) => Some (symbol_type K s)
    | TApp f a =>
      match get_type_fuel n K c f with
      | Some T => type_apply_with_arg T a
      | None => None
      end
    | TBind KPi _ _ => Some type0
    | TBind KLam A b =>
      match open_bound b (TVar (length c)) with
      | None => None
      | Some b' =>
        option_map (fun T => TBind KPi A (abstract_var (length c) 0 T)) (get_type_fuel n K (push_type c A) b')
      end
    | TBind _ _ _ => Some tbool
    end
  end.
Definition get_type (K : kctx) (c : lctx) (t : term) : option term := get_type_fuel (tsize t) K c t.

(** term.rs:95-111 [resolve_type_constraint_kind] follows types of variables; a chain longer than
    the context has a cycle, on which the code does not return. *)
Inductive constraint := CType0 | CTypeclass (tc : N * N) | COther.
Fixpoint constraint_kind (n : nat) (t : term) (c : lctx) : constraint :=
  match n with
  | 0 => COther
  | S n =>
    match t with
    | TSym SType0 => CType0
    | TSym (STypeclass m i) => CTypeclass (m, i)
    | TVar v => match get_var_type c v with Some T => constraint_kind n T c | None => COther end
    | _ => COther
    end
  end.
Definition resolve_type_constraint_kind (t : term) (c : lctx) : constraint :=
  constraint_kind (S (S (length c))) t c.

Definition tc_eqb (a b : N * N) : bool := N.eqb (fst a) (fst b) && N.eqb (snd a) (snd b).
Definition is_type_param_kind (t : term) : bool :=
  match t with TSym SType0 | TSym (STypeclass _ _) => true | _ => false end.

(** term.rs:123-214 [validate_typeclass_argument] *)
Definition validate_typeclass_argument (K : kctx) (tc : N * N) (arg : term) (c : lctx) : bool :=
  match arg with
  | TSym SType0 | TSym (STypeclass _ _) | TBind _ _ _ | TSym SBool => false
  | _ =>
    if k_instance K arg c tc then true else
    match arg with
    | TVar v =>
      match get_var_type c v with
      | None => false
      | Some T =>
        match resolve_type_constraint_kind T c with
        | CTypeclass a => tc_eqb a tc || k_extends K a tc
        | _ => false
        end
      end
    | _ => false
    end
  end.

(** term.rs:216-250 [validate_application_argument] *)
Definition validate_application_argument (K : kctx) (input arg_type arg : term) (c : lctx) : bool :=
  match input with
  | TSym (STypeclass m i) => validate_typeclass_argument K (m, i) arg c
  | TSym SType0 => is_type_param_kind arg_type
  | _ => term_eqb arg_type input
  end.

(** term.rs:798-958 [checked_type_with_context]; [None] is an error *)
Fixpoint checked_type_fuel (n : nat) (K : kctx) (c : lctx) (t : term) : option term :=
  match n with
  | 0 => None
  | S n =>
    match t with
    | TAtom (FreeVar i) => get_var_type c i
    | TAtom (BoundVar _) => None
    | TAtom (Sym s) => Some (symbol_type K s)
    | TApp f a =>
      match checked_type_fuel n K c f, checked_type_fuel n K c a with
      | Some (TBind KPi input out), Some arg_type =>
        if validate_application_argument K input arg_type a c
        then type_apply_with_arg (TBind KPi input out) a else None
      | _, _ => None
      end
    | TBind KPi _ _ => Some type0
    | TBind KLam A b =>
      match open_bound b (TVar (length c)) with
      | None => None
      | Some b' =>
        option_map (fun T => TBind KPi A (abstract_var (length c) 0 T)) (checked_type_fuel n K (push_type c A) b')
      end
    | TBind _ _ _ => Some tbool
    end
  end.
Definition checked_type (K : kctx) (c : lctx) (t : term) : option term := checked_type_fuel (tsize t) K c t.
