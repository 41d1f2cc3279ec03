(** Monomorphic clauses.  This file is specification, not model of code: it says which clauses the
    theorems of P_Monomorphic.v are about.  A clause is monomorphic if the types of its variables
    and of its equations are built from base types, type constructors and arrows without any type
    variable.  Polymorphic constants may occur, applied to such types. *)
From Coq Require Import List Arith NArith Bool.
Import ListNotations.
From Verif Require Import Term LocalContext Semantics Typing Literal Clause.

(** Types without variables and kinds. *)
Fixpoint ground_type (t : term) : bool :=
  match t with
  | TAtom (Sym SBool) | TAtom (Sym (SType _ _)) => true
  | TApp f a => ground_type f && ground_type a
  | TBind KPi A B => ground_type A && ground_type B
  | _ => false
  end.

(** Constants that are no types, kinds or polymorphic connectives. *)
Definition value_symbol (s : symbol) : bool :=
  match s with SEq | SIte | SBool | SType0 | SType _ _ | STypeclass _ _ => false | _ => true end.

Section Mono.
Context (M : Model) (K : kctx).

(** Types that have elements, down to the base types they are built from. *)
Fixpoint element_type (T : term) : Prop :=
  match T with
  | TBind KPi A B => element_type A /\ element_type B
  | _ => ground_type T = true /\ wt M (nobs M) T /\ exists x, mem M x (ev M (nobs M) T)
  end.

(** An argument for a type parameter of kind [k]. *)
Definition type_arg (k T : term) : Prop :=
  is_type_param_kind k = true /\ ground_type T = true /\ wt M (nobs M) T /\
  mem M (ev M (nobs M) T) (ev M (nobs M) k).

(** Simply typed terms; [bs] are the types of the bound variables. *)
Inductive has_type (G : lctx) : list term -> term -> term -> Prop :=
  | ht_var : forall bs i T, get_var_type G i = Some T -> element_type T -> has_type G bs (TVar i) T
  | ht_bound : forall bs i T, nth_error bs i = Some T -> element_type T -> has_type G bs (TBound i) T
  | ht_sym : forall bs s, value_symbol s = true -> has_type G bs (TSym s) (symbol_type K s)
  | ht_eq : forall bs T, element_type T ->
      has_type G bs (TApp (TSym SEq) T) (tarrow T (tarrow T tbool))
  | ht_ite : forall bs T, element_type T ->
      has_type G bs (TApp (TSym SIte) T) (tarrow tbool (tarrow T (tarrow T T)))
  | ht_app : forall bs f a A B, has_type G bs f (TBind KPi A B) -> element_type A ->
      has_escaping_bound_variable B = false -> has_type G bs a A -> has_type G bs (TApp f a) B
  | ht_inst : forall bs f k T B, has_type G bs f (TBind KPi k B) -> type_arg k T ->
      forall U, open_bound B T = Some U -> has_type G bs (TApp f T) U
  | ht_lam : forall bs A b B, element_type A -> mem M (ev M (nobs M) A) (dsym M SType0) ->
      element_type B -> has_type G (A :: bs) b B -> has_type G bs (TBind KLam A b) (tarrow A B)
  | ht_quant : forall bs k A b, k = KAll \/ k = KEx -> element_type A ->
      has_type G (A :: bs) b tbool -> has_type G bs (TBind k A b) tbool.

(** No lambda is applied to an argument. *)
Fixpoint no_redex (t : term) : bool :=
  match t with
  | TAtom _ => true
  | TApp f a => no_redex f && no_redex a && match f with TBind KLam _ _ => false | _ => true end
  | TBind _ A b => no_redex A && no_redex b
  end.

Definition mono_context (G : lctx) : Prop :=
  forall i T, nth_error G i = Some (Some T) -> element_type T.

Definition mono_literal (G : lctx) (l : literal) : Prop :=
  exists T, element_type T /\ has_type G [] (left l) T /\ has_type G [] (right l) T.

Definition lit_no_redex (l : literal) : bool := no_redex (left l) && no_redex (right l).

Definition mono_typed (c : clause) : Prop :=
  mono_context (context c) /\ Forall (mono_literal (context c)) (literals c).
Definition mono (c : clause) : Prop :=
  mono_typed c /\ forallb lit_no_redex (literals c) = true.

(** The types of the constants have no variables. *)
Definition closed_types : Prop :=
  forall s, vars (symbol_type K s) = [] /\ has_escaping_bound_variable (symbol_type K s) = false.

(** Every type parameter of a constant is used in its type. *)
Fixpoint occurs_bound (d : nat) (t : term) : bool :=
  match t with
  | TAtom (BoundVar i) => Nat.eqb i d
  | TAtom _ => false
  | TApp f a => occurs_bound d f || occurs_bound d a
  | TBind _ A b => occurs_bound d A || occurs_bound (S d) b
  end.
Fixpoint uses_parameters (T : term) : Prop :=
  match T with
  | TBind KPi A B => (is_type_param_kind A = true -> occurs_bound 0 B = true) /\ uses_parameters B
  | _ => True
  end.
Definition parameters_used : Prop :=
  forall s, value_symbol s = true -> uses_parameters (symbol_type K s).
End Mono.
