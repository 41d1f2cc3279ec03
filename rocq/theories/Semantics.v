(** Interpretations of kernel terms.  This file is specification, not model of code: the
    soundness theorems quantify over all structures of type [Model].

    A structure has one carrier; a type is an element [A] of it, whose elements are the [x]
    with [mem x A] (possibly none).  [appok f a] says that [a] is an acceptable argument of
    [f], and [isty A] that [A] can be the type of a bound variable.  Only the laws below are assumed, so every set-theoretic interpretation of the
    language is an instance; [FiniteModel.v] builds concrete ones. *)
From Coq Require Import List Arith NArith Bool.
Import ListNotations.
From Verif Require Import Term LocalContext.

Definition is_connective (s : symbol) : bool :=
  match s with STrue | SFalse | SNot | SAnd | SOr | SEq => true | _ => false end.

Record Model := {
  D : Type;
  dsym : symbol -> D;
  dapp : D -> D -> D;
  dbind : bkind -> D -> (D -> D) -> D;
  mem : D -> D -> Prop;
  appok : D -> D -> Prop;
  isty : D -> Prop;

  (** a binder depends on its body only through the values on the elements of its type *)
  bind_ext : forall k A f g, (forall x, mem x A -> f x = g x) -> dbind k A f = dbind k A g;

  (** functions *)
  lam_beta : forall A f a, appok (dbind KLam A f) a -> mem a A /\ dapp (dbind KLam A f) a = f a;
  pi_appok : forall A B f a, mem f (dbind KPi A B) -> mem a A -> appok f a;
  pi_app : forall A B f a, mem f (dbind KPi A B) -> mem a A -> mem (dapp f a) (B a);
  pi_dom : forall A B f a, mem f (dbind KPi A B) -> appok f a -> mem a A;
  lam_pi : forall A B f, (forall x, mem x A -> mem (f x) (B x)) -> mem (dbind KLam A f) (dbind KPi A B);
  pi_ext : forall A B f g, mem f (dbind KPi A B) -> mem g (dbind KPi A B) ->
    (forall x, mem x A -> dapp f x = dapp g x) -> f = g;

  (** classical reading of (in)equality between values *)
  val_dec : forall x y : D, x = y \/ x <> y;

  (** only types have elements, and there is an equality and a choice on each *)
  mem_isty : forall x T, mem x T -> isty T;
  isty_eq : forall T, isty T <-> appok (dsym SEq) T;
  isty_ite : forall T, isty T <-> appok (dsym SIte) T;

  (** what a connective or truth value is applied to is never a type, and [true] is no function *)
  isty_conn : forall s l, is_connective s = true -> ~ isty (fold_left dapp l (dsym s));
  true_nofun : forall a, ~ appok (dsym STrue) a;

  (** booleans *)
  bool_mem : forall d, mem d (dsym SBool) <-> d = dsym STrue \/ d = dsym SFalse;
  bool_diff : dsym STrue <> dsym SFalse;
  not_ok : forall d, appok (dsym SNot) d <-> mem d (dsym SBool);
  not_true : dapp (dsym SNot) (dsym STrue) = dsym SFalse;
  not_false : dapp (dsym SNot) (dsym SFalse) = dsym STrue;
  and_ok : forall a, appok (dsym SAnd) a <-> mem a (dsym SBool);
  and_ok2 : forall a b, mem a (dsym SBool) -> (appok (dapp (dsym SAnd) a) b <-> mem b (dsym SBool));
  and_val : forall a b, mem a (dsym SBool) -> mem b (dsym SBool) ->
    mem (dapp (dapp (dsym SAnd) a) b) (dsym SBool) /\
    (dapp (dapp (dsym SAnd) a) b = dsym STrue <-> a = dsym STrue /\ b = dsym STrue);
  or_ok : forall a, appok (dsym SOr) a <-> mem a (dsym SBool);
  or_ok2 : forall a b, mem a (dsym SBool) -> (appok (dapp (dsym SOr) a) b <-> mem b (dsym SBool));
  or_val : forall a b, mem a (dsym SBool) -> mem b (dsym SBool) ->
    mem (dapp (dapp (dsym SOr) a) b) (dsym SBool) /\
    (dapp (dapp (dsym SOr) a) b = dsym STrue <-> a = dsym STrue \/ b = dsym STrue);

  (** equality and if-then-else at a type *)
  eq_ok : forall T x, appok (dsym SEq) T -> (appok (dapp (dsym SEq) T) x <-> mem x T);
  eq_ok2 : forall T x y, appok (dsym SEq) T -> mem x T ->
    (appok (dapp (dapp (dsym SEq) T) x) y <-> mem y T);
  eq_val : forall T x y, appok (dsym SEq) T -> mem x T -> mem y T ->
    mem (dapp (dapp (dapp (dsym SEq) T) x) y) (dsym SBool) /\
    (dapp (dapp (dapp (dsym SEq) T) x) y = dsym STrue <-> x = y);
  ite_ok : forall T c, appok (dsym SIte) T -> (appok (dapp (dsym SIte) T) c <-> mem c (dsym SBool));
  ite_ok2 : forall T c x, appok (dsym SIte) T -> mem c (dsym SBool) ->
    (appok (dapp (dapp (dsym SIte) T) c) x <-> mem x T);
  ite_ok3 : forall T c x y, appok (dsym SIte) T -> mem c (dsym SBool) -> mem x T ->
    (appok (dapp (dapp (dapp (dsym SIte) T) c) x) y <-> mem y T);
  ite_true : forall T x y, appok (dsym SIte) T -> mem x T -> mem y T ->
    dapp (dapp (dapp (dapp (dsym SIte) T) (dsym STrue)) x) y = x;
  ite_false : forall T x y, appok (dsym SIte) T -> mem x T -> mem y T ->
    dapp (dapp (dapp (dapp (dsym SIte) T) (dsym SFalse)) x) y = y;

  (** quantifiers over the elements of a type *)
  all_val : forall A f, (forall x, mem x A -> mem (f x) (dsym SBool)) ->
    mem (dbind KAll A f) (dsym SBool) /\
    (dbind KAll A f = dsym STrue <-> forall x, mem x A -> f x = dsym STrue);
  ex_val : forall A f, (forall x, mem x A -> mem (f x) (dsym SBool)) ->
    mem (dbind KEx A f) (dsym SBool) /\
    (dbind KEx A f = dsym STrue <-> exists x, mem x A /\ f x = dsym STrue)
}.

Section Eval.
Context (M : Model).

Definition scons {X} (x : X) (bs : nat -> X) : nat -> X :=
  fun i => match i with 0 => x | S j => bs j end.

(** The value of a term; [rho] gives the free variables, [bs] the escaping bound ones. *)
Fixpoint eval (rho bs : nat -> D M) (t : term) : D M :=
  match t with
  | TAtom (FreeVar i) => rho i
  | TAtom (BoundVar i) => bs i
  | TAtom (Sym s) => dsym M s
  | TApp f a => dapp M (eval rho bs f) (eval rho bs a)
  | TBind k A b => dbind M k (eval rho bs A) (fun x => eval rho (scons x bs) b)
  end.

(** Semantic well-typedness: every application is acceptable, every binder type is a type and
    every quantifier body is a truth value, hereditarily and for all values of the bound variables.
    [P] is an extra condition on the domains of lambdas; it is trivial except where stated. *)
Definition bindty (P : D M -> Prop) (k : bkind) (d : D M) : Prop :=
  isty M d /\ (k = KLam -> P d).

Fixpoint swtg (P : D M -> Prop) (rho bs : nat -> D M) (t : term) : Prop :=
  match t with
  | TAtom _ => True
  | TApp f a => swtg P rho bs f /\ swtg P rho bs a /\ appok M (eval rho bs f) (eval rho bs a)
  | TBind k A b =>
    swtg P rho bs A /\ bindty P k (eval rho bs A) /\
    forall x, mem M x (eval rho bs A) ->
      swtg P rho (scons x bs) b /\
      match k with
      | KAll | KEx => mem M (eval rho (scons x bs) b) (dsym M SBool)
      | _ => True
      end
  end.

Definition anydom : D M -> Prop := fun _ => True.
Definition swt := swtg anydom.

(** Top-level bound variables do not occur; any value will do for them. *)
Definition nobs : nat -> D M := fun _ => dsym M STrue.

Definition ev (rho : nat -> D M) (t : term) : D M := eval rho nobs t.
Definition wt (rho : nat -> D M) (t : term) : Prop := swt rho nobs t.

(** An assignment respects a local context. *)
Definition valid_env (ctx : lctx) (rho : nat -> D M) : Prop :=
  forall i T, get_var_type ctx i = Some T -> mem M (rho i) (ev rho T).

End Eval.

(** Only eta reduction needs this: a function defined on all elements of an inhabited proper type
    has that type as its domain (distinct proper types share no elements), so the lambda that
    forwards its argument is the function itself. *)
Definition eta_model (M : Model) : Prop :=
  forall A f x, mem M A (dsym M SType0) -> mem M x A -> (forall y, mem M y A -> appok M f y) ->
    dbind M KLam A (dapp M f) = f.
