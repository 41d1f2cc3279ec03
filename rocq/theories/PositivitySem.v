(** What the declarations of structures and inductive types say: types denote Coq types, [Bool] denotes [Prop], function types denote all functions. *)
From Coq Require Import List Arith Bool.
Import ListNotations.
From Verif Require Import Positivity.

(** An interpretation of the datatypes and of the families *)
Record interpretation := { data : datatype -> list Type -> Type; family : datatype -> list (Type + nat) -> Type }.

Fixpoint arrows (As : list Type) (B : Type) : Type := match As with [] => B | A :: r => A -> arrows r B end.

(** [E] interprets the arbitrary types and the type variables *)
Fixpoint den (J : interpretation) (E : nat -> Type) (t : atype) : Type :=
  match t with
  | ABool => Prop
  | AData d args => data J d (map (den J E) args)
  | AFamily d args => family J d (map (fun a => match a with TyArg t => inl (den J E t) | ValArg v => inr v end) args)
  | AFunction args ret => arrows (map (den J E) args) (den J E ret)
  | AVariable p | AArbitrary p => E p
  | AType0 | AConstraint _ => unit
  end.

(** values for the fields of a constructor *)
Fixpoint tuple (J : interpretation) (E : nat -> Type) (ts : list atype) : Type :=
  match ts with [] => unit | t :: r => (den J E t * tuple J E r)%type end.

Definition atype_dec (a b : atype) : {a = b} + {a <> b}.
Proof.
  revert a b. fix IH 1. intros a b.
  assert (L : forall l m : list atype, {l = m} + {l <> m}).
  { fix L 1. intros [|x l] [|y m]; try (right; discriminate); [left; reflexivity|].
    destruct (IH x y) as [->|N]; [|right; congruence]. destruct (L l m) as [->|N]; [left; reflexivity|right; congruence]. }
  assert (G : forall l m : list darg, {l = m} + {l <> m}).
  { fix G 1. intros [|[x|x] l] [|[y|y] m]; try (right; discriminate); [left; reflexivity|..].
    - destruct (IH x y) as [->|N]; [|right; congruence]. destruct (G l m) as [->|N]; [left; reflexivity|right; congruence].
    - destruct (Nat.eq_dec x y) as [->|N]; [|right; congruence]. destruct (G l m) as [->|N]; [left; reflexivity|right; congruence]. }
  destruct a as [|d l|d l|l r|p|p| |p], b as [|e m|e m|m s|q|q| |q]; try (right; discriminate); try (left; reflexivity).
  - destruct (datatype_eq_dec d e) as [->|N]; [|right; congruence]. destruct (L l m) as [->|N]; [left; reflexivity|right; congruence].
  - destruct (datatype_eq_dec d e) as [->|N]; [|right; congruence]. destruct (G l m) as [->|N]; [left; reflexivity|right; congruence].
  - destruct (L l m) as [->|N]; [|right; congruence]. destruct (IH r s) as [->|N]; [left; reflexivity|right; congruence].
  - destruct (Nat.eq_dec p q) as [->|N]; [left; reflexivity|right; congruence].
  - destruct (Nat.eq_dec p q) as [->|N]; [left; reflexivity|right; congruence].
  - destruct (Nat.eq_dec p q) as [->|N]; [left; reflexivity|right; congruence].
Defined.

(** the hypotheses that the induction principle gives for the fields of a constructor: one for each field of exactly the inductive type *)
Fixpoint hypotheses (J : interpretation) (E : nat -> Type) (ind : atype) (Q : den J E ind -> Prop) (ts : list atype) : tuple J E ts -> Prop :=
  match ts with
  | [] => fun _ => True
  | t :: r => fun v =>
    match atype_dec t ind with left e => Q (eq_rect t (den J E) (fst v) ind e) | right _ => True end /\ hypotheses J E ind Q r (snd v)
  end.

Definition constructors (J : interpretation) (E : nat -> Type) (ind : atype) (ctors : list (list atype)) : Type :=
  forall k ts, nth_error ctors k = Some ts -> tuple J E ts -> den J E ind.

(** datatypes.rs 785-960: the facts that an inductive declaration adds for its constructors *)
Record inductive_facts (J : interpretation) (E : nat -> Type) (ind : atype) (ctors : list (list atype)) (con : constructors J E ind ctors) : Prop := {
  facts_disjoint : forall k j ts us H H' v w, k <> j -> con k ts H v <> con j us H' w;
  facts_exhaustive : forall x, exists k ts H v, x = con k ts H v;
  facts_injective : forall k ts H v w, con k ts H v = con k ts H w -> v = w;
  facts_induction : forall Q : den J E ind -> Prop,
    (forall k ts H v, hypotheses J E ind Q ts v -> Q (con k ts H v)) -> forall x, Q x
}.

(** datatypes.rs 326-352 and 546-588: the facts that a structure declaration without a constraint adds.  The fields of a new object are the ones given, and every object is made of
    its fields.  The projections exist together if and only if [new] has an inverse. *)
Definition structure_facts (J : interpretation) (E : nat -> Type) (str : atype) (fields : list atype) : Prop :=
  exists (new : tuple J E fields -> den J E str) (parts : den J E str -> tuple J E fields), (forall v, parts (new v) = v) /\ (forall x, new (parts x) = x).

(** the type of a structure at its own parameters *)
Definition structure_type (m n : nat) (ps : list nat) (vals : list nat) : atype :=
  match vals with [] => own_type m n ps | _ => AFamily (m, n) (map (fun p => TyArg (AArbitrary p)) ps ++ map ValArg vals) end.

(** [J] makes all facts of a project true, for all types that the type parameters stand for and all values *)
Definition item_holds (J : interpretation) (m : nat) (i : item) : Prop :=
  match i with
  | Import _ => True
  | Structure n ps vals fields => forall E l, length l = vals -> structure_facts J E (structure_type m n ps l) fields
  | Inductive_ n ps ctors => forall E, exists con, inductive_facts J E (own_type m n ps) ctors con
  end.
Fixpoint modules_hold (J : interpretation) (m : nat) (ms : list (list item)) : Prop :=
  match ms with [] => True | l :: r => Forall (item_holds J m) l /\ modules_hold J (S m) r end.
