(** What the variance of a type parameter means.  Two interpretations of the parameters and relations between them give a relation between the two
    interpretations of a type: functions are related if they take related arguments to related results, objects of datatypes if they are made by the same
    constructor from related parts.  A parameter is covariant if a larger relation for it gives a larger relation for the type, and contravariant if a smaller one does. *)
From Coq Require Import List Arith Bool.
Import ListNotations.
From Verif Require Import Positivity PositivitySem PositivitySpec.

(** relations between the types at the same places of two lists *)
Fixpoint rels (L M : list Type) : Type :=
  match L, M with A :: l, B :: m => ((A -> B -> Prop) * rels l m)%type | _, _ => unit end.
Fixpoint frels (L M : list (Type + nat)) : Type :=
  match L, M with
  | x :: l, y :: m => match x, y with inl A, inl B => ((A -> B -> Prop) * frels l m)%type | _, _ => frels l m end
  | _, _ => unit
  end.

(** relations between the interpretations of the datatypes at related types *)
Record relator (J : interpretation) := {
  rdata : forall d L M, rels L M -> data J d L -> data J d M -> Prop;
  rfamily : forall d L M, frels L M -> family J d L -> family J d M -> Prop
}.
Arguments rdata {J}. Arguments rfamily {J}.

Fixpoint arrows_related (L M : list Type) : rels L M -> forall C D : Type, (C -> D -> Prop) -> arrows L C -> arrows M D -> Prop :=
  match L, M return rels L M -> forall C D : Type, (C -> D -> Prop) -> arrows L C -> arrows M D -> Prop with
  | [], [] => fun _ C D c => c
  | A :: l, B :: m => fun r C D c f g => forall a b, fst r a b -> arrows_related l m (snd r) C D c (f a) (g b)
  | _, _ => fun _ _ _ _ _ _ => False
  end.

Section Related.
Context {J : interpretation} (RR : relator J) {E E' : nat -> Type} (R : forall p, E p -> E' p -> Prop).

Fixpoint related (t : atype) : den J E t -> den J E' t -> Prop :=
  let list_rels := fix go (l : list atype) : rels (map (den J E) l) (map (den J E') l) :=
    match l with [] => tt | a :: l => (related a, go l) end in
  match t with
  | ABool => fun P Q => P <-> Q
  | AData d args => rdata RR d _ _ (list_rels args)
  | AFamily d args => rfamily RR d _ _
    ((fix go (l : list darg) : frels (map (fun a => match a with TyArg t => inl (den J E t) | ValArg v => inr v end) l)
        (map (fun a => match a with TyArg t => inl (den J E' t) | ValArg v => inr v end) l) :=
        match l with
        | [] => tt
        | TyArg a :: l => (related a, go l)
        | ValArg v :: l => go l
        end) args)
  | AFunction args ret => arrows_related _ _ (list_rels args) _ _ (related ret)
  | AVariable p | AArbitrary p => R p
  | AType0 | AConstraint _ => fun _ _ => True
  end.

(** the relations for a list of types *)
Fixpoint list_rels (l : list atype) : rels (map (den J E) l) (map (den J E') l) :=
  match l with [] => tt | a :: l => (related a, list_rels l) end.

Fixpoint tuple_related (ts : list atype) : tuple J E ts -> tuple J E' ts -> Prop :=
  match ts with
  | [] => fun _ _ => True
  | t :: r => fun v w => related t (fst v) (fst w) /\ tuple_related r (snd v) (snd w)
  end.
End Related.

(** the order of relations that a variance stands for *)
Definition below (v : variance) {A B : Type} (r s : A -> B -> Prop) : Prop :=
  match v with
  | VPositive => forall a b, r a b -> s a b
  | VNegative => forall a b, s a b -> r a b
  | VBoth => forall a b, r a b <-> s a b
  | VNone => True
  end.
Fixpoint rels_below (vs : list variance) (L M : list Type) : rels L M -> rels L M -> Prop :=
  match L, M return rels L M -> rels L M -> Prop with
  | A :: l, B :: m => fun r s => match vs with [] => True | v :: _ => below v (fst r) (fst s) end /\ rels_below (tl vs) l m (snd r) (snd s)
  | _, _ => fun _ _ => True
  end.
Fixpoint frels_below (L M : list (Type + nat)) : frels L M -> frels L M -> Prop :=
  match L, M return frels L M -> frels L M -> Prop with
  | x :: l, y :: m =>
    match x, y return frels (x :: l) (y :: m) -> frels (x :: l) (y :: m) -> Prop with
    | inl A, inl B => fun r s => below VPositive (fst r) (fst s) /\ frels_below l m (snd r) (snd s)
    | inl A, inr _ | inr _, inl A => frels_below l m
    | inr _, inr _ => frels_below l m
    end
  | _, _ => fun _ _ => True
  end.

(** the recorded variances of all datatypes are right *)
Definition table_right {J} (RR : relator J) (tb : table) : Prop :=
  forall d vs, look tb d = Some vs -> forall L M r s x y, length L = length vs -> length M = length vs ->
  rels_below vs L M r s -> rdata RR d L M r x y -> rdata RR d L M s x y.
(** the families are covariant, which the code takes for granted (see [family_argument_refuted]) *)
Definition families_covariant {J} (RR : relator J) : Prop :=
  forall d L M r s x y, frels_below L M r s -> rfamily RR d L M r x y -> rfamily RR d L M s x y.

(** a type of datatypes with recorded variances, one for each argument *)
Fixpoint known (tb : table) (t : atype) : bool :=
  match t with
  | AData d args => match look tb d with Some vs => length args =? length vs | None => false end && forallb (known tb) args
  | AFamily _ args => forallb (fun a => match a with TyArg t => known tb t | ValArg _ => true end) args
  | AFunction args ret => forallb (known tb) args && known tb ret
  | _ => true
  end.

(** the relator with another relation for one datatype *)
Definition with_data {J} (RR : relator J) (d : datatype) (Q : forall L M, rels L M -> data J d L -> data J d M -> Prop) : relator J :=
  {| rdata := fun e => match datatype_eq_dec d e with
       | left H => eq_rect d (fun e => forall L M, rels L M -> data J e L -> data J e M -> Prop) Q e H
       | right _ => rdata RR e end;
     rfamily := rfamily RR |}.

(** the constructors take related parts to related objects *)
Definition constructors_related {J} (RR : relator J) (ind : atype) (ctors : list (list atype)) (con : forall E, constructors J E ind ctors) : Prop :=
  forall E E' (R : forall p, E p -> E' p -> Prop) k ts H v w,
  tuple_related RR R ts v w -> related RR R ind (con E k ts H v) (con E' k ts H w).

(** [RR] relates the objects of a declared type as it should.  Structures: exactly if their fields are related.  Inductive types: the least relation,
    for all parameters together, that the constructors respect. *)
Definition item_relates {J} (RR : relator J) (m : nat) (i : item) : Prop :=
  match i with
  | Structure n ps O fields =>
    exists (new : forall E, tuple J E fields -> den J E (own_type m n ps)), (forall E x, exists v, x = new E v) /\
    forall E E' (R : forall p, E p -> E' p -> Prop) v w, related RR R (own_type m n ps) (new E v) (new E' w) <-> tuple_related RR R fields v w
  | Inductive_ n ps ctors =>
    exists con, constructors_related RR (own_type m n ps) ctors con /\
    forall Q, constructors_related (with_data RR (m, n) Q) (own_type m n ps) ctors con ->
    forall L M r x y, length L = length ps -> length M = length ps -> rdata RR (m, n) L M r x y -> Q L M r x y
  | _ => True
  end.

(** The declarations covered: no imports, names declared once, parameters with different names, types of datatypes that are declared before, and inductive
    types that occur in their own declaration only at their own parameters and not in the arguments of families.  [tb] is the table before the declaration. *)
Fixpoint distinct (ps : list nat) : bool := match ps with [] => true | p :: r => negb (existsb (Nat.eqb p) r) && distinct r end.
Definition fresh (tb : table) (d : datatype) : bool := match look_entry tb d with Some _ => false | None => true end.
Definition item_fine (m : nat) (tb : table) (i : item) : bool :=
  match i with
  | Structure n ps O fields => distinct ps && fresh tb (m, n) && forallb (known tb) fields
  | Inductive_ n ps ctors =>
    distinct ps && fresh tb (m, n) &&
    forallb (forallb (fun t => known (set_variances tb (m, n) (map (fun _ => VBoth) ps)) t && regular (own_type m n ps) t && outside_families (m, n) t)) ctors
  | _ => false
  end.
Fixpoint items_fine (m : nat) (tb : table) (l : list item) : bool :=
  match l with
  | [] => true
  | i :: r => item_fine m tb i && match run_items [] m tb [i] with Some tb => items_fine m tb r | None => false end
  end.
