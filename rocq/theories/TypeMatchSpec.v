(** What matching, inference and the search for instances should do, without the functions of the code. *)
From Coq Require Import List Arith Bool.
From Verif Require Import TypeMatch.
Import ListNotations.

(** Function types as the code builds them: at least one argument, and the result is not a function. *)
Inductive normal : ety -> Prop :=
| n_bool : normal EBool
| n_type : normal EType0
| n_constraint c : normal (EConstraint c)
| n_var p : normal (EVar p)
| n_arb p : normal (EArb p)
| n_data d args : Forall normal args -> normal (EData d args)
| n_fun args ret : args <> [] -> Forall normal args -> normal ret -> (forall l r, ret <> EFun l r) -> normal (EFun args ret).

(** The parameters of a type: type variables and arbitrary types *)
Inductive occurs : tparam -> ety -> Prop :=
| o_var p : occurs p (EVar p)
| o_arb p : occurs p (EArb p)
| o_data p d args t : In t args -> occurs p t -> occurs p (EData d args)
| o_arg p args ret t : In t args -> occurs p t -> occurs p (EFun args ret)
| o_ret p args ret : occurs p ret -> occurs p (EFun args ret).

Inductive occurs_variable : tparam -> ety -> Prop :=
| ov_var p : occurs_variable p (EVar p)
| ov_data p d args t : In t args -> occurs_variable p t -> occurs_variable p (EData d args)
| ov_arg p args ret t : In t args -> occurs_variable p t -> occurs_variable p (EFun args ret)
| ov_ret p args ret : occurs_variable p ret -> occurs_variable p (EFun args ret).

Inductive occurs_arbitrary : tparam -> ety -> Prop :=
| oa_arb p : occurs_arbitrary p (EArb p)
| oa_data p d args t : In t args -> occurs_arbitrary p t -> occurs_arbitrary p (EData d args)
| oa_arg p args ret t : In t args -> occurs_arbitrary p t -> occurs_arbitrary p (EFun args ret)
| oa_ret p args ret : occurs_arbitrary p ret -> occurs_arbitrary p (EFun args ret).

(** [becomes s g t]: replacing the parameters of [g] as [s] says gives [t].  A function that returns a function takes the arguments of both. *)
Inductive becomes (s : nat -> ety) : ety -> ety -> Prop :=
| b_bool : becomes s EBool EBool
| b_type : becomes s EType0 EType0
| b_constraint c : becomes s (EConstraint c) (EConstraint c)
| b_var p : becomes s (EVar p) (s (pname p))
| b_arb p : becomes s (EArb p) (s (pname p))
| b_data d l m : Forall2 (becomes s) l m -> becomes s (EData d l) (EData d m)
| b_fun l m r t : Forall2 (becomes s) l m -> becomes s r t -> (forall l' r', t <> EFun l' r') -> becomes s (EFun l r) (EFun m t)
| b_curried l m r m' t : Forall2 (becomes s) l m -> becomes s r (EFun m' t) -> becomes s (EFun l r) (EFun (m ++ m') t).

(** Applying a function of type [f] to arguments of the given types gives a value of type [t]. *)
Inductive applies : ety -> list ety -> ety -> Prop :=
| ap_none f : applies f [] f
| ap_last a ret args t : applies ret args t -> applies (EFun [a] ret) (a :: args) t
| ap_more a b l ret args t : applies (EFun (b :: l) ret) args t -> applies (EFun (a :: b :: l) ret) (a :: args) t.

(** The type arguments as a replacement *)
Definition given (ps : list tparam) (ts : list ety) (n : nat) : ety :=
  match find (fun e => pname (fst e) =? n) (combine ps ts) with Some e => snd e | None => EVar (Param n None) end.

Section OfClass.
(** what each typeclass extends, and the declared instances *)
Context (extends : nat -> nat -> Prop) (declared : ety -> nat -> Prop).

(** [of_class t c]: the type [t] belongs to the typeclass [c] *)
Inductive of_class : ety -> nat -> Prop :=
| oc_var p a c : pclass p = Some a -> a = c \/ extends a c -> of_class (EVar p) c
| oc_arb p a c : pclass p = Some a -> a = c \/ extends a c -> of_class (EArb p) c
| oc_instance g c s t :
    declared g c -> becomes s g t ->
    (forall p a, occurs p g -> pclass p = Some a -> of_class (s (pname p)) a) ->
    of_class t c.
End OfClass.

(** The same with an oracle for the instances, which is how the matching function sees them *)
Inductive in_class (is_instance : ety -> nat -> bool) (extends : nat -> nat -> bool) : ety -> nat -> Prop :=
| ic_data d args c : is_instance (EData d args) c = true -> in_class is_instance extends (EData d args) c
| ic_var p a c : pclass p = Some a -> a = c \/ extends a c = true -> in_class is_instance extends (EVar p) c
| ic_arb p a c : pclass p = Some a -> a = c \/ extends a c = true -> in_class is_instance extends (EArb p) c.

(** a type may be given for a parameter *)
Definition allowed (is_instance : ety -> nat -> bool) (extends : nat -> nat -> bool) (p : tparam) (t : ety) : Prop :=
  forall c, pclass p = Some c -> in_class is_instance extends t c.

(** the number of arguments that a type shows, and the types of the first arguments *)
Definition arity (g : ety) : nat := match g with EFun l _ => length l | _ => 0 end.
Definition first_args (g : ety) (n : nat) : list ety := match g with EFun l _ => firstn n l | _ => [] end.

(** What a list of declarations says: the typeclasses that a typeclass extends, directly or not, and the instances *)
Inductive extends_by (l : list declaration) : nat -> nat -> Prop :=
| eb_direct c bases b : In (DClass c bases) l -> In b bases -> extends_by l c b
| eb_step a b c : extends_by l a b -> extends_by l b c -> extends_by l a c.
Definition declared_by (l : list declaration) (g : ety) (c : nat) : Prop :=
  exists ps d, In (DInstance ps d c) l /\ g = EData d (map EVar ps).
