(** The conditions under which the positivity check is shown to be right. *)
From Coq Require Import List Arith Bool.
Import ListNotations.
From Verif Require Import Positivity PositivitySem Containers.

(** [d] occurs somewhere in the type *)
Fixpoint mentions (d : datatype) (t : atype) : bool :=
  match t with
  | AData e args => datatype_eqb e d || existsb (mentions d) args
  | AFamily _ args => existsb (fun a => match a with TyArg t => mentions d t | ValArg _ => false end) args
  | AFunction args ret => existsb (mentions d) args || mentions d ret
  | _ => false
  end.

(** [ind] does not occur in the arguments of families *)
Fixpoint outside_families (d : datatype) (t : atype) : bool :=
  match t with
  | AData _ args => forallb (outside_families d) args
  | AFamily _ args => forallb (fun a => match a with TyArg t => negb (mentions d t) | ValArg _ => true end) args
  | AFunction args ret => forallb (outside_families d) args && outside_families d ret
  | _ => true
  end.

(** the datatype of [ind] occurs only at the parameters of its declaration *)
Fixpoint regular (ind t : atype) : bool :=
  atype_eqb t ind ||
  match t with
  | AData _ args => negb (same_datatype t ind) && forallb (regular ind) args
  | AFunction args ret => forallb (regular ind) args && regular ind ret
  | _ => true
  end.

(** datatypes with known variances have no more arguments than variances *)
Fixpoint arities (tb : table) (t : atype) : bool :=
  match t with
  | AData d args => match look tb d with Some vs => length args <=? length vs | None => true end && forallb (arities tb) args
  | AFunction args ret => forallb (arities tb) args && arities tb ret
  | _ => true
  end.

(** [d] is applied to a type with [ind] in it *)
Fixpoint nests (ind : atype) (d : datatype) (t : atype) : bool :=
  match t with
  | AData e args => datatype_eqb e d && existsb (contains ind) args || existsb (nests ind d) args
  | AFunction args ret => existsb (nests ind d) args || nests ind d ret
  | _ => false
  end.

(** the positions where the check lets [ind] occur *)
Definition positions (tb : table) (d : datatype) (i : nat) : bool :=
  match look tb d with
  | Some vs => match nth_error vs i with Some VNegative | Some VBoth => false | _ => true end
  | None => true
  end.

(** the types at the positions, the other ones replaced by [unit]; and the other way round *)
Fixpoint keep (pos : nat -> bool) (k : nat) (L : list Type) : list Type :=
  match L with [] => [] | A :: r => (if pos k then A else unit) :: keep pos (S k) r end.
Definition blank (pos : nat -> bool) := keep (fun i => negb (pos i)).

(** [F] is given by shapes and places for elements of the types at the positions; the shapes depend only on the other types *)
Record filled (F : list Type -> Type) (pos : nat -> bool) : Type := {
  dshape : list Type -> Type;
  dplace : forall B, dshape B -> nat -> Type;
  dto : forall L, F L -> {s : dshape (blank pos 0 L) & forall ip : {i : nat & dplace _ s i}, nth (projT1 ip) (keep pos 0 L) unit};
  dfrom : forall L, {s : dshape (blank pos 0 L) & forall ip : {i : nat & dplace _ s i}, nth (projT1 ip) (keep pos 0 L) unit} -> F L;
  dfrom_to : forall L v, dfrom L (dto L v) = v;
  dto_from : forall L v, dto L (dfrom L v) = v
}.
Arguments dshape {F pos}. Arguments dplace {F pos}. Arguments dto {F pos}. Arguments dfrom {F pos}. Arguments dfrom_to {F pos}. Arguments dto_from {F pos}.

(** the type uses only the given parameters *)
Fixpoint closed (ps : list nat) (t : atype) : bool :=
  match t with
  | AData _ args => forallb (closed ps) args
  | AFamily _ args => forallb (fun a => match a with TyArg t => closed ps t | ValArg _ => true end) args
  | AFunction args ret => forallb (closed ps) args && closed ps ret
  | AVariable _ => false
  | AArbitrary p => existsb (Nat.eqb p) ps
  | _ => true
  end.

(** The datatypes declared so far and the numbers of their type parameters *)
Definition arity_of (decl : list (datatype * nat)) (d : datatype) : option nat := option_map snd (find (fun e => datatype_eqb (fst e) d) decl).
(** a type without families, all of whose datatypes are declared *)
Fixpoint well_formed (decl : list (datatype * nat)) (t : atype) : bool :=
  match t with
  | AData d args => match arity_of decl d with Some k => length args =? k | None => false end && forallb (well_formed decl) args
  | AFamily _ _ => false
  | AFunction args ret => forallb (well_formed decl) args && well_formed decl ret
  | _ => true
  end.
(** no datatype is applied to a type with [ind] in it *)
Fixpoint unnested (ind t : atype) : bool :=
  match t with
  | AData _ args => forallb (fun a => negb (contains ind a) && unnested ind a) args
  | AFunction args ret => forallb (unnested ind) args && unnested ind ret
  | _ => true
  end.
(** The declarations of a project, in order: every name is declared once, the types are well formed and use only the parameters of their declaration,
    structures have no value parameters, and inductive types occur in their own declaration only at their own parameters and not within the arguments of other datatypes. *)
Definition plain_item (m : nat) (decl : list (datatype * nat)) (i : item) : option (list (datatype * nat)) :=
  match i with
  | Import _ => Some decl
  | Structure n ps O fields =>
    match arity_of decl (m, n) with
    | None => if forallb (fun t => well_formed decl t && closed ps t) fields then Some (((m, n), length ps) :: decl) else None
    | Some _ => None
    end
  | Structure _ _ (S _) _ => None
  | Inductive_ n ps ctors =>
    match arity_of decl (m, n) with
    | None =>
      let decl := ((m, n), length ps) :: decl in let ind := own_type m n ps in
      if forallb (forallb (fun t => well_formed decl t && closed ps t && regular ind t && unnested ind t)) ctors then Some decl else None
    | Some _ => None
    end
  end.
Fixpoint plain_items (m : nat) (decl : list (datatype * nat)) (l : list item) : option (list (datatype * nat)) :=
  match l with [] => Some decl | i :: r => match plain_item m decl i with Some decl => plain_items m decl r | None => None end end.
Fixpoint plain_modules (m : nat) (decl : list (datatype * nat)) (ms : list (list item)) : bool :=
  match ms with [] => true | l :: r => match plain_items m decl l with Some decl => plain_modules (S m) decl r | None => false end end.
