(** Matching a generic type with a concrete one, and the inference of type arguments.
    elaborator/type_unifier.rs, elaborator/acorn_type.rs (types, [instantiate]), elaborator/binding_map.rs (instances of typeclasses). *)
From Coq Require Import List Arith Bool.
Import ListNotations.

(** acorn_type.rs 483-488, [TypeParam]: the name of a type parameter and its typeclass, if any.  Names and typeclasses are numbers. *)
Record tparam := Param { pname : nat; pclass : option nat }.

(** acorn_type.rs 1103-1157, [AcornType], without [Family]: there are no values in types, and so [insert_stack] and the "visible prefix" of the
    matching function do nothing and are left out.  A datatype is a number. *)
Inductive ety :=
| EBool
| EType0
| EConstraint (c : nat)
| EVar (p : tparam)
| EArb (p : tparam)
| EData (d : nat) (args : list ety)
| EFun (args : list ety) (ret : ety).

Definition class_eqb (a b : option nat) : bool :=
  match a, b with None, None => true | Some x, Some y => x =? y | _, _ => false end.
(** the derived equality of [TypeParam] *)
Definition param_eqb (p q : tparam) : bool := (pname p =? pname q) && class_eqb (pclass p) (pclass q).

(** the derived equality of [AcornType] *)
Fixpoint ety_eqb (a b : ety) {struct a} : bool :=
  let list_eqb := fix go l m := match l, m with [], [] => true | x :: l, y :: m => ety_eqb x y && go l m | _, _ => false end in
  match a, b with
  | EBool, EBool | EType0, EType0 => true
  | EConstraint c, EConstraint d => c =? d
  | EVar p, EVar q | EArb p, EArb q => param_eqb p q
  | EData d l, EData e m => (d =? e) && list_eqb l m
  | EFun l r, EFun m s => list_eqb l m && ety_eqb r s
  | _, _ => false
  end.

(** acorn_type.rs 1329-1335 and 404-438, [AcornType::functional] and [FunctionType::new] *)
Definition functional (args : list ety) (ret : ety) : ety :=
  match args with
  | [] => ret
  | _ => match ret with EFun args' ret' => EFun (args ++ args') ret' | _ => EFun args ret end
  end.

(** type_unifier.rs 16-20: the mapping from the names of parameters to types *)
Definition mapping := list (nat * ety).
Definition look (m : mapping) (n : nat) : option ety := option_map snd (find (fun e => fst e =? n) m).

(** acorn_type.rs 1584-1666, [instantiate] *)
Fixpoint instantiate (m : mapping) (t : ety) : ety :=
  match t with
  | EVar p | EArb p => match look m (pname p) with Some u => u | None => t end
  | EFun args ret => functional (map (instantiate m) args) (instantiate m ret)
  | EData d args => EData d (map (instantiate m) args)
  | _ => t
  end.

(** acorn_type.rs 1517-1535, [has_type_variable] *)
Fixpoint has_variable (n : nat) (t : ety) : bool :=
  match t with
  | EVar p => pname p =? n
  | EData _ args => existsb (has_variable n) args
  | EFun args ret => existsb (has_variable n) args || has_variable n ret
  | _ => false
  end.

(** acorn_type.rs 2180-2197, [has_arbitrary_type_param] *)
Fixpoint has_arbitrary_param (p : tparam) (t : ety) : bool :=
  match t with
  | EArb q => param_eqb q p
  | EFun args ret => existsb (has_arbitrary_param p) args || has_arbitrary_param p ret
  | EData _ args => existsb (has_arbitrary_param p) args
  | _ => false
  end.

(** acorn_type.rs 2006-2027, [has_generic] *)
Fixpoint has_generic (t : ety) : bool :=
  match t with
  | EVar _ => true
  | EData _ args => existsb has_generic args
  | EFun args ret => existsb has_generic args || has_generic ret
  | _ => false
  end.

(** acorn_type.rs 1966-2003, [genericize] *)
Fixpoint genericize (ps : list tparam) (t : ety) : ety :=
  match t with
  | EArb q => match find (fun p => pname p =? pname q) ps with Some p => EVar p | None => t end
  | EFun args ret => functional (map (genericize ps) args) (genericize ps ret)
  | EData d args => EData d (map (genericize ps) args)
  | _ => t
  end.

Fixpoint size (t : ety) : nat :=
  match t with
  | EData _ args => S (list_sum (map size args))
  | EFun args ret => S (list_sum (map size args) + size ret)
  | _ => 1
  end.

(** The [zip] loops of type_unifier.rs 216-222, 239-245, 264-272 and 279-281 *)
Section Zip.
Context (f : ety -> ety -> mapping -> option mapping).
Fixpoint match_zip (gs is : list ety) (m : mapping) : option mapping :=
  match gs, is with
  | g :: gs, i :: is => match f g i m with Some m1 => match_zip gs is m1 | None => None end
  | _, _ => Some m
  end.
End Zip.

Section Matching.
(** type_unifier.rs 41-59, [TypeclassRegistry] *)
Context (is_instance : ety -> nat -> bool) (extends : nat -> nat -> bool).

(** type_unifier.rs 359-373, [satisfies_typeclass_constraint], and the same tests at 122-152 and 164-194 *)
Definition satisfies (t : ety) (c : nat) : bool :=
  match t with
  | EData _ _ => is_instance t c
  | EArb p | EVar p => match pclass p with Some a => (a =? c) || extends a c | None => false end
  | _ => false
  end.

Definition fits (p : tparam) (t : ety) : bool := match pclass p with Some c => satisfies t c | None => true end.

(** type_unifier.rs 107-298, [match_instance].  The kinds of errors are not distinguished.  One case (248-259) calls the function with a rebuilt
    generic type, so that the recursion is by fuel: [match_types] gives enough of it. *)
Fixpoint match_fuel (n : nat) (g i : ety) (m : mapping) : option mapping :=
  match n with
  | 0 => None
  | S n =>
    match g, i with
    | EVar p, _ =>
      match look m (pname p) with
      | Some t => if ety_eqb t i then Some m else None
      | None =>
        if fits p i then if has_variable (pname p) i then None else Some ((pname p, i) :: m)
        else None
      end
    | EArb p, _ =>
      match look m (pname p) with
      | Some t => if ety_eqb t i then Some m else None
      | None =>
        if fits p i then
          if has_arbitrary_param p i then
            match i with
            | EArb q => if param_eqb q p then Some ((pname p, i) :: m) else None
            | _ => None
            end
          else Some ((pname p, i) :: m)
        else None
      end
    | EFun fa fr, EFun ga gr =>
      if length fa <? length ga then
        match match_zip (match_fuel n) fa ga m with
        | Some m1 => match_fuel n fr (functional (skipn (length fa) ga) gr) m1
        | None => None
        end
      else if length ga <? length fa then
        match match_zip (match_fuel n) fa ga m with
        | Some m1 => match_fuel n (functional (skipn (length ga) fa) fr) gr m1
        | None => None
        end
      else
        match match_fuel n fr gr m with
        | Some m1 => match_zip (match_fuel n) fa ga m1
        | None => None
        end
    | EData d gs, EData e is =>
      if (d =? e) && (length gs =? length is) then match_zip (match_fuel n) gs is m else None
    | _, _ => if ety_eqb g i then Some m else None
    end
  end.

Definition match_types (g i : ety) (m : mapping) : option mapping := match_fuel (size g + size i) g i m.

(** type_unifier.rs 375-393, [check_type_param_constraints] *)
Definition constraints_hold (ps : list tparam) (ts : list ety) : bool :=
  forallb (fun e => fits (fst e) (snd e)) (combine ps ts).

(** acorn_type.rs 440-463, [applied_type] for one argument *)
Definition apply_one (t : ety) : option ety :=
  match t with
  | EFun [_] ret => Some ret
  | EFun (_ :: args) ret => Some (EFun args ret)
  | _ => None
  end.

(** acorn_value.rs 22-38, [FunctionApplication::get_type], which does not look at the types of the arguments; [None] is the panic *)
Fixpoint application_type (t : ety) (args : nat) : option ety :=
  match args with
  | 0 => Some t
  | S n => match apply_one t with Some u => application_type u n | None => None end
  end.

(** unresolved_constant.rs 8-33, without value parameters.  The stored arguments are represented by their types. *)
Record unresolved := Unresolved { uparams : list tparam; ugeneric : ety; uargs : list ety }.

(** potential_value.rs: [Resolved] gives the type arguments and the type of the value.  [Panicked] is the panic in [get_type]. *)
Inductive outcome :=
| Resolved (targs : list ety) (t : ety)
| StillUnresolved (u : unresolved)
| Failed
| Panicked.

(** type_unifier.rs 543-585: matching the types of the arguments, and the type that is left *)
Definition match_args (g : ety) (args : list ety) (m : mapping) : option (ety * mapping) :=
  match args with
  | [] => Some (g, m)
  | _ =>
    match g with
    | EFun fa fr =>
      if length fa <? length args then None
      else match match_zip match_types fa args m with
           | Some m1 => Some (if length args =? length fa then fr else EFun (skipn (length args) fa) fr, m1)
           | None => None
           end
    | _ => None
    end
  end.

(** type_unifier.rs 587-590 *)
Definition match_expected (g : ety) (expected : option ety) (m : mapping) : option mapping :=
  match expected with Some e => match_types g e m | None => Some m end.

(** type_unifier.rs 596-619: the type arguments *)
Definition chosen (m : mapping) (ps : list tparam) : list ety :=
  map (fun p => match look m (pname p) with Some t => t | None => EVar p end) ps.
Definition inferred (m : mapping) (ps : list tparam) : bool :=
  forallb (fun p => match look m (pname p) with Some t => negb (has_generic t) | None => false end) ps.

(** unresolved_constant.rs 36-52 *)
Definition named (ps : list tparam) (ts : list ety) : mapping := combine (map pname ps) ts.

(** type_unifier.rs 526-665, [try_resolve_with_inference_inner] with [infer_hidden_value_args] off *)
Definition infer (u : unresolved) (args : list ety) (expected : option ety) : outcome :=
  let all := uargs u ++ args in
  match match_args (ugeneric u) all [] with
  | None => Failed
  | Some (ret, m1) =>
    match match_expected ret expected m1 with
    | None => Failed
    | Some m2 =>
      let ts := chosen m2 (uparams u) in
      if constraints_hold (uparams u) ts then
        if inferred m2 (uparams u) then
          match application_type (instantiate (named (uparams u) ts) (ugeneric u)) (length all) with
          | None => Panicked
          | Some t =>
            match expected with
            | Some e => if ety_eqb e t then Resolved ts t else Failed
            | None => Resolved ts t
            end
          end
        else StillUnresolved (Unresolved (uparams u) (ugeneric u) all)
      else Failed
    end
  end.

End Matching.

(** * Instances of typeclasses *)

(** binding_map.rs 3182-3240 and 3310-3341: the typeclasses with what they extend, and the declared instances with their generic types.  The set
    of typeclasses of a datatype (1209-1217) is [concrete]. *)
Record registry := Registry {
  classes : list (nat * list nat);
  concrete : list (nat * nat);
  instances : list (ety * nat)
}.

(** binding_map.rs 3422-3428, [extends] *)
Definition extends_of (r : registry) (c : nat) : list nat :=
  match find (fun e => fst e =? c) (classes r) with Some e => snd e | None => [] end.
Definition extends_in (r : registry) (c b : nat) : bool := existsb (Nat.eqb b) (extends_of r c).

Definition datatype_of (t : ety) : option nat := match t with EData d _ => Some d | _ => None end.

(** binding_map.rs 1224-1249, [is_instance_of_type], by fuel: the function calls itself through the matching, for the parts of the type *)
Fixpoint instance_fuel (r : registry) (n : nat) (t : ety) (c : nat) : bool :=
  match n with
  | 0 => false
  | S n =>
    match t with
    | EData d args =>
      (match args with [] => existsb (fun e => (fst e =? d) && (snd e =? c)) (concrete r) | _ => false end) ||
      existsb (fun e => match datatype_of (fst e) with Some d' => d' =? d | None => false end && (snd e =? c) &&
                        match match_types (instance_fuel r n) (extends_in r) (fst e) t [] with Some _ => true | None => false end)
              (instances r)
    | _ => false
    end
  end.

Definition instance_in (r : registry) (t : ety) (c : nat) : bool := instance_fuel r (size t) t c.

(** Statements: a typeclass with the typeclasses it extends, and an instance of a datatype with the given parameters. *)
Inductive declaration :=
| DClass (c : nat) (bases : list nat)
| DInstance (ps : list tparam) (d : nat) (c : nat).

(** binding_map.rs 1085-1095: the typeclasses that are extended, with those that they extend *)
Definition all_bases (r : registry) (bases : list nat) : list nat := flat_map (fun b => b :: extends_of r b) bases.

Fixpoint no_repetition (l : list nat) : bool :=
  match l with [] => true | x :: l => negb (existsb (Nat.eqb x) l) && no_repetition l end.

(** typeclasses.rs 225-345: the type of an instance statement, with arbitrary types for its parameters.  An alias cannot be used
    (environment/mod.rs 426-441). *)
Definition instance_type (ps : list tparam) (d : nat) : ety := EData d (map EArb ps).

(** [DClass]: binding_map.rs 1070-1130, [add_typeclass]; the base is a known typeclass (the [unwrap] in 1088) and the name is not in use.
    [DInstance]: the typeclass is known; typeclasses.rs 351-361 (the instance must be an instance of all that the typeclass extends), 624-629 and
    binding_map.rs 1209-1222, [add_typeclass_instance].  Two parameters with one name are a panic (binding_map.rs 1030-1038).
    The attributes and the conditions of the typeclass are left out. *)
Definition declare (r : registry) (x : declaration) : option registry :=
  match x with
  | DClass c bases =>
    if forallb (fun b => existsb (fun e => fst e =? b) (classes r)) bases && negb (existsb (fun e => fst e =? c) (classes r))
    then Some (Registry ((c, all_bases r bases) :: classes r) (concrete r) (instances r))
    else None
  | DInstance ps d c =>
    if existsb (fun e => fst e =? c) (classes r) && no_repetition (map pname ps) && forallb (instance_in r (instance_type ps d)) (extends_of r c)
    then Some (Registry (classes r)
                 (match ps with [] => (d, c) :: concrete r | _ => concrete r end)
                 (instances r ++ [(genericize ps (instance_type ps d), c)]))
    else None
  end.

Definition empty_registry := Registry [] [] [].

Fixpoint declare_all (r : registry) (l : list declaration) : option registry :=
  match l with
  | [] => Some r
  | x :: l => match declare r x with Some r1 => declare_all r1 l | None => None end
  end.
