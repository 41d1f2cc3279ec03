(** Variances of type parameters and the positivity check of inductive types.
    elaborator/acorn_type.rs (types, [compute_variance_with_lookup]), elaborator/environment/add_statement/datatypes.rs
    (structure and inductive declarations) and elaborator/binding_map.rs (the table of variances, imports). *)
From Coq Require Import List Arith Bool.
Import ListNotations.

(** acorn_type.rs 8-19 *)
Inductive variance := VPositive | VNegative | VBoth | VNone.

(** acorn_type.rs 21-35, [Variance::merge] *)
Definition merge (a b : variance) : variance :=
  match a, b with
  | VNone, v | v, VNone => v
  | VPositive, VPositive => VPositive
  | VNegative, VNegative => VNegative
  | VBoth, _ | _, VBoth => VBoth
  | VPositive, VNegative | VNegative, VPositive => VBoth
  end.

(** acorn_type.rs 37-42: a datatype is the module it was defined in and its name (here a number) *)
Definition datatype : Set := (nat * nat)%type.
Definition datatype_eq_dec (a b : datatype) : {a = b} + {a <> b}.
Proof. decide equality; apply Nat.eq_dec. Defined.
Definition datatype_eqb (a b : datatype) : bool := (fst a =? fst b) && (snd a =? snd b).

(** acorn_type.rs 1103-1157, [AcornType].  A type parameter (name and typeclass, 483-488) and a typeclass are numbers.  The value arguments of a
    [Family] are opaque numbers: none of the functions below looks into a value, except for equality. *)
Inductive atype :=
| ABool
| AData (d : datatype) (args : list atype)
| AFamily (d : datatype) (args : list darg)
| AFunction (args : list atype) (ret : atype)
| AVariable (p : nat)
| AArbitrary (p : nat)
| AType0
| AConstraint (c : nat)
with darg := TyArg (t : atype) | ValArg (v : nat).

(** the derived equality of [AcornType] *)
Fixpoint atype_eqb (a b : atype) {struct a} : bool :=
  let list_eqb := fix go l m := match l, m with [], [] => true | x :: l, y :: m => atype_eqb x y && go l m | _, _ => false end in
  match a, b with
  | ABool, ABool | AType0, AType0 => true
  | AData d l, AData e m => datatype_eqb d e && list_eqb l m
  | AFamily d l, AFamily e m =>
    datatype_eqb d e &&
    (fix go l m := match l, m with
       | [], [] => true
       | TyArg x :: l, TyArg y :: m => atype_eqb x y && go l m
       | ValArg x :: l, ValArg y :: m => (x =? y) && go l m
       | _, _ => false end) l m
  | AFunction l r, AFunction m s => list_eqb l m && atype_eqb r s
  | AVariable p, AVariable q | AArbitrary p, AArbitrary q | AConstraint p, AConstraint q => p =? q
  | _, _ => false
  end.

(** acorn_type.rs 1329-1335 and 404-438, [AcornType::functional] and [FunctionType::new]: a function type never returns a function type.
    [move_ambient_after_visible] (1455-1515) only changes value arguments and is left out. *)
Definition functional (args : list atype) (ret : atype) : atype :=
  match args with
  | [] => ret
  | _ => match ret with AFunction args' ret' => AFunction (args ++ args') ret' | _ => AFunction args ret end
  end.

(** binding_map.rs 3213-3215: the variances of a datatype, if they were computed *)
Definition table := list (datatype * option (list variance)).
Definition look_entry (tb : table) (d : datatype) : option (option (list variance)) :=
  option_map snd (find (fun e => datatype_eqb (fst e) d) tb).
(** binding_map.rs 1687-1692, [get_datatype_variances] *)
Definition look (tb : table) (d : datatype) : option (list variance) :=
  match look_entry tb d with Some v => v | None => None end.

Definition is_vnone (v : variance) : bool := match v with VNone => true | _ => false end.

(** acorn_type.rs 2217-2319, [compute_variance_with_lookup] *)
Fixpoint variance_of (tb : table) (p : nat) (pos : bool) (t : atype) : variance :=
  match t with
  | AVariable q | AArbitrary q => if q =? p then if pos then VPositive else VNegative else VNone
  | AData d args =>
    match look tb d with
    | Some vs =>
      (fix go (acc : variance) (args : list atype) (vs : list variance) : variance :=
         match args with
         | [] => acc
         | a :: r =>
           go (match vs with
               | VNegative :: _ => merge acc (variance_of tb p (negb pos) a)
               | VBoth :: _ => if is_vnone (variance_of tb p true a) then acc else merge acc VBoth
               | _ => merge acc (variance_of tb p pos a)
               end) r (tl vs)
         end) VNone args vs
    | None => fold_left (fun acc a => merge acc (variance_of tb p pos a)) args VNone
    end
  | AFamily _ args =>
    fold_left (fun acc a => match a with TyArg t => merge acc (variance_of tb p pos t) | ValArg _ => acc end) args VNone
  | AFunction args ret => merge (fold_left (fun acc a => merge acc (variance_of tb p (negb pos) a)) args VNone) (variance_of tb p pos ret)
  | ABool | AType0 | AConstraint _ => VNone
  end.

(** datatypes.rs 88-101 and 662-677: the variance of a parameter in a list of types *)
Definition variance_in (tb : table) (ts : list atype) (p : nat) : variance :=
  fold_left (fun acc t => merge acc (variance_of tb p true t)) ts VNone.

Definition same_datatype (a b : atype) : bool :=
  match a, b with AData d _, AData e _ => datatype_eqb d e | _, _ => false end.

(** datatypes.rs 1036-1070, [contains_inductive_type] *)
Fixpoint contains (ind t : atype) : bool :=
  atype_eqb t ind || same_datatype t ind ||
  match t with
  | AData _ args => existsb (contains ind) args
  | AFunction args ret => existsb (contains ind) args || contains ind ret
  | _ => false
  end.

(** datatypes.rs 975-1034, [check_strict_positivity] *)
Fixpoint strictly_positive (tb : table) (ind t : atype) : bool :=
  match t with
  | AData d args =>
    match look tb d with
    | Some vs =>
      (fix go (args : list atype) (vs : list variance) : bool :=
         match args with
         | [] => true
         | a :: r =>
           (negb (contains ind a) ||
            match vs with
            | VNegative :: _ | VBoth :: _ => false
            | VPositive :: _ | VNone :: _ => strictly_positive tb ind a
            | [] => true
            end) && go r (tl vs)
         end) args vs
    | None => forallb (fun a => negb (contains ind a) || strictly_positive tb ind a) args
    end
  | AFunction args ret => forallb (fun a => negb (contains ind a)) args && strictly_positive tb ind ret
  | _ => true
  end.

(** A structure or inductive declaration in module [m] with name [n] and type parameters [ps].
    [Structure]: [vals] is the number of value parameters.  Names, constraints, attributes and doc comments are left out. *)
Inductive item :=
| Import (m : nat)
| Structure (n : nat) (ps : list nat) (vals : nat) (fields : list atype)
| Inductive_ (n : nat) (ps : list nat) (ctors : list (list atype)).

(** the type being defined, at its own parameters (datatypes.rs 631-632) *)
Definition own_type (m n : nat) (ps : list nat) : atype := AData (m, n) (map AArbitrary ps).

(** datatypes.rs 634-654: some constructor does not take the type itself *)
Definition has_base (ind : atype) (ctors : list (list atype)) : bool :=
  existsb (fun ts => negb (existsb (fun t => atype_eqb t ind) ts)) ctors.

(** binding_map.rs 1694-1700, [set_datatype_variances] of a new datatype *)
Definition set_variances (tb : table) (d : datatype) (vs : list variance) : table := (d, Some vs) :: tb.

(** datatypes.rs 594-695: the checks of an inductive declaration.  The variances are computed when the new type has an entry without variances. *)
Definition add_inductive (m : nat) (tb : table) (n : nat) (ps : list nat) (ctors : list (list atype)) : option table :=
  let ind := own_type m n ps in
  let tb0 := ((m, n), None) :: tb in
  let tb1 := set_variances tb0 (m, n) (map (variance_in tb0 (concat ctors)) ps) in
  if has_base ind ctors && forallb (forallb (strictly_positive tb1 ind)) ctors then Some tb1 else None.

(** datatypes.rs 86-152: a structure declaration *)
Definition add_structure (m : nat) (tb : table) (n : nat) (ps : list nat) (fields : list atype) : table :=
  set_variances tb (m, n) (map (variance_in tb fields) ps).

(** binding_map.rs 1797-1831 and 3245-3304, [import_module] and [DatatypeDefinition::import]: a datatype without an entry gets a new one.  The variances
    are not among the copied data. *)
Definition import_table (tb other : table) : table :=
  fold_left (fun tb e => match look_entry tb (fst e) with Some _ => tb | None => (fst e, None) :: tb end) other tb.

(** the items of module [m], given the tables of the modules before it *)
Fixpoint run_items (tables : list table) (m : nat) (tb : table) (l : list item) : option table :=
  match l with
  | [] => Some tb
  | Import k :: r => run_items tables m (import_table tb (nth k tables [])) r
  | Structure n ps _ fields :: r => run_items tables m (add_structure m tb n ps fields) r
  | Inductive_ n ps ctors :: r => match add_inductive m tb n ps ctors with Some tb => run_items tables m tb r | None => None end
  end.
(** the modules of a project in the order of their dependencies: the tables, if all declarations are accepted *)
Fixpoint run_modules (tables : list table) (ms : list (list item)) : option (list table) :=
  match ms with
  | [] => Some tables
  | l :: r => match run_items tables (length tables) [] l with Some tb => run_modules (tables ++ [tb]) r | None => None end
  end.
Definition accepted (ms : list (list item)) : bool := match run_modules [] ms with Some _ => true | None => false end.
