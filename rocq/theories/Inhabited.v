(** Model of how the kernel decides that a type has elements (src/kernel/kernel_context.rs:186-520,
    src/kernel/symbol_table.rs:219-335).  The hash sets of instances and base classes appear as the choice the
    code makes from them. *)
From Coq Require Import List Arith NArith Bool.
Import ListNotations.
From Verif Require Import Term LocalContext Typing EqualityGraph.

Definition tid := (N * N)%type.
Definition tid_eqb (a b : tid) : bool := N.eqb (fst a) (fst b) && N.eqb (snd a) (snd b).
(** symbol_table.rs: [type_to_element], [inhabited_type_constructor_witnesses], [inhabited_typeclass_witnesses] *)
Record tables := Tables {
  t_element : list (term * symbol);
  t_ctor : list (tid * symbol);
  t_class : list (tid * symbol)
}.
Definition no_tables : tables := Tables [] [] [].
Fixpoint tid_get (g : tid) (l : list (tid * symbol)) : option symbol :=
  match l with [] => None | (h, s) :: r => if tid_eqb h g then Some s else tid_get g r end.
Fixpoint elem_get (T : term) (l : list (term * symbol)) : option symbol :=
  match l with [] => None | (U, s) :: r => if term_eqb U T then Some s else elem_get T r end.

(** symbol_table.rs:233-277: skip the parameters that are types; classes whose member is returned are noted *)
Definition atomic_variable (t : term) : option nat :=
  match t with TAtom (FreeVar i) | TAtom (BoundVar i) => Some i | _ => None end.
Fixpoint strip_kinds (s : symbol) (depth : nat) (t : term) (cl : list (tid * symbol)) : nat * term * list (tid * symbol) :=
  match t with
  | TBind KPi input output =>
    match head_atom input with
    | Sym SType0 => strip_kinds s (S depth) output cl
    | Sym (STypeclass m i) =>
      let hit := match atomic_variable output with Some j => Nat.eqb j depth | None => false end in
      let cl := if hit then match tid_get (m, i) cl with Some _ => cl | None => ((m, i), s) :: cl end else cl in
      strip_kinds s (S depth) output cl
    | _ => (depth, t, cl)
    end
  | _ => (depth, t, cl)
  end.
(** 284-287 *)
Fixpoint result_type (t : term) : term := match t with TBind KPi _ output => result_type output | _ => t end.
(** 233-308 [record_inhabited_type_constructor] *)
Definition record_constructor (tb : tables) (T : term) (s : symbol) : tables :=
  let '(depth, current, cl) := strip_kinds s 0 T (t_class tb) in
  let has_value_args := match current with TBind KPi _ _ => true | _ => false end in
  let ct := match head_atom (result_type current) with
            | Sym (SType m i) =>
              if Nat.ltb 0 depth then
                match tid_get (m, i) (t_ctor tb) with
                | Some _ => if has_value_args then t_ctor tb else ((m, i), s) :: t_ctor tb
                | None => ((m, i), s) :: t_ctor tb
                end
              else t_ctor tb
            | _ => t_ctor tb
            end in
  Tables (t_element tb) ct cl.
(** 220-227 [record_element] *)
Definition record_element (tb : tables) (s : symbol) (T : term) : tables :=
  let tb := record_constructor tb T s in
  match elem_get T (t_element tb) with
  | Some _ => tb
  | None => Tables ((T, s) :: t_element tb) (t_ctor tb) (t_class tb)
  end.

(** what is read from the type store: some instance of a class, the base classes, the class of an arbitrary type *)
Record store := Store {
  instance_of : tid -> option tid;
  bases : tid -> list tid;
  arbitrary_class : tid -> option tid
}.

Section Find.
Context (K : kctx) (tb : tables) (ts : store) (allow_local : bool).
Definition some_first {A B} (f : A -> option B) (l : list A) : option B :=
  fold_right (fun a r => match f a with Some b => Some b | None => r end) None l.
(** kernel_context.rs:479-491 [find_typeclass_provider] *)
Definition class_provider (tc : tid) : option symbol := some_first (fun c => tid_get c (t_class tb)) (tc :: bases ts tc).
(** 493-504 [find_type_witness_for_typeclass] *)
Definition class_instance (tc : tid) : option tid := some_first (instance_of ts) (tc :: bases ts tc).
(** 506-522 [find_local_typeclass_witness] *)
Fixpoint local_class_from (i : nat) (tc : tid) (c : lctx) : option term :=
  match c with
  | [] => None
  | Some (TSym (STypeclass m j)) :: r =>
    if tid_eqb (m, j) tc || k_extends K (m, j) tc then Some (TVar i) else local_class_from (S i) tc r
  | _ :: r => local_class_from (S i) tc r
  end.
Definition local_class_witness (tc : tid) (c : lctx) : option term := local_class_from 0 tc c.
(** 269-281: the type or class of a type variable *)
Definition constraint_of (T : term) (c : option lctx) : option term :=
  match head_atom T with
  | FreeVar i | BoundVar i => match c with Some c => get_var_type c i | None => None end
  | Sym (SScoped i) => Some (k_scoped K i)
  | _ => None
  end.
(** 436-449 *)
Fixpoint type_args (w wT : term) (l : list term) : option (term * term) :=
  match l with
  | [] => Some (w, wT)
  | a :: r =>
    match wT with
    | TBind KPi input _ =>
      if is_type_param_kind input then
        match type_apply_with_arg wT a with Some wT' => type_args (TApp w a) wT' r | None => None end
      else Some (w, wT)
    | _ => Some (w, wT)
    end
  end.
(** 455-477 *)
Fixpoint value_args (find : term -> res (option term)) (n : nat) (w wT target : term) : res (option term) :=
  match n with
  | 0 => NoFuel
  | S n =>
    match wT with
    | TBind KPi input _ =>
      if is_type_param_kind input then Ok None else
      do o <- find input;
      match o with
      | None => Ok None
      | Some a =>
        match type_apply_with_arg wT a with
        | None => Ok None
        | Some wT' => if term_eqb wT' target then Ok (Some (TApp w a)) else value_args find n (TApp w a) wT' target
        end
      end
    | _ => Ok (if term_eqb wT target then Some w else None)
    end
  end.
(** 424-477 [instantiate_type_constructor_witness] *)
Definition constructor_witness (find : term -> res (option term)) (n : nat) (p : symbol) (target : term) : res (option term) :=
  match type_args (TSym p) (symbol_type K p) (args target) with
  | None => Ok None
  | Some (w, wT) => if term_eqb wT target then Ok (Some w) else value_args find n w wT target
  end.
(** the provider of an arbitrary type's class, applied to the type (322-345) *)
Definition arbitrary_witness (g : tid) (T : term) : option term :=
  match arbitrary_class ts g with
  | Some tc => option_map (fun p => TApp (TSym p) T) (class_provider tc)
  | None => None
  end.
(** 264-366: types that are no products *)
Definition find_other (find : term -> res (option term)) (n : nat) (c : option lctx) (T : term) : res (option term) :=
  let by_element_or_head :=
    let local s := match s with SScoped _ => true | _ => false end in
    match elem_get T (t_element tb) with
    | Some s => if allow_local || negb (local s) then Some s else None
    | None => None
    end in
  let rest :=
    match by_element_or_head with
    | Some s => Ok (Some (TSym s))
    | None =>
      match head_atom T with
      | Sym SBool => Ok (Some ttrue)
      | Sym SType0 => Ok (Some tbool)
      | Sym (SType m i) =>
        match tid_get (m, i) (t_ctor tb) with
        | Some p =>
          do o <- constructor_witness (find) n p T;
          Ok (match o with Some w => Some w | None => arbitrary_witness (m, i) T end)
        | None => Ok (arbitrary_witness (m, i) T)
        end
      | Sym (STypeclass m i) =>
        let other := option_map (fun g : tid => TSym (SType (fst g) (snd g))) (class_instance (m, i)) in
        Ok (match c with
            | Some c => match local_class_witness (m, i) c with Some w => Some w | None => other end
            | None => other
            end)
      | _ => Ok None
      end
    end in
  match constraint_of T c with
  | Some (TSym SType0) => Ok None
  | Some (TSym (STypeclass m i)) => Ok (option_map (fun p => TApp (TSym p) T) (class_provider (m, i)))
  | _ => rest
  end.
(** 222-366 [find_inhabitant_with_seen] *)
Fixpoint find_inhabitant (n : nat) (c : option lctx) (seen : list term) (T : term) : res (option term) :=
  match n with
  | 0 => NoFuel
  | S n =>
    if existsb (fun t => term_eqb t T) seen then Ok None else
    let seen := T :: seen in
    match T with
    | TBind KPi domain codomain =>
      if references_bound 0 codomain then Ok None else
      do shifted <- unwrap (shift_down 1 1 codomain);
      if term_eqb domain shifted then Ok (Some (TBind KLam domain (TBound 0))) else
      do o <- find_inhabitant n c seen shifted;
      Ok (option_map (fun w => TBind KLam domain (shift_up 0 1 w)) o)
    | _ =>
      find_other (find_inhabitant n c seen) n c T
    end
  end.
(** 386-397 [resolve_typeclass_constraint]; a chain longer than the context has a cycle *)
Fixpoint class_of (n : nat) (c : lctx) (T : term) : res (option tid) :=
  match n with
  | 0 => NoFuel
  | S n =>
    match T with
    | TSym (STypeclass m i) => Ok (Some (m, i))
    | TVar i => match get_var_type c i with Some U => class_of n c U | None => Ok None end
    | _ => Ok None
    end
  end.
(** 380-421 [provably_inhabited_with_options] *)
Definition provably_inhabited (n : nat) (T : term) (c : option lctx) : res bool :=
  do o <- find_inhabitant n c [] T;
  match o, c with
  | Some _, _ => Ok true
  | None, None => Ok false
  | None, Some lc =>
    do tc <- class_of n lc T;
    match tc with
    | None => Ok false
    | Some tc =>
      match class_instance tc with
      | None => Ok false
      | Some g =>
        do o <- find_inhabitant n None [] (TSym (SType (fst g) (snd g)));
        Ok (match o with Some _ => true | None => false end)
      end
    end
  end.
End Find.
