(** Model of the facts that blocks export: src/elaborator/block.rs (240-640), the forall, if and match statements
    (src/elaborator/environment/add_statement/blocks.rs, src/elaborator/environment/mod.rs 445-505), theorem statements
    (src/elaborator/environment/add_statement/definitions.rs 1166-1250) and the operations on values that they use
    (src/elaborator/acorn_value.rs, src/elaborator/binding_map.rs 2898-2952).

    Simplified: a constant is its module, its name as a string (here a number, so that names are ordered) and its instance
    type; type parameters and arguments bound in types (families) are left out, so that types contain no values, no
    operation changes them, and [to_arbitrary] does nothing.  Line numbers, sources and node lines are left out. *)
From Coq Require Import List Arith Bool.
Import ListNotations.

(** acorn_type.rs: only compared and given to the interpretation *)
Definition atype := nat.

(** acorn_value.rs 207-213 *)
Inductive bop := BImplies | BEquals | BNotEquals | BAnd | BOr.

(** acorn_value.rs 727-773.  Variables are stack levels.  A case of a match is the types of its variables, the pattern and
    the result. *)
Inductive aval :=
| AVar (i : nat) (t : atype)
| AConst (m n : nat) (t : atype)
| AApp (f : aval) (args : list aval)
| ATypeApp (f : aval) (ts : list atype)
| ALambda (ts : list atype) (v : aval)
| ABinary (op : bop) (l r : aval)
| ANot (v : aval)
| ATry (v : aval) (t : atype)
| AForAll (ts : list atype) (v : aval)
| AExists (ts : list atype) (v : aval)
| AGrouping (v : aval)
| ABool (b : bool)
| AIte (c a b : aval)
| AMatch (s : aval) (cases : list (list atype * aval * aval)).

(** acorn_value.rs 1094-1109 *)
Definition a_forall (ts : list atype) (v : aval) : aval := match ts with [] => v | _ => AForAll ts v end.
Definition a_exists (ts : list atype) (v : aval) : aval := match ts with [] => v | _ => AExists ts v end.

(** acorn_value.rs 1236-1249 *)
Fixpoint negate (v : aval) : aval :=
  match v with
  | AGrouping x => AGrouping (negate x)
  | ANot x => x
  | ABinary BEquals x y => ABinary BNotEquals x y
  | ABinary BNotEquals x y => ABinary BEquals x y
  | ABool b => ABool (negb b)
  | _ => ANot v
  end.

(** acorn_value.rs 3210-3224; [None] is the panic *)
Definition reduce (op : bop) (l : list aval) : option aval :=
  match l with [] => None | v :: l => Some (fold_left (ABinary op) l v) end.

(** acorn_value.rs 1514-1637: the index stays the same below binders, since they push at the end of the stack *)
Fixpoint insert_stack (index inc : nat) (v : aval) : aval :=
  match v with
  | AVar i t => if i <? index then AVar i t else AVar (i + inc) t
  | AConst m n t => AConst m n t
  | AApp f args => AApp (insert_stack index inc f) (map (insert_stack index inc) args)
  | ATypeApp f ts => ATypeApp (insert_stack index inc f) ts
  | ALambda ts v => ALambda ts (insert_stack index inc v)
  | ABinary op l r => ABinary op (insert_stack index inc l) (insert_stack index inc r)
  | ANot v => ANot (insert_stack index inc v)
  | ATry v t => ATry (insert_stack index inc v) t
  | AForAll ts v => AForAll ts (insert_stack index inc v)
  | AExists ts v => AExists ts (insert_stack index inc v)
  | AGrouping v => AGrouping (insert_stack index inc v)
  | ABool b => ABool b
  | AIte c a b => AIte (insert_stack index inc c) (insert_stack index inc a) (insert_stack index inc b)
  | AMatch s cases => AMatch (insert_stack index inc s)
      (map (fun c => match c with (ts, p, r) => (ts, insert_stack index inc p, insert_stack index inc r) end) cases)
  end.

(** acorn_value.rs 1912-2145 with base stack 0, where the replacement is not moved *)
Fixpoint replace_constants (rep : nat -> nat -> atype -> option aval) (v : aval) : aval :=
  match v with
  | AVar i t => AVar i t
  | AConst m n t => match rep m n t with Some x => x | None => AConst m n t end
  | AApp f args => AApp (replace_constants rep f) (map (replace_constants rep) args)
  | ATypeApp f ts => ATypeApp (replace_constants rep f) ts
  | ALambda ts v => ALambda ts (replace_constants rep v)
  | ABinary op l r => ABinary op (replace_constants rep l) (replace_constants rep r)
  | ANot v => ANot (replace_constants rep v)
  | ATry v t => ATry (replace_constants rep v) t
  | AForAll ts v => AForAll ts (replace_constants rep v)
  | AExists ts v => AExists ts (replace_constants rep v)
  | AGrouping v => AGrouping (replace_constants rep v)
  | ABool b => ABool b
  | AIte c a b => AIte (replace_constants rep c) (replace_constants rep a) (replace_constants rep b)
  | AMatch s cases => AMatch (replace_constants rep s)
      (map (fun c => match c with (ts, p, r) => (ts, replace_constants rep p, replace_constants rep r) end) cases)
  end.

(** acorn_value.rs 1328-1500.  The assertion [stack_size >= first_binding_index] holds for the calls of the model, where
    [first] is 0. *)
Fixpoint bind_values (first stack : nat) (vals : list aval) (v : aval) : aval :=
  match v with
  | AVar i t =>
      if i <? first then AVar i t
      else if i <? first + length vals then insert_stack first (stack - first) (nth (i - first) vals (ABool false))
      else AVar (i - length vals) t
  | AConst m n t => AConst m n t
  | AApp f args => AApp (bind_values first stack vals f) (map (bind_values first stack vals) args)
  | ATypeApp f ts => ATypeApp (bind_values first stack vals f) ts
  | ALambda ts v => ALambda ts (bind_values first (stack + length ts) vals v)
  | ABinary op l r => ABinary op (bind_values first stack vals l) (bind_values first stack vals r)
  | ANot v => ANot (bind_values first stack vals v)
  | ATry v t => ATry (bind_values first stack vals v) t
  | AForAll ts v => AForAll ts (bind_values first (stack + length ts) vals v)
  | AExists ts v => AExists ts (bind_values first (stack + length ts) vals v)
  | AGrouping v => AGrouping (bind_values first stack vals v)
  | ABool b => ABool b
  | AIte c a b => AIte (bind_values first stack vals c) (bind_values first stack vals a) (bind_values first stack vals b)
  | AMatch s cases => AMatch (bind_values first stack vals s)
      (map (fun c => match c with (ts, p, r) => (ts, bind_values first (stack + length ts) vals p, bind_values first (stack + length ts) vals r) end) cases)
  end.

(** The [BTreeMap] of block.rs 565: sorted by the name, the last type of a name stays. *)
Fixpoint bt_insert (n : nat) (t : atype) (l : list (nat * atype)) : list (nat * atype) :=
  match l with
  | [] => [(n, t)]
  | (k, u) :: r => if n <? k then (n, t) :: l else if n =? k then (n, t) :: r else (k, u) :: bt_insert n t r
  end.

Section Export.
  (** binding_map.rs: the module, [constant_defs] of the outer environment for names of this module, and which names are
      those of instance attributes ([Typeclass.attribute[Datatype]], names.rs 48-56) *)
  Context (module : nat) (known inst : nat -> bool).

  (** binding_map.rs 2898-2952 *)
  Fixpoint unknown_constants (v : aval) (acc : list (nat * atype)) : list (nat * atype) :=
    match v with
    | AVar _ _ | ABool _ => acc
    | AConst m n t => if inst n then acc else if (m =? module) && negb (known n) then bt_insert n t acc else acc
    | AApp f args => fold_left (fun acc a => unknown_constants a acc) args (unknown_constants f acc)
    | ATypeApp f _ => unknown_constants f acc
    | ALambda _ v | AForAll _ v | AExists _ v | AGrouping v | ANot v | ATry v _ => unknown_constants v acc
    | ABinary _ l r => unknown_constants r (unknown_constants l acc)
    | AIte c a b => unknown_constants b (unknown_constants a (unknown_constants c acc))
    | AMatch s cases => fold_left (fun acc c => match c with (_, p, r) => unknown_constants r (unknown_constants p acc) end) cases (unknown_constants s acc)
    end.

  (** block.rs 584-593: the position of the last entry with a name, as later entries of the [HashMap] replace earlier ones *)
  Fixpoint position (n : nat) (l : list nat) : option nat :=
    match l with
    | [] => None
    | k :: r => match position n r with Some i => Some (S i) | None => if n =? k then Some 0 else None end
    end.

  (** block.rs 553-609 *)
  Definition externalize_bool (args : list (nat * atype)) (v : aval) : aval :=
    let exs := filter (fun e => negb (existsb (Nat.eqb (fst e)) (map fst args))) (unknown_constants v []) in
    let names := map fst args ++ map fst exs in
    let replaced := replace_constants
      (fun m n t => if m =? module then option_map (fun i => AVar i t) (position n names) else None)
      (insert_stack 0 (length names) v) in
    a_forall (map snd args) (a_exists (map snd exs) replaced).

  (** blocks.rs 34-38: the fact of a forall statement, whose block ends with the claim [v] *)
  Definition forall_statement (args : list (nat * atype)) (v : aval) : aval := externalize_bool args v.

  (** Equality of values (derived in the code) is an oracle of the following definitions. *)
  Context (aval_eqb : aval -> aval -> bool).

  (** environment/mod.rs 449-505: [None] for an empty body; the exported fact and the claim for the else branch *)
  Definition add_conditional (condition : aval) (body : option aval) (if_claim : option aval) : option (aval * option aval) :=
    option_map (fun v =>
      let outer := externalize_bool [] v in
      if match if_claim with Some c => aval_eqb outer c | None => false end then (outer, None)
      else (ABinary BImplies condition outer, Some outer)) body.

  (** blocks.rs 45-78: the exported facts; the bodies are given by their last claims, [None] for an empty one *)
  Definition if_statement (condition : aval) (body : option aval) (else_body : option (option aval)) : list aval :=
    let first := add_conditional condition body None in
    let if_claim := match first with Some (_, c) => c | None => None end in
    let second := match else_body with Some b => add_conditional (negate condition) b if_claim | None => None end in
    map fst (match first with Some x => [x] | None => [] end ++ match second with Some x => [x] | None => [] end).

  (** blocks.rs 94-134: a case is the index of its constructor, the number of constructors and the last claim of its block;
      [None] is an error, for duplicate patterns or missing cases *)
  Fixpoint match_loop (all : nat) (cases : list (nat * nat * aval)) (indices : list nat) (disjuncts : list aval) : option aval :=
    match cases with
    | [] => None
    | (i, total, v) :: rest =>
        if existsb (Nat.eqb i) indices then None
        else
          let indices := indices ++ [i] in
          let disjuncts := disjuncts ++ [externalize_bool [] v] in
          if (total =? length indices) && (all <=? total) then reduce BOr disjuncts
          else match_loop all rest indices disjuncts
    end.
  Definition match_statement (cases : list (nat * nat * aval)) : option aval := match_loop (length cases) cases [] [].

  (** block.rs 275-292: the arguments as constants *)
  Definition internal_args (args : list (nat * atype)) : list aval := map (fun a => AConst module (fst a) (snd a)) args.

  (** definitions.rs 1172, 1181-1195 and block.rs 160-165, 345-370: the fact of a theorem, and the premise and the goal of its block *)
  Definition theorem_fact (args : list (nat * atype)) (claim : aval) : aval := a_forall (map snd args) claim.
  Definition theorem_block (args : list (nat * atype)) (claim : aval) : option aval * aval :=
    let bound v := bind_values 0 0 (internal_args args) v in
    match claim with
    | ABinary BImplies l r => (Some (bound l), bound r)
    | c => (None, bound c)
    end.
  (** block.rs 405-432: the premise of the block of a case *)
  Definition match_premise (scrutinee constructor : aval) (args : list (nat * atype)) : aval :=
    ABinary BEquals scrutinee (match args with [] => constructor | _ => AApp constructor (internal_args args) end).
End Export.
