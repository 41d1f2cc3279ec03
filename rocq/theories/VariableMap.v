(** Model of src/kernel/variable_map.rs and of [canonicalize_instance_calls] (kernel_context.rs). *)
From Coq Require Import List Arith NArith Bool.
Import ListNotations.
From Verif Require Import Term LocalContext Kbo Literal Clause Typing.

(** 59-61 *)
Definition vmap := list (option term).

(** 139-146, 426-428 [get_mapping], [get] *)
Definition vget (m : vmap) (i : nat) : option term :=
  match nth_error m i with Some (Some t) => Some t | _ => None end.
(** 430-436 [set] *)
Fixpoint vset (m : vmap) (i : nat) (t : term) : vmap :=
  match i, m with
  | 0, [] => [Some t]
  | 0, _ :: r => Some t :: r
  | S j, [] => None :: vset [] j t
  | S j, x :: r => x :: vset r j t
  end.
(** [resize(var_id + 1, None)] *)
Definition vresize (m : vmap) (n : nat) : vmap := m ++ repeat None (n - length m).

(** 778-815 [apply_to_term] *)
Fixpoint apply_to_term (m : vmap) (t : term) : term :=
  match t with
  | TAtom (FreeVar i) => match vget m i with Some r => r | None => t end
  | TAtom _ => t
  | TApp f a => TApp (apply_to_term m f) (apply_to_term m a)
  | TBind k A b => TBind k (apply_to_term m A) (apply_to_term m b)
  end.
(** 499-561 [specialize_term], the same recursion; its contexts are only passed along *)
Fixpoint specialize_term (m : vmap) (t : term) : term :=
  match t with
  | TAtom (FreeVar i) => match vget m i with Some r => r | None => t end
  | TAtom _ => t
  | TApp f a => apply (specialize_term m f) [specialize_term m a]
  | TBind k A b => TBind k (specialize_term m A) (specialize_term m b)
  end.

(** 86-92 [from_var_ids] *)
Definition from_var_ids (ids : list nat) : vmap :=
  fst (fold_left (fun '(m, i) old => (vset m old (TVar i), S i)) ids ([], 0)).

(** 480-494 [compose] *)
Fixpoint compose_from (i : nat) (self other res : vmap) : vmap :=
  match self with
  | [] => res
  | None :: r => compose_from (S i) r other res
  | Some t :: r => compose_from (S i) r other (vset res i (specialize_term other t))
  end.
Definition compose (self other : vmap) : vmap := compose_from 0 self other [].

(** term.rs:2258-2277 [collect_vars] with the types found in [c]; [None] is the panic *)
Fixpoint collect_typed (c : lctx) (l : list nat) : option (list (nat * term)) :=
  match l with
  | [] => Some []
  | v :: r =>
    match get_var_type c v, collect_typed c r with
    | Some T, Some r' => Some ((v, T) :: r')
    | _, _ => None
    end
  end.
(** 114-124 [build_output_context] with [f = apply_to_term m], 126-137
    [build_output_context_from_replacement_context] with the identity *)
Definition set_types (f : term -> term) (l : list (nat * term)) (out : lctx) : lctx :=
  fold_left (fun o '(v, T) => set_type o v (f T)) l out.
Fixpoint output_context_from (f : term -> term) (c : lctx) (m : vmap) (out : lctx) : option lctx :=
  match m with
  | [] => Some out
  | None :: r => output_context_from f c r out
  | Some t :: r =>
    match collect_typed c (vars t) with
    | None => None
    | Some l => output_context_from f c r (set_types f l out)
    end
  end.
Definition build_output_context (m : vmap) (c : lctx) : option lctx := output_context_from (apply_to_term m) c m [].
Definition build_output_context_from_replacement_context (m : vmap) (c : lctx) : option lctx :=
  output_context_from (fun T => T) c m [].
(** 604-611, 647-655: unmapped variables keep their types *)
Definition keep_unmapped (m : vmap) (c out : lctx) : lctx :=
  fold_left (fun o i =>
    match vget m i with
    | Some _ => o
    | None => match get_var_type c i with Some T => set_type o i T | None => o end
    end) (seq 0 (length c)) out.

(** kernel_context.rs:86-135: the registered instance aliases.  [al_params] gives the number of
    type parameters of a typeclass attribute without value parameters, [al_lookup] is
    [lookup_instance_alias_by_keys] after [type_term_to_acorn_type]. *)
Record aliases := {
  al_params : symbol -> option nat;
  al_lookup : symbol -> list term -> option symbol
}.
(** 141-153 [looks_like_type_term] *)
Definition looks_like_type_term (t : term) : bool :=
  forallb (fun a => match a with
                    | Sym (SBool | SType0 | SType _ _ | STypeclass _ _) | BoundVar _ | FreeVar _ => true
                    | _ => false end) (atoms t).
(** 86-135 [try_canonicalize_typeclass_call] *)
Definition try_canonicalize (al : aliases) (h : term) (l : list term) : option term :=
  match h with
  | TSym (SGlobal m i) =>
    match al_params al (SGlobal m i) with
    | None | Some 0 => None
    | Some n =>
      if Nat.ltb (length l) n then None else
      if existsb (fun t => negb (looks_like_type_term t)) (firstn n l) then None else
      match al_lookup al (SGlobal m i) (firstn n l) with
      | None => None
      | Some s => Some (apply (TSym s) (skipn n l))
      end
    end
  | _ => None
  end.
(** 40-84 [canonicalize_instance_calls].  [canon_parts] gives the spine head, its canonical form and
    the canonical arguments. *)
Definition canon_finish (al : aliases) (p : term * term * list term) : term :=
  let '(h, ch, l) := p in
  match l with
  | [] => ch
  | _ => match try_canonicalize al h l with Some t => t | None => apply ch l end
  end.
Fixpoint canon_parts (al : aliases) (t : term) : term * term * list term :=
  match t with
  | TAtom _ => (t, t, [])
  | TBind k A b => (t, TBind k (canon_finish al (canon_parts al A)) (canon_finish al (canon_parts al b)), [])
  | TApp f a => let '(h, ch, l) := canon_parts al f in (h, ch, l ++ [canon_finish al (canon_parts al a)])
  end.
Definition canonicalize (al : aliases) (t : term) : term := canon_finish al (canon_parts al t).

(** 566-594 [specialize_literal] *)
Definition specialize_literal (al : aliases) (m : vmap) (l : literal) : literal :=
  lit_new (positive l) (canonicalize al (specialize_term m (left l))) (canonicalize al (specialize_term m (right l))).
(** 599-617 [specialize_clause] *)
Definition specialize_clause (al : aliases) (m : vmap) (cl : clause) : option clause :=
  option_map (fun out => Clause (map (specialize_literal al m) (literals cl)) (keep_unmapped m (context cl) out))
    (build_output_context m (context cl)).
(** 636-662 [specialize_clause_with_replacement_context] *)
Definition specialize_clause_with_replacement_context (al : aliases) (m : vmap) (cl : clause) (rc : lctx) : option clause :=
  option_map (fun out => Clause (map (specialize_literal al m) (literals cl)) (keep_unmapped m (context cl) out))
    (build_output_context_from_replacement_context m rc).
(** 624-631, 668-676: followed by [compacted_var_ids_preserving_literal_shape] *)
Definition specialize_clause_compact (al : aliases) (m : vmap) (cl : clause) : option clause :=
  match specialize_clause al m cl with None => None | Some c => compact_var_ids c end.

(** 150-162 [match_var] *)
Definition match_var (m : vmap) (i : nat) (s : term) : bool * vmap :=
  let m' := vresize m (S i) in
  match vget m' i with
  | None => (true, vset m' i s)
  | Some g => (term_eqb g s, m')
  end.

(** 64-76 [split_eq_args] *)
Definition split_eq_args (t : term) : option (term * term * term) :=
  match t with
  | TApp (TApp (TApp (TAtom (Sym SEq)) ty) a) b => Some (ty, a, b)
  | _ => None
  end.

(** 12-19 [resolve_typeclass_constraint]; a chain longer than the context has a cycle, on which the
    code does not return *)
Fixpoint resolve_tc (n : nat) (t : term) (c : lctx) : option (N * N) :=
  match n with
  | 0 => None
  | S n =>
    match t with
    | TSym (STypeclass m i) => Some (m, i)
    | TVar v => match get_var_type c v with Some T => resolve_tc n T c | None => None end
    | _ => None
    end
  end.
Definition resolve_typeclass_constraint (t : term) (c : lctx) : option (N * N) := resolve_tc (S (S (length c))) t c.
(** 32-55 [type_term_satisfies_typeclass_constraint] *)
Definition satisfies_typeclass (K : kctx) (t : term) (c : lctx) (tc : N * N) : bool :=
  if k_instance K t c tc then true else
  match t with
  | TVar v =>
    match get_var_type c v with
    | None => false
    | Some T =>
      match resolve_typeclass_constraint T c with
      | None => false
      | Some a => tc_eqb a tc || k_extends K a tc
      end
    end
  | _ => false
  end.

(** 254-290: a free variable against a term; [None] is a panic *)
Definition match_free (K : kctx) (gc sc : lctx) (m : vmap) (i : nat) (s : term) : option (bool * vmap) :=
  if has_escaping_bound_variable s then Some (false, m) else
  match get_var_type gc i with
  | None => None
  | Some T =>
    let mT := apply_to_term m T in
    match get_type K sc s with
    | None => None
    | Some sT =>
      if term_eqb mT sT || (term_eqb mT type0 && is_type_param_kind sT)
         || match mT with TSym (STypeclass _ _) => true | _ => false end
      then
        if match resolve_typeclass_constraint T gc with
           | Some tc => satisfies_typeclass K sT sc tc
           | None => true
           end
        then Some (match_var m i s) else Some (false, m)
      else Some (false, m)
    end
  end.

(** The [&&] of two matches. *)
Definition match_and (r : option (bool * vmap)) (k : vmap -> option (bool * vmap)) : option (bool * vmap) :=
  match r with
  | Some (true, m) => k m
  | other => other
  end.

(** 172-416 [match_terms].  The flag is the returned boolean, the map is what [self] has become. *)
Fixpoint match_terms (K : kctx) (gc sc : lctx) (m : vmap) (g s : term) {struct g} : option (bool * vmap) :=
  let structural :=
    match g with
    | TAtom (FreeVar i) => match_free K gc sc m i s
    | TAtom a => match s with TAtom b => Some (if atom_eq_dec a b then true else false, m) | _ => Some (false, m) end
    | TApp gf ga =>
      match s with
      | TApp sf sa => match_and (match_terms K gc sc m gf sf) (fun m => match_terms K gc sc m ga sa)
      | _ => Some (false, m)
      end
    | TBind k gA gb =>
      match s with
      | TBind k' sA sb =>
        if bkind_eq_dec k k' then
          match_and (match_terms K gc sc m gA sA) (fun m =>
            match_terms K (push_type gc (apply_to_term m gA)) (push_type sc sA) m gb sb)
        else Some (false, m)
      | _ => Some (false, m)
      end
    end in
  match g with
  | TApp (TApp (TApp (TAtom (Sym SEq)) gT) g1) g2 =>
    match split_eq_args s with
    | None => structural
    | Some (sT, s1, s2) =>
      match match_and (match_terms K gc sc m gT sT) (fun m =>
            match_and (match_terms K gc sc m g1 s1) (fun m => match_terms K gc sc m g2 s2)) with
      | None => None
      | Some (true, m') => Some (true, m')
      | Some (false, _) =>
        match match_and (match_terms K gc sc m gT sT) (fun m =>
              match_and (match_terms K gc sc m g1 s2) (fun m => match_terms K gc sc m g2 s1)) with
        | None => None
        | Some (true, m') => Some (true, m')
        | Some (false, _) => Some (false, m)
        end
      end
    end
  | _ => structural
  end.

(** 692-727 [match_term_no_type_check] *)
Fixpoint match_untyped (m : vmap) (g s : term) : bool * vmap :=
  match g with
  | TAtom (FreeVar i) => if has_escaping_bound_variable s then (false, m) else match_var m i s
  | TAtom a => match s with TAtom b => (if atom_eq_dec a b then true else false, m) | _ => (false, m) end
  | TApp gf ga =>
    match s with
    | TApp sf sa => let '(b, m1) := match_untyped m gf sf in if b then match_untyped m1 ga sa else (false, m1)
    | _ => (false, m)
    end
  | TBind k gA gb =>
    match s with
    | TBind k' sA sb =>
      if bkind_eq_dec k k' then
        let '(b, m1) := match_untyped m gA sA in if b then match_untyped m1 gb sb else (false, m1)
      else (false, m)
    | _ => (false, m)
    end
  end.

(** 729-761 [match_terms_no_type_check]: equalities at the top only are tried in both directions;
    recursively in their parts *)
Fixpoint match_untyped_eq (m : vmap) (g s : term) {struct g} : bool * vmap :=
  match g with
  | TApp (TApp (TApp (TAtom (Sym SEq)) gT) g1) g2 =>
    match split_eq_args s with
    | None => match_untyped m g s
    | Some (sT, s1, s2) =>
      let '(b, m1) := match_untyped_eq m gT sT in
      let '(b, m2) := if b then match_untyped_eq m1 g1 s1 else (false, m1) in
      let '(b, m3) := if b then match_untyped_eq m2 g2 s2 else (false, m2) in
      if b then (true, m3) else
      let '(b, m1) := match_untyped_eq m gT sT in
      let '(b, m2) := if b then match_untyped_eq m1 g1 s2 else (false, m1) in
      let '(b, m3) := if b then match_untyped_eq m2 g2 s1 else (false, m2) in
      if b then (true, m3) else (false, m)
    end
  | _ => match_untyped m g s
  end.

(** literal.rs [is_signed_term] is in Literal.v; 763-776 [match_literal] *)
Definition match_literal (m : vmap) (g s : literal) (flipped : bool) : bool * vmap :=
  let both a b c d := let '(x, m1) := match_untyped m a b in if x then match_untyped m1 c d else (false, m1) in
  if is_signed_term g && is_signed_term s then match_untyped m (left g) (left s)
  else if flipped then both (left g) (right s) (right g) (left s)
  else both (left g) (left s) (right g) (right s).

(** checker.rs:941-990 [literals_match_with_var_map] *)
Definition literals_match (K : kctx) (gc sc : lctx) (m : vmap) (g s : literal) : option (bool * vmap) :=
  if negb (Bool.eqb (positive g) (positive s)) then Some (false, m) else
  match match_and (match_terms K gc sc m (left g) (left s)) (fun m => match_terms K gc sc m (right g) (right s)) with
  | None => None
  | Some (true, m') => Some (true, m')
  | Some (false, _) =>
    match match_and (match_terms K gc sc m (left g) (right s)) (fun m => match_terms K gc sc m (right g) (left s)) with
    | None => None
    | Some (true, m') => Some (true, m')
    | Some (false, _) => Some (false, m)
    end
  end.

(** checker.rs:1000-1054: [match_from]; [avail] are the special literals not used yet, with what was
    tried before in front *)
Fixpoint match_from (K : kctx) (gc sc : lctx) (m : vmap) (gs : list literal) (avail : list literal) {struct gs}
  : option (option vmap) :=
  match gs with
  | [] => Some (Some m)
  | g :: gr =>
    (fix try (pre post : list literal) : option (option vmap) :=
       match post with
       | [] => Some None
       | s :: r =>
         match literals_match K gc sc m g s with
         | None => None
         | Some (false, _) => try (pre ++ [s]) r
         | Some (true, m') =>
           match match_from K gc sc m' gr (pre ++ r) with
           | None => None
           | Some (Some m'') => Some (Some m'')
           | Some None => try (pre ++ [s]) r
           end
         end
       end) [] avail
  end.
(** checker.rs:992-1054 [clause_matches_with_var_map]: [Some (Some m)] is success with [m] *)
Definition clause_matches (K : kctx) (g s : clause) : option (option vmap) :=
  if negb (Nat.eqb (length (literals g)) (length (literals s))) then Some None else
  match_from K (context g) (context s) [] (literals g) (literals s).
