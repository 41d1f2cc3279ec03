(** Model of the inferences of the search that use more than one clause: resolution and rewriting
    (src/prover/active_set.rs, src/kernel/proof_step.rs) and simplification with known literals
    (src/prover/active_set.rs, src/prover/passive_set.rs).  Only the clauses of the steps are modelled, not the
    records from which certificates are made, nor truthiness, depth and scores.  The outer [None] of an
    [option (option _)] is a panic or the end of the fuel, the inner one means that there is no result. *)
From Coq Require Import List Arith NArith Bool.
Import ListNotations.
From Verif Require Import VariableMap Unifier Inference ClauseSet EqualityGraph Checker.
From Verif Require Import Term LocalContext Kbo Typing Literal Clause Pdt.

(** term.rs:2577-2604 [replace_at_path] *)
Fixpoint replace_at_path (t : term) (p : list path_step) (r : term) : option term :=
  match p with
  | [] => Some r
  | s :: p' =>
    match t, s with
    | TApp f a, PArg => option_map (TApp f) (replace_at_path a p' r)
    | TApp f a, PFun => option_map (fun f' => TApp f' a) (replace_at_path f p' r)
    | _, _ => None
    end
  end.

(** active_set.rs:279-286 [clause_is_well_typed] *)
Definition clause_is_well_typed (K : kctx) (c : clause) : bool :=
  forallb (fun l =>
    match checked_type K (context c) (left l), checked_type K (context c) (right l) with
    | Some a, Some b => term_eqb a b
    | _, _ => false
    end) (literals c).

(** [Unifier::apply] on the literals, with the scope of the clause *)
Fixpoint uapply_scope (n : nat) (st : ustate) (s : nat) (l : list literal) : option (list literal * ustate) :=
  match l with
  | [] => Some ([], st)
  | x :: r =>
    match uapply_literal n st s x with
    | None => None
    | Some (x', st1) =>
      match uapply_scope n st1 s r with
      | None => None
      | Some (r', st2) => Some (x' :: r', st2)
      end
    end
  end.

Definition two_scopes (a b : lctx) : ustate := set_input_context (set_input_context (unifier_new 3) 1 a) 2 b.

(** [position] of active_set.rs:638 *)
Fixpoint index_of (l : literal) (ls : list literal) : option nat :=
  match ls with
  | [] => None
  | x :: r => if literal_eqb x l then Some 0 else option_map S (index_of l r)
  end.
Fixpoint numbered {A} (i : nat) (l : list A) : list (nat * A) :=
  match l with [] => [] | x :: r => (i, x) :: numbered (S i) r end.
Definition without {A} (i : nat) (l : list A) : list A := firstn i l ++ skipn (S i) l.

Section Search.
Context (K : kctx) (ts : tstore).
(** Whether an element is found for every variable that is dropped by the renumbering
    (active_set.rs:477-501 [witness_map_for_eliminated_vars]) *)
Context (witnessed : lctx -> list nat -> bool).
(** kernel_context.rs [provably_inhabited] and [provably_inhabited_without_local_elements] *)
Context (inhabited : term -> lctx -> bool).

(** ** Resolution *)
(** active_set.rs:607-650: what is tested before unification *)
Definition two_long_ok (short long : clause) : bool :=
  negb (Nat.ltb 1 (length (literals short))) ||
  (Nat.eqb (length (literals short)) 2 && Nat.eqb (length (literals long)) 2 &&
   negb (clause_has_any_variable short) && negb (clause_has_any_variable long)).
Definition others_found (short long : clause) (si li : nat) : bool :=
  forallb (fun p =>
    Nat.eqb (fst p) si ||
    (negb (lit_has_any_variable (snd p)) &&
     match index_of (snd p) (literals long) with Some j => negb (Nat.eqb j li) | None => false end))
    (numbered 0 (literals short)).

(** 652-690: the literals and their context *)
Definition resolve (n : nat) (short : clause) (si : nat) (long : clause) (li : nat) (flipped : bool)
  : option (option (list literal * lctx)) :=
  if negb (two_long_ok short long) || negb (others_found short long si li) then Some None else
  match nth_error (literals short) si, nth_error (literals long) li with
  | Some s, Some l =>
    let '(a, b) := if flipped then (right l, left l) else (left l, right l) in
    match unify K ts n (two_scopes (context short) (context long)) 1 (left s) 2 a with
    | None => None
    | Some None => Some None
    | Some (Some st) =>
      match unify K ts n st 1 (right s) 2 b with
      | None => None
      | Some None => Some None
      | Some (Some st1) =>
        option_map (fun p => Some (fst p, u_out (snd p))) (uapply_scope n st1 2 (without li (literals long)))
      end
    end
  | _, _ => None
  end.

(** 574-715 [try_resolution] *)
Definition try_resolution (n : nat) (pos : clause) (pi : nat) (neg : clause) (ni : nat) (flipped : bool)
  : option (option clause) :=
  match nth_error (literals pos) pi, nth_error (literals neg) ni with
  | Some p, Some m =>
    if negb (positive p) || positive m then None else
    match (if Nat.ltb (length (literals pos)) (length (literals neg))
           then resolve n pos pi neg ni flipped else resolve n neg ni pos pi flipped) with
    | None => None
    | Some None => Some None
    | Some (Some (ls, c)) =>
      match normalize_with_trace ls c with
      | None => None
      | Some (cl, ids) => Some (if witnessed c ids && clause_is_well_typed K cl then Some cl else None)
      end
    end
  | _, _ => None
  end.

(** ** Rewriting *)
(** What kernel_context.rs:90-115 looks up for a constant: the number of type parameters of an attribute of a typeclass
    without value parameters; and 125-130, [lookup_instance_alias_by_keys] *)
Context (attribute : N -> N -> option nat) (alias : N -> N -> list term -> option symbol).
(** kernel_context.rs:139-151 [looks_like_type_term] *)
Fixpoint looks_like_type_term (t : term) : bool :=
  match t with
  | TAtom (FreeVar _ | BoundVar _) => true
  | TAtom (Sym (SBool | SType0 | SType _ _ | STypeclass _ _)) => true
  | TAtom _ => false
  | TApp f a => looks_like_type_term f && looks_like_type_term a
  | TBind _ A b => looks_like_type_term A && looks_like_type_term b
  end.
(** [Term::apply] *)
Definition apply_args (f : term) (args : list term) : term := fold_left TApp args f.
(** kernel_context.rs:86-133 [try_canonicalize_typeclass_call] *)
Definition typeclass_call (a : atom) (args : list term) : option term :=
  match a with
  | Sym (SGlobal m i) =>
    match attribute m i with
    | None => None
    | Some n =>
      if Nat.eqb n 0 || Nat.ltb (length args) n || negb (forallb looks_like_type_term (firstn n args)) then None else
      option_map (fun s => apply_args (TSym s) (skipn n args)) (alias m i (firstn n args))
    end
  | _ => None
  end.
(** kernel_context.rs:40-84 [canonicalize_instance_calls]; [args] are the canonical arguments met on the way to the head *)
Fixpoint canonical_with (t : term) (args : list term) : term :=
  match t with
  | TApp f a => canonical_with f (canonical_with a [] :: args)
  | TAtom a =>
    match args with
    | [] => t
    | _ => match typeclass_call a args with Some r => r | None => apply_args t args end
    end
  | TBind k A b => apply_args (TBind k (canonical_with A []) (canonical_with b [])) args
  end.
Definition canonical (t : term) : term := canonical_with t [].

(** proof_step.rs:1066-1075: the context of the target with the types of the new subterm *)
Fixpoint overlay (i : nat) (new : lctx) (c : lctx) : lctx :=
  match new with
  | [] => c
  | None :: r => overlay (S i) r c
  | Some T :: r => overlay (S i) r (set_type c i T)
  end.

(** active_set.rs:842-889 and 968-1030, proof_step.rs:1029-1077 [rewrite]: the pattern [s = t], or [t = s] backwards,
    rewrites the subterm at the path in one side of the target *)
Definition rewrite_with (n : nat) (pattern : clause) (forwards : bool) (target : clause) (target_left : bool) (p : list path_step)
  : option (option clause) :=
  match literals pattern, literals target with
  | [pl], [tl] =>
    if negb (positive pl) then None else
    let '(s, t) := if forwards then (left pl, right pl) else (right pl, left pl) in
    let u := if target_left then left tl else right tl in
    match term_at_path u p with
    | None => None
    | Some sub =>
      match unify K ts n (two_scopes (context pattern) []) 1 s 2 sub with
      | None => None
      | Some None => Some None
      | Some (Some st) =>
        match uapply n st 1 t with
        | None => None
        | Some (new, st1) =>
          if negb (match checked_type K [] sub, checked_type K (u_out st1) new with Some a, Some b => term_eqb a b | _, _ => false end)
          then Some None else
          match replace_at_path u p new with
          | None => None
          | Some u' =>
            let l := if target_left then lit_new (positive tl) u' (right tl) else lit_new (positive tl) (left tl) u' in
            let l' := lit_new (positive l) (canonical (left l)) (canonical (right l)) in
            match normalize_with_trace [l'] (overlay 0 (u_out st1) (context target)) with
            | None => None
            | Some (cl, _) => Some (if clause_is_well_typed K cl then Some cl else None)
            end
          end
        end
      end
    end
  | _, _ => None
  end.

(** ** Simplification of the clauses that wait (passive_set.rs) *)
(** 106-131 [pair_specialization_map] is [match_sides]; 133-145 [remap_var_map_keys] *)
Fixpoint remap_keys_from (i : nat) (ids : list nat) (m acc : vmap) : option vmap :=
  match m with
  | [] => Some acc
  | None :: r => remap_keys_from (S i) ids r acc
  | Some t :: r =>
    match nth_error ids i with
    | None => None
    | Some v => remap_keys_from (S i) ids r (vset acc v t)
    end
  end.
Definition remap_keys (ids : option (list nat)) (m : vmap) : option vmap :=
  match ids with None => Some m | Some ids => remap_keys_from 0 ids m [] end.

(** 172-231: the loop over the literals; the inner [None] is the return of [None] *)
Fixpoint remaining (gc sc : lctx) (a b : term) (pos : bool) (ids : option (list nat)) (ls : list literal)
  : option (option (list literal)) :=
  match ls with
  | [] => Some (Some [])
  | l :: r =>
    let keep := option_map (option_map (cons l)) (remaining gc sc a b pos ids r) in
    let eliminate m :=
      if Bool.eqb (positive l) pos then Some None else
      match remap_keys ids m with
      | None => Some None
      | Some _ => remaining gc sc a b pos ids r
      end in
    match match_sides K gc sc [] a b (left l) (right l) with
    | None => None
    | Some (Some m) => eliminate m
    | Some None =>
      match match_sides K gc sc [] a b (right l) (left l) with
      | None => None
      | Some (Some m) => eliminate m
      | Some None => keep
      end
    end
  end.
(** 147-241 [make_simplified] *)
Definition make_simplified (gc sc : lctx) (a b : term) (pos : bool) (ids : option (list nat)) (ls : list literal)
  : option (option clause) :=
  match remaining gc sc a b pos ids ls with
  | None => None
  | Some None => Some None
  | Some (Some ls') => option_map (fun p => Some (fst p)) (normalize_with_trace ls' sc)
  end.

(** What happens to a waiting clause: it stays, it is removed because the literal implies it, it is lost because the
    simplified clause is impossible over types that may be empty, or it is replaced. *)
Inductive waiting := Stays | Implied | Lost | Replaced (c : clause).
Definition types_inhabited (c : lctx) : bool :=
  forallb (fun t => match t with None => true | Some T => inhabited T c end) c.
(** 551-676: the body of the loop of [simplify_one_direction], for the [i]-th literal of a waiting clause *)
Definition simplify_waiting (gc : lctx) (a b : term) (pos : bool) (ids : option (list nat)) (assumption : bool) (c : clause) (i : nat)
  : option waiting :=
  match nth_error (literals c) i with
  | None => None
  | Some l =>
    match match_sides K gc (context c) [] a b (left l) (right l) with
    | None => None
    | Some None => Some Stays
    | Some (Some _) =>
      if Bool.eqb pos (positive l) then Some (if assumption then Stays else Implied) else
      match make_simplified gc (context c) a b pos ids (literals c) with
      | None => None
      | Some None => Some Implied
      | Some (Some c') =>
        match literals c' with
        | [] => Some (if types_inhabited gc && types_inhabited (context c) then Replaced c' else Lost)
        | _ => Some (Replaced c')
        end
      end
    end
  end.
(** 696-735 [simplify]: both directions; the direction from right to left is only tried when the sides are not ordered *)
Definition simplify_passive (act : clause) (reverse : bool) (assumption : bool) (c : clause) (i : nat) : option waiting :=
  match literals act with
  | [l] =>
    if negb reverse then simplify_waiting (context act) (left l) (right l) (positive l) None assumption c i else
    match normalized_reversed (context act) l with
    | None => None
    | Some (r, a, gc, ids) => simplify_waiting gc r a (positive l) (Some ids) assumption c i
    end
  | _ => None
  end.

(** ** Simplification of a clause before it is activated (active_set.rs) *)
Context (be : bool) (mi : lctx -> term -> lctx -> term -> bool).
(** 1334-1360 [evaluate_literal]: the value, and the step that says so; [Panics] as in the index *)
Definition value_of_literal (index : pdt lit_entry) (l : literal) (c : lctx) : answer (bool * option nat) :=
  if term_eqb (left l) (right l) then Hit _ (positive l, None) else
  match find_generalization_with_map be K mi index l c with
  | Hit _ (same, id, _, _) => Hit _ (same, Some id)
  | Miss _ => Miss _
  | Panics _ => Panics _
  end.
(** 1450-1514; [kept_double] says that the clause has one literal and is not factual while the step that makes the
    literal true is; the inner [None] is the return of [None] *)
Fixpoint unknown_literals (index : pdt lit_entry) (kept_double : nat -> bool) (c : lctx) (ls : list literal)
  : option (option (list literal)) :=
  match ls with
  | [] => Some (Some [])
  | l :: r =>
    match value_of_literal index l c with
    | Panics _ => None
    | Hit _ (true, id) =>
      if match id with Some i => kept_double i | None => false end
      then option_map (option_map (cons l)) (unknown_literals index kept_double c r) else Some None
    | Hit _ (false, _) => unknown_literals index kept_double c r
    | Miss _ => option_map (option_map (cons l)) (unknown_literals index kept_double c r)
    end
  end.
(** 1516-1547: every variable that is in no remaining literal has an inhabited type *)
Definition elimination_ok (c : lctx) (ls : list literal) : bool :=
  forallb (fun p =>
    existsb (lit_has_variable (fst p)) ls ||
    match snd p with None => true | Some T => inhabited T c end) (numbered 0 c).
(** The outcomes of 1426-1638 [simplify]: the clause is known, it is not known but given up, or there is a clause *)
Inductive simplified := Known | GivenUp | Result (c : clause).
Definition known_long (long : list clause) (c : clause) : bool :=
  Nat.ltb 1 (length (literals c)) && existsb (clause_eqb c) long.
Definition simplify_active (index : pdt lit_entry) (long : list clause) (kept_double : nat -> bool) (c : clause) : option simplified :=
  if is_tautology c || known_long long c then Some Known else
  match unknown_literals index (fun i => Nat.eqb (length (literals c)) 1 && kept_double i) (context c) (literals c) with
  | None => None
  | Some None => Some Known
  | Some (Some ls) =>
    if negb (elimination_ok (context c) ls) then Some GivenUp else
    if Nat.eqb (length ls) (length (literals c)) then Some (Result c) else
    match normalize_with_trace ls (context c) with
    | None => None
    | Some (c', _) => Some (if is_tautology c' || known_long long c' then Known else Result c')
    end
  end.
End Search.
