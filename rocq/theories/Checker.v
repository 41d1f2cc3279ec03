(** Model of src/kernel/checker.rs.  Reasons are reduced to whether an inserted clause makes the checker
    look again for reductions (502-505); dependencies, which are only recorded for the certificate
    writer, are omitted.  Parameters: [inhab] is [provably_inhabited_without_local_elements]
    (kernel_context.rs), [avail] is [clause_symbols_available] (441-455), [path] says whether the equality
    graph can explain a literal it evaluates (equality_graph.rs:1282-1320 gives no answer otherwise);
    [orde] is the order in which [exact_clauses] is iterated; [n] bounds the recursion depth. *)
From Coq Require Import List Arith NArith Bool.
Import ListNotations.
From Verif Require Import Term LocalContext Literal Clause TermNorm Typing VariableMap Unifier Inference BoolReduction SemFacts ClauseSet EqualityGraph.

(** term_normalization.rs:171-182 [normalize_clause_subterms]; [None]: the depth bound *)
Fixpoint normalize_literal_subterms (n : nat) (ls : list literal) : option (list literal) :=
  match ls with
  | [] => Some []
  | l :: r =>
    match normalize_term n (left l), normalize_term n (right l), normalize_literal_subterms n r with
    | Some a, Some b, Some r' => Some (Lit (positive l) a b :: r')
    | _, _, _ => None
    end
  end.
Definition normalize_clause_subterms (n : nat) (c : clause) : option clause :=
  option_map (fun ls => Clause ls (context c)) (normalize_literal_subterms n (literals c)).
(** the bound is not an answer of the code *)
Definition fueled {A} (o : option A) : res A := match o with Some a => Ok a | None => NoFuel end.
(** [normalize_clause_subterms(clause).normalized()] (606, 616, 726, 739, 749, 935, 1234) *)
Definition checker_normal (n : nat) (c : clause) : res clause :=
  do c1 <- fueled (normalize_clause_subterms n c); unwrap (normalized c1).

(** 75-133, the fields decisions depend on.  [ck_exact] lists each clause once. *)
Record checker := CK {
  ck_graph : egraph;
  ck_exact : list clause;
  ck_contra : bool;
  ck_gens : list (clause * nat);
  ck_gen : nat;
  ck_past : list clause;
  ck_inhab : list (term * lctx);
  ck_inserted : list clause;
  ck_eager : bool
}.
(** 148-168 [new] *)
Definition ck_new : checker := CK eg_new [] false [] 0 [] [] [] true.
Definition with_graph (s : checker) (g : egraph) : checker :=
  CK g (ck_exact s) (ck_contra s) (ck_gens s) (ck_gen s) (ck_past s) (ck_inhab s) (ck_inserted s) (ck_eager s).
Definition with_contra (s : checker) : checker :=
  CK (ck_graph s) (ck_exact s) true (ck_gens s) (ck_gen s) (ck_past s) (ck_inhab s) (ck_inserted s) (ck_eager s).
Definition with_past (s : checker) (c : clause) : checker :=
  CK (ck_graph s) (ck_exact s) (ck_contra s) (ck_gens s) (ck_gen s) (c :: ck_past s) (ck_inhab s) (ck_inserted s) (ck_eager s).
Definition with_key (s : checker) (k : term * lctx) : checker :=
  CK (ck_graph s) (ck_exact s) (ck_contra s) (ck_gens s) (ck_gen s) (ck_past s) (k :: ck_inhab s) (ck_inserted s) (ck_eager s).
(** 196-198 [set_eager_boolean_reductions] *)
Definition with_eager (s : checker) (b : bool) : checker :=
  CK (ck_graph s) (ck_exact s) (ck_contra s) (ck_gens s) (ck_gen s) (ck_past s) (ck_inhab s) (ck_inserted s) b.
(** 1383-1385 [has_contradiction] *)
Definition has_contradiction (s : checker) : bool := ck_contra s || eg_contra (ck_graph s).

Definition clause_in (c : clause) (l : list clause) : bool := existsb (clause_eqb c) l.
Definition key_eq_dec (a b : term * lctx) : {a = b} + {a <> b}.
Proof. decide equality; [apply lctx_eq_dec|apply term_eq_dec]. Defined.
Definition key_in (k : term * lctx) (l : list (term * lctx)) : bool :=
  existsb (fun x => if key_eq_dec k x then true else false) l.
Definition clause_is_impossible (c : clause) : bool := match literals c with [] => true | _ => false end.

(** 210-215 [inhabited_type_key] *)
Definition inhabited_type_key (T : term) (c : lctx) : option (term * lctx) :=
  match normalize_var_ids c [] T with
  | None => None
  | Some (T', ids) => option_map (pair T') (LocalContext.remap c ids)
  end.
(** 239-255 [negated_exists_true_type_from_clause] *)
Definition negated_exists_true_type (c : clause) : res (option (term * lctx)) :=
  match literals c with
  | [l] =>
    if positive l || negb (is_true (right l)) then Ok None else
    match left l with
    | TBind KEx T b => if is_true b then do k <- unwrap (inhabited_type_key T (context c)); Ok (Some k) else Ok None
    | _ => Ok None
    end
  | _ => Ok None
  end.
(** 257-261 [has_negated_exists_true_for] *)
Fixpoint has_negated_exists_true_for (l : list clause) (k : term * lctx) : res bool :=
  match l with
  | [] => Ok false
  | c :: r =>
    do o <- negated_exists_true_type c;
    match o with
    | Some k' => if key_eq_dec k' k then Ok true else has_negated_exists_true_for r k
    | None => has_negated_exists_true_for r k
    end
  end.

Section Checker.
Context (K : kctx) (ts : tstore) (inhab : term -> lctx -> bool) (avail : clause -> bool) (path : egraph -> literal -> bool).
Context (ordk : nat -> list nat -> list nat) (ordc : nat -> list clauseid -> list clauseid) (orde : list clause -> list clause).

(** clause.rs:1171-1225 [positive_exists_witness_reduction] and 217-226 [inhabited_type_from_clause] *)
Definition inhabited_type_from_clause (c : clause) : res (option (term * lctx)) :=
  match literals c with
  | [l] =>
    do T <- unwrap (get_type K (context c) (left l));
    if negb (term_eqb T tbool) then Ok None else
    if negb (is_true (right l)) || negb (positive l) then Ok None else
    match left l with
    | TBind KEx A _ => do k <- unwrap (inhabited_type_key A (context c)); Ok (Some k)
    | _ => Ok None
    end
  | _ => Ok None
  end.

(** 273-300 [eliminated_vars_inhabited]; [pc] is the context before normalization, [ids] the variables kept *)
Fixpoint eliminated_from (s : checker) (pc : lctx) (ids : list nat) (vs : list nat) : res bool :=
  match vs with
  | [] => Ok true
  | v :: r =>
    if existsb (Nat.eqb v) ids then eliminated_from s pc ids r else
    match get_var_type pc v with
    | None => eliminated_from s pc ids r
    | Some T =>
      do k <- unwrap (inhabited_type_key T pc);
      if key_in k (ck_inhab s) || inhab T pc then eliminated_from s pc ids r else Ok false
    end
  end.
Definition eliminated_vars_inhabited (s : checker) (pc : lctx) (ids : list nat) : res bool :=
  eliminated_from s pc ids (seq 0 (length pc)).
(** 302-323 [normalize_checker_trace] *)
Definition normalize_checker_trace (n : nat) (s : checker) (t : clause * list nat * lctx) : res (option clause) :=
  let '(c, ids, pc) := t in
  do b <- eliminated_vars_inhabited s pc ids;
  if negb b then Ok None else
  do c1 <- fueled (normalize_clause_subterms n c);
  do t1 <- unwrap (normalize_with_trace (literals c1) (context c1));
  do b <- eliminated_vars_inhabited s (context c1) (snd t1);
  if negb b then Ok None else
  do t2 <- unwrap (normalize_with_trace (literals (fst t1)) (context (fst t1)));
  do b <- eliminated_vars_inhabited s (context (fst t1)) (snd t2);
  if negb b then Ok None else Ok (Some (fst t2)).
(** [Clause::normalize_with_trace] followed by it (526-529, 556-559, 575-578, 771-779) *)
Definition canonical (n : nat) (s : checker) (ls : list literal) (c : lctx) : res (option clause) :=
  do t <- unwrap (normalize_with_trace ls c);
  normalize_checker_trace n s (fst t, snd t, c).
(** 771-779 [canonical_clause_for_trace] *)
Definition canonical_clause (n : nat) (s : checker) (c : clause) : res (option clause) := canonical n s (literals c) (context c).

(** 325-341 [checker_boolean_reductions] *)
Fixpoint reductions_from (n : nat) (s : checker) (l : list (kind * nat * (clause * list nat * lctx))) : res (list clause) :=
  match l with
  | [] => Ok []
  | (_, _, t) :: r =>
    do o <- if clause_in (fst (fst t)) (ck_past s) then Ok None else normalize_checker_trace n s t;
    do cs <- reductions_from n s r;
    Ok (match o with Some c => c :: cs | None => cs end)
  end.
Definition checker_boolean_reductions (n : nat) (s : checker) (c : clause) : res (list clause) :=
  do l <- unwrap (find_boolean_reductions n K c); reductions_from n s l.
(** 357-366, 380-388: the two halves of a reduction that needs both *)
Definition paired (a b : kind) : bool :=
  match a, b with
  | IteSplitLeftThenBranch, IteSplitLeftElseBranch
  | IteSplitRightThenBranch, IteSplitRightElseBranch
  | PositiveAndLeft, PositiveAndRight
  | NegativeOrLeft, NegativeOrRight
  | BooleanEqualityLeftOrNotRight, BooleanEqualityNotLeftOrRight
  | BooleanInequalityNotLeftOrNotRight, BooleanInequalityLeftOrRight => true
  | _, _ => false
  end.
Definition is_second_half (k : kind) : bool :=
  match k with
  | IteSplitLeftElseBranch | IteSplitRightElseBranch | PositiveAndRight | NegativeOrRight
  | BooleanEqualityNotLeftOrRight | BooleanInequalityLeftOrRight => true
  | _ => false
  end.
(** 343-397 [checker_boolean_reduction_sets] *)
Fixpoint sets_from (n : nat) (s : checker) (l : list (kind * nat * (clause * list nat * lctx))) : res (list (list clause)) :=
  match l with
  | [] => Ok []
  | (k, _, t) :: r =>
    let single :=
      do o <- if is_second_half k then Ok None else normalize_checker_trace n s t;
      do cs <- sets_from n s r;
      Ok (match o with Some c => [c] :: cs | None => cs end) in
    match r with
    | (k', _, t') :: r' =>
      if paired k k' then
        do o <- normalize_checker_trace n s t;
        do o' <- normalize_checker_trace n s t';
        do cs <- sets_from n s r';
        Ok (match o, o' with Some c, Some c' => [c; c'] :: cs | _, _ => cs end)
      else single
    | [] => single
    end
  end.
Definition checker_boolean_reduction_sets (n : nat) (s : checker) (c : clause) : res (list (list clause)) :=
  do l <- unwrap (find_boolean_reductions n K c); sets_from n s l.

(** 399-421 [insert_boolean_reductions_with_reason]; [ins] inserts a clause *)
Definition insert_reductions (ins : checker -> clause -> res checker) (n : nat) (s : checker) (c : clause) : res checker :=
  if negb (avail c) then Ok s else
  do rs <- checker_boolean_reductions n s c;
  foldm (fun s r => if clause_in r (ck_past s) then Ok s else ins (with_past s r) r) rs s.
(** 423-432 [reprocess_boolean_reductions] *)
Definition reprocess (ins : checker -> clause -> res checker) (n : nat) (s : checker) : res checker :=
  foldm (insert_reductions ins n) (orde (ck_exact s)) s.

(** equality_graph.rs:1282-1320 [evaluate_literal_with_dependencies] *)
Definition evaluate (n : nat) (g : egraph) (l : literal) : res (egraph * option bool) :=
  do (g', o) <- evaluate_literal ordk ordc n g l;
  Ok (g', match o with Some b => if path g' l then Some b else None | None => None end).
(** 1317-1327 and 1353-1368, the loop: [None] if a literal is true, else whether one is false and the others *)
Fixpoint evaluate_all (n : nat) (g : egraph) (ls : list literal) : res (egraph * option (bool * list literal)) :=
  match ls with
  | [] => Ok (g, Some (false, []))
  | l :: r =>
    do (g, o) <- evaluate n g l;
    match o with
    | Some true => Ok (g, None)
    | _ =>
      do (g, x) <- evaluate_all n g r;
      Ok (g, option_map (fun '(b, ls) => match o with Some _ => (true, ls) | None => (b, l :: ls) end) x)
    end
  end.
(** 1343-1381 [simplify_variable_clause_with_concrete_facts_and_dependencies] *)
Definition simplify_variable_clause (n : nat) (s : checker) (c : clause) : res (checker * option clause) :=
  do (g, x) <- evaluate_all n (ck_graph s) (literals c);
  match x with
  | Some (true, ls) => do c' <- unwrap (clause_new ls (context c)); Ok (with_graph s g, Some c')
  | _ => Ok (with_graph s g, None)
  end.

(** 471-492 = 635-656: [None] if the clause is known already, else it is recorded *)
Definition gens_get (c : clause) (l : list (clause * nat)) : option nat :=
  option_map snd (find (fun p => clause_eqb c (fst p)) l).
Definition record_clause (s : checker) (c : clause) (gens : list (clause * nat)) : checker :=
  CK (ck_graph s) (if clause_in c (ck_exact s) then ck_exact s else ck_exact s ++ [c]) (ck_contra s) gens
     (ck_gen s) (ck_past s) (ck_inhab s) (ck_inserted s ++ [c]) (ck_eager s).
Definition admit_clause (s : checker) (c : clause) : option checker :=
  if clause_has_any_variable c then
    match gens_get c (ck_gens s) with
    | Some g => if Nat.eqb g (ck_gen s) then None else Some (record_clause s c ((c, ck_gen s) :: ck_gens s))
    | None => Some (record_clause s c ((c, ck_gen s) :: ck_gens s))
    end
  else if clause_in c (ck_exact s) then None else Some (record_clause s c (ck_gens s)).
(** 507-519 = 658-669 and 228-237 [mark_inhabited_from_clause]: the flag tells whether a type was marked *)
Definition note_inhabited (s : checker) (c : clause) : res (checker * bool) :=
  do o <- negated_exists_true_type c;
  let s := match o with Some k => if key_in k (ck_inhab s) then with_contra s else s | None => s end in
  do o <- inhabited_type_from_clause c;
  match o with
  | None => Ok (s, false)
  | Some k =>
    if key_in k (ck_inhab s) then Ok (s, false) else
    do b <- has_negated_exists_true_for (ck_exact s) k;
    Ok (if b then with_contra (with_key s k) else with_key s k, true)
  end.
(** 549-553 = 671-675 *)
Definition insert_concrete (n : nat) (s : checker) (c : clause) : res checker :=
  do g <- insert_clause ordk ordc n (ck_graph s) (literals c);
  Ok (CK g (ck_exact s) (ck_contra s) (ck_gens s) (S (ck_gen s)) (ck_past s) (ck_inhab s) (ck_inserted s) (ck_eager s)).

(** 620-677 [insert_clause_shallow_for_trace] *)
Definition insert_shallow (n : nat) (s : checker) (c : clause) : res checker :=
  if clause_is_impossible c then Ok (with_contra s) else
  match admit_clause s c with
  | None => Ok s
  | Some s =>
    do (s, _) <- note_inhabited s c;
    if clause_has_any_variable c then Ok s else insert_concrete n s c
  end.
(** 610-618 [insert_clause_for_trace] *)
Definition insert_for_trace (n : nat) (s : checker) (c : clause) : res checker :=
  do c <- checker_normal n c; insert_shallow n s c.

(** the loops 525-540, 555-570, 572-588: insert what remains of the results after normalization *)
Definition insert_results (ins : checker -> clause -> res checker) (n : nat) (s : checker) (rs : list (list literal * lctx)) : res checker :=
  foldm (fun s r =>
    do o <- canonical n s (fst r) (snd r);
    match o with
    | None => Ok s
    | Some c => if is_tautology c then Ok s else ins s c
    end) rs s.
Definition result_pairs (rs : list (list literal * lctx * vmap * bool)) : list (list literal * lctx) :=
  map (fun x => (fst (fst (fst x)), snd (fst (fst x)))) rs.
(** 457-597 [insert_clause_internal]; [k] bounds its recursion, [re] is the reason's reprocessing flag *)
Fixpoint insert_internal (k n : nat) (s : checker) (re : bool) (c : clause) : res checker :=
  match k with
  | 0 => NoFuel
  | S k =>
    let ins s c := insert_internal k n s false c in
    if clause_is_impossible c then Ok (with_contra s) else
    match admit_clause s c with
    | None => Ok s
    | Some s =>
      do (s, marked) <- note_inhabited s c;
      do s <- if marked && re && ck_eager s then reprocess ins n s else Ok s;
      do s <-
        (if clause_has_any_variable c then
           do (s, o) <- simplify_variable_clause n s c;
           do s <- match o with Some c' => ins s c' | None => Ok s end;
           do rs <- unwrap (find_equality_resolutions K ts n c);
           do s <- insert_results ins n s (result_pairs rs);
           do o <- unwrap (find_extensionality K c);
           match o with
           | None => Ok s
           | Some ls => do c' <- unwrap (clause_new ls (context c)); ins s c'
           end
         else insert_concrete n s c);
      do rs <- unwrap (find_equality_factorings K ts n c);
      do s <- insert_results ins n s (result_pairs rs);
      do rs <- unwrap (find_injectivities c);
      do s <- insert_results ins n s (map (fun ls => (ls, context c)) rs);
      if ck_eager s then insert_reductions ins n s c else Ok s
    end
  end.
(** 600-608 [insert_clause] and 675-689 [insert_normalized_clause] (its assertion is for debugging only) *)
Definition insert_deep (n : nat) (s : checker) (re : bool) (c : clause) : res checker :=
  do c <- checker_normal n c; insert_internal n n s re c.
Definition insert_normalized (n : nat) (s : checker) (re : bool) (c : clause) : res checker := insert_internal n n s re c.
(** 200-203 [enable_eager_boolean_reductions] *)
Definition enable_eager (n : nat) (s : checker) : res checker :=
  reprocess (fun s c => insert_internal n n s false c) n (with_eager s true).

(** 691-719 [check_clause_direct] *)
Definition check_direct (n : nat) (s : checker) (c : clause) : res (checker * bool) :=
  if has_contradiction s then Ok (s, true) else
  do (g, b) <- check_clause ordk ordc n (ck_graph s) (literals c);
  let s := with_graph s g in
  Ok (s, b || clause_in c (ck_exact s)).
(** 1310-1332 [check_clause_via_concrete_simplification] *)
Definition check_simplified (n : nat) (s : checker) (c : clause) : res (checker * bool) :=
  do (g, x) <- evaluate_all n (ck_graph s) (literals c);
  let s := with_graph s g in
  match x with
  | None => Ok (s, true)
  | Some (false, _) => Ok (s, false)
  | Some (true, []) => Ok (s, false)
  | Some (true, ls) => do c' <- unwrap (clause_new ls (context c)); check_direct n s c'
  end.
(** [or_else] *)
Definition or_check (x : res (checker * bool)) (f : checker -> res (checker * bool)) : res (checker * bool) :=
  do (s, b) <- x; if b then Ok (s, true) else f s.
(** 721-732 [check_clause_direct_for_trace] *)
Definition check_for_trace (n : nat) (s : checker) (c : clause) : res (checker * bool) :=
  do c <- checker_normal n c;
  if is_tautology c then Ok (s, true) else
  or_check (check_direct n s c) (fun s => check_simplified n s c).
(** 1183-1226 [check_clause_via_boolean_reductions_inner]; [chk] is the recursive call *)
Fixpoint all_known (chk : checker -> list clause -> clause -> res (checker * list clause * bool)) (n : nat)
    (s : checker) (seen : list clause) (cs : list clause) : res (checker * bool) :=
  match cs with
  | [] => Ok (s, true)
  | c :: r =>
    do (s, b) <- check_direct n s c;
    if b then all_known chk n s seen r else
    do (s, seen, b) <- chk s seen c;
    if b then all_known chk n s seen r else Ok (s, false)
  end.
Fixpoint some_set_known (chk : checker -> list clause -> clause -> res (checker * list clause * bool)) (n : nat)
    (s : checker) (seen : list clause) (sets : list (list clause)) : res (checker * bool) :=
  match sets with
  | [] => Ok (s, false)
  | cs :: r =>
    do (s, b) <- all_known chk n s seen cs;
    if b then Ok (s, true) else some_set_known chk n s seen r
  end.
Fixpoint check_reductions (k n : nat) (s : checker) (seen : list clause) (c : clause) : res (checker * list clause * bool) :=
  match k with
  | 0 => NoFuel
  | S k =>
    if clause_has_any_variable c then Ok (s, seen, false) else
    if clause_in c seen then Ok (s, seen, false) else
    let seen := c :: seen in
    do sets <- checker_boolean_reduction_sets n s c;
    do (s, b) <- some_set_known (check_reductions k n) n s seen sets;
    Ok (s, seen, b)
  end.
(** 1085-1092 [check_clause_via_boolean_reductions] *)
Definition check_via_reductions (n : nat) (s : checker) (c : clause) : res (checker * bool) :=
  do (s, _, b) <- check_reductions n n s [] c; Ok (s, b).
(** 1229-1239 [check_clause] *)
Definition check (n : nat) (s : checker) (c : clause) : res (checker * bool) :=
  do c <- checker_normal n c;
  or_check (check_direct n s c) (fun s => or_check (check_via_reductions n s c) (fun s => check_simplified n s c)).

(** 734-742 [boolean_reduction_proves_for_trace] *)
Definition reduction_proves (n : nat) (s : checker) (c : clause) : res (checker * bool) :=
  do c <- checker_normal n c; check_via_reductions n s c.
(** 744-769 [boolean_reduction_closes_for_trace]; works on a copy *)
Definition reduction_closes (n : nat) (s : checker) (c : clause) : res bool :=
  do c <- checker_normal n c;
  if clause_is_impossible c then Ok true else
  do s <- insert_for_trace n (with_eager s false) c;
  if negb (clause_in c (ck_exact s)) then Ok false else
  do s <- insert_reductions (fun s c => insert_internal n n s false c) n (with_eager s true) c;
  Ok (has_contradiction s).

(** 826-836 [apply_boolean_reduction_for_trace] *)
Definition apply_reduction (n : nat) (s : checker) (c : clause) (k : kind) (i : nat) : res (option clause) :=
  do o <- unwrap (boolean_reduction_at n K c k i);
  match o with None => Ok None | Some t => normalize_checker_trace n s t end.
(** 838-904: whether a result of the rule, normalized, is [r] *)
Fixpoint some_result (n : nat) (s : checker) (r : clause) (rs : list (list literal * lctx)) : res bool :=
  match rs with
  | [] => Ok false
  | x :: l =>
    do o <- canonical n s (fst x) (snd x);
    match o with
    | Some c => if clause_eqb c r then Ok true else some_result n s r l
    | None => some_result n s r l
    end
  end.
Definition resolution_derives (n : nat) (s : checker) (c r : clause) : res bool :=
  do rs <- unwrap (find_equality_resolutions K ts n c); some_result n s r (result_pairs rs).
Definition factoring_derives (n : nat) (s : checker) (c r : clause) : res bool :=
  do rs <- unwrap (find_equality_factorings K ts n c); some_result n s r (result_pairs rs).
Definition injectivity_derives (n : nat) (s : checker) (c r : clause) : res bool :=
  do rs <- unwrap (find_injectivities c); some_result n s r (map (fun ls => (ls, context c)) rs).
Definition extensionality_derives (c r : clause) : res bool :=
  do o <- unwrap (find_extensionality K c);
  match o with
  | None => Ok false
  | Some ls => do c' <- unwrap (clause_new ls (context c)); Ok (clause_eqb c' r)
  end.
(** 906-926 [equality_graph_derives_for_trace] *)
Definition graph_derives (n : nat) (s : checker) (c r : clause) : res (checker * bool) :=
  do (s, o) <- simplify_variable_clause n s c;
  match o with
  | Some c' => if clause_eqb c' r then Ok (s, true) else check_for_trace n s r
  | None => check_for_trace n s r
  end.

(** 941-987 [literals_match_with_var_map]; [None]: typing panics *)
Definition match_sides (gc sc : lctx) (m : vmap) (a b a' b' : term) : option (option vmap) :=
  match match_terms K gc sc m a a' with
  | None => None
  | Some (false, _) => Some None
  | Some (true, m1) =>
    match match_terms K gc sc m1 b b' with
    | None => None
    | Some (false, _) => Some None
    | Some (true, m2) => Some (Some m2)
    end
  end.
Definition literals_match (gc sc : lctx) (m : vmap) (g l : literal) : option (option vmap) :=
  if negb (Bool.eqb (positive g) (positive l)) then Some None else
  match match_sides gc sc m (left g) (right g) (left l) (right l) with
  | None => None
  | Some (Some m') => Some (Some m')
  | Some None => match_sides gc sc m (left g) (right g) (right l) (left l)
  end.
(** 989-1054 [clause_matches_with_var_map]: the unused literals of the special clause are [pre ++ post] *)
Fixpoint match_first (f : vmap -> list literal -> option bool) (gc sc : lctx) (m : vmap) (g : literal)
    (pre post : list literal) : option bool :=
  match post with
  | [] => Some false
  | l :: r =>
    match literals_match gc sc m g l with
    | None => None
    | Some None => match_first f gc sc m g (pre ++ [l]) r
    | Some (Some m') =>
      match f m' (pre ++ r) with
      | None => None
      | Some true => Some true
      | Some false => match_first f gc sc m g (pre ++ [l]) r
      end
    end
  end.
Fixpoint match_from (gc sc : lctx) (gs : list literal) (m : vmap) (ss : list literal) : option bool :=
  match gs with
  | [] => Some true
  | g :: r => match_first (match_from gc sc r) gc sc m g [] ss
  end.
Definition clause_matches (a b : clause) : option bool :=
  if negb (Nat.eqb (length (literals a)) (length (literals b))) then Some false
  else match_from (context a) (context b) (literals a) [] (literals b).
(** 928-939 [clause_specializes_for_trace] *)
Definition clause_specializes (n : nat) (a b : clause) : res bool :=
  do a <- checker_normal n a;
  do b <- checker_normal n b;
  if clause_eqb a b then Ok true else unwrap (clause_matches a b).
(** 1056-1083 [clauses_contradict_for_trace] *)
Definition clauses_contradict (n : nat) (a b : clause) : res bool :=
  if clause_is_impossible a || clause_is_impossible b then Ok true else
  match literals a, literals b with
  | [l], [l'] =>
    do na <- unwrap (clause_new [negate l] (context a));
    do nb <- unwrap (clause_new [negate l'] (context b));
    do x <- clause_specializes n a nb;
    if x then Ok true else clause_specializes n b na
  | _, _ =>
    if clause_has_any_variable a || clause_has_any_variable b then Ok false else
    do s <- insert_for_trace n ck_new a;
    do s <- insert_for_trace n s b;
    Ok (has_contradiction s)
  end.
End Checker.
