(** Model of the queue of passive clauses (src/prover/passive_set.rs).  What a simplification does to a clause is
    an oracle ([decide]), so are the scores and the fingerprint lookup ([found], which returns some of the entries
    that were inserted).  The feature store, the statistics and validation are omitted. *)
From Coq Require Import List Arith Bool.
Import ListNotations.
From Verif Require Import Term LocalContext Literal Clause EqualityGraph Score.

(** [BTreeSet]: an ascending list *)
Section Set_.
Context {A : Type} (cmp : A -> A -> comparison).
Fixpoint bt_insert (x : A) (l : list A) : list A :=
  match l with
  | [] => [x]
  | y :: r => match cmp x y with Lt => x :: y :: r | Eq => y :: r | Gt => y :: bt_insert x r end
  end.
Fixpoint bt_remove (x : A) (l : list A) : list A :=
  match l with
  | [] => []
  | y :: r => match cmp x y with Eq => r | _ => y :: bt_remove x r end
  end.
End Set_.
(** the largest element of an ascending list that has a property, [iter().rev().find(f)] *)
Definition find_last {A} (f : A -> bool) (l : list A) : option A := find f (rev l).

(** kernel/proof_step.rs [ProofStep]: the clause, and whatever else *)
Record pstep {info : Type} := PStep { p_clause : clause; p_info : info }.
Arguments pstep : clear implicits.
(** What happens to a clause that a lookup has found: it does not match or is kept (540-555); it is removed (567,
    585, 603); it is removed and a simplified step added. *)
Inductive decision {info : Type} := Keep | Drop | Replace (s : pstep info).
Arguments decision : clear implicits.

Definition queue_cmp (a b : score * nat) : comparison := then_cmp (score_cmp (fst a) (fst b)) (Nat.compare (snd a) (snd b)).
Definition df_key := (bool * shallow_status * nat)%type.
Definition df_cmp (a b : df_key) : comparison :=
  then_cmp (bool_cmp (fst (fst a)) (fst (fst b))) (then_cmp (status_cmp (snd (fst a)) (snd (fst b))) (Nat.compare (snd a) (snd b))).
(** 470-476 [df_key] *)
Definition mk_df (s : score) (id : nat) : df_key := (k_contradiction (s_key s), k_status (s_key s), id).

Section P.
Context {info goal : Type}.
Notation pstep := (pstep info).
(** 54-110 [PassiveSet] *)
Record passive := PSet {
  clauses : list (option (pstep * score));
  queue : list (score * nat);
  literals_index : list (nat * nat);
  singles : list ((term * term) * (bool * nat));
  contradiction : option (nat * nat);
  all_shallow : bool;
  scoring : policy;
  goal_symbols : goal;
  df_queue : option (list df_key);
  pop_count : nat
}.
Definition with_contra p c := PSet (clauses p) (queue p) (literals_index p) (singles p) c (all_shallow p) (scoring p) (goal_symbols p) (df_queue p) (pop_count p).
Definition with_singles p s := PSet (clauses p) (queue p) (literals_index p) s (contradiction p) (all_shallow p) (scoring p) (goal_symbols p) (df_queue p) (pop_count p).
Definition with_shallow p b := PSet (clauses p) (queue p) (literals_index p) (singles p) (contradiction p) b (scoring p) (goal_symbols p) (df_queue p) (pop_count p).
Definition with_goal p g := PSet (clauses p) (queue p) (literals_index p) (singles p) (contradiction p) (all_shallow p) (scoring p) g (df_queue p) (pop_count p).
Definition with_clauses p c := PSet c (queue p) (literals_index p) (singles p) (contradiction p) (all_shallow p) (scoring p) (goal_symbols p) (df_queue p) (pop_count p).
Definition with_queues p q d := PSet (clauses p) q (literals_index p) (singles p) (contradiction p) (all_shallow p) (scoring p) (goal_symbols p) d (pop_count p).
Definition with_index p i := PSet (clauses p) (queue p) i (singles p) (contradiction p) (all_shallow p) (scoring p) (goal_symbols p) (df_queue p) (pop_count p).
Definition with_count p n := PSet (clauses p) (queue p) (literals_index p) (singles p) (contradiction p) (all_shallow p) (scoring p) (goal_symbols p) (df_queue p) n.

(** 257-277 [with_config] *)
Definition ps_new (p : policy) (g : goal) : passive :=
  PSet [] [] [] [] None true p g (option_map (fun _ => []) (df_interleave_period p)) 0.

Definition df_insert (k : df_key) (d : option (list df_key)) := option_map (bt_insert df_cmp k) d.
Definition df_remove (k : df_key) (d : option (list df_key)) := option_map (bt_remove df_cmp k) d.
(** queue and depth-first queue together *)
Definition enqueue (p : passive) (s : score) (id : nat) : passive :=
  with_queues p (bt_insert queue_cmp (s, id) (queue p)) (df_insert (mk_df s id) (df_queue p)).
Definition dequeue (p : passive) (s : score) (id : nat) : passive :=
  with_queues p (bt_remove queue_cmp (s, id) (queue p)) (df_remove (mk_df s id) (df_queue p)).
Fixpoint set_nth {A} (l : list A) (i : nat) (x : A) : list A :=
  match l, i with [], _ => [] | _ :: r, 0 => x :: r | y :: r, S i => y :: set_nth r i x end.

Context (harvest : goal -> pstep -> goal) (known : goal -> bool) (is_goal : pstep -> bool) (uses_goal : bool).
Context (scorer : goal -> pstep -> score) (inhab : term -> lctx -> bool).

(** 294-322 [rescore_all] *)
Definition rescore (p : passive) (id : nat) : res passive :=
  match nth_error (clauses p) id with
  | None => Panic
  | Some None => Ok p
  | Some (Some (st, old)) =>
    let new := scorer (goal_symbols p) st in
    Ok (with_clauses (enqueue (dequeue p old id) new id) (set_nth (clauses p) id (Some (st, new))))
  end.
Definition rescore_all (p : passive) : res passive := foldm rescore (seq 0 (length (clauses p))) p.

(** 399-428: all variable types of a clause have elements *)
Definition all_vars_inhabited (c : lctx) : bool :=
  forallb (fun o => match o with Some T => inhab T c | None => true end) c.
Fixpoint find_single (k : term * term) (l : list ((term * term) * (bool * nat))) : option (bool * nat) :=
  match l with
  | [] => None
  | (h, v) :: r => if term_eqb (fst h) (fst k) && term_eqb (snd h) (snd k) then Some v else find_single k r
  end.
Definition note_single (p : passive) (st : pstep) (id : nat) : res passive :=
  match literals (p_clause st) with
  | [l] =>
    match find_single (left l, right l) (singles p) with
    | Some (pos, old) =>
      if Bool.eqb pos (positive l) then Ok p else
      match nth_error (clauses p) old with
      | None => Panic
      | Some None => Ok p
      | Some (Some (other, _)) =>
        Ok (if all_vars_inhabited (context (p_clause st)) && all_vars_inhabited (context (p_clause other))
            then with_contra p (Some (old, id)) else p)
      end
    | None => Ok (with_singles p (((left l, right l), (positive l, id)) :: singles p))
    end
  | _ => Ok p
  end.
(** 384-440 [push_with_score_inner] *)
Definition push_scored (p : passive) (st : pstep) (s : score) : res passive :=
  let id := length (clauses p) in
  let p := with_index p (literals_index p ++ map (pair id) (seq 0 (length (literals (p_clause st))))) in
  do p <- note_single p st id;
  Ok (enqueue (with_clauses p (clauses p ++ [Some (st, s)])) s id).
(** 319-368 [push_batch] *)
Definition push_batch (p : passive) (steps : list pstep) : res passive :=
  match steps with
  | [] => Ok p
  | _ =>
    let before := known (goal_symbols p) in
    let p := with_goal p (fold_left harvest (filter is_goal steps) (goal_symbols p)) in
    do p <- (if existsb is_goal steps && negb before && uses_goal then rescore_all p else Ok p);
    foldm (fun p st => push_scored p st (scorer (goal_symbols p) st)) steps p
  end.

(** 460-466 [next_shallow_entry], 451-458 [can_pop_for_verification] *)
Definition next_shallow (p : passive) : option (score * nat) := find_last (fun x => s_shallow (fst x)) (queue p).
Definition can_pop_for_verification (p : passive) : bool :=
  all_shallow p && match next_shallow p with Some _ => true | None => false end.
(** 478-489 [take_entry] *)
Definition take_entry (p : passive) (id : nat) : res (passive * (nat * pstep * score)) :=
  match nth_error (clauses p) id with
  | Some (Some (st, s)) => Ok (with_clauses p (set_nth (clauses p) id None), (id, st, s))
  | _ => Panic
  end.
Definition note_shallow (p : passive) (s : score) : passive := if s_shallow s then p else with_shallow p false.
(** 513-526 [pop_df_entry]; the state is returned also if there is no entry *)
Definition pop_df (p : passive) : res (passive * option (nat * pstep * score)) :=
  match df_queue p with
  | None => Ok (p, None)
  | Some d =>
    match find_last (fun _ => true) d with
    | None => Ok (p, None)
    | Some k =>
      let p := with_queues p (queue p) (Some (bt_remove df_cmp k d)) in
      let id := snd k in
      match nth_error (clauses p) id with
      | None => Panic
      | Some None => Ok (p, None)
      | Some (Some (_, s)) =>
        let p := note_shallow (with_queues p (bt_remove queue_cmp (s, id) (queue p)) (df_queue p)) s in
        do (p, e) <- take_entry p id; Ok (p, Some e)
      end
    end
  end.
Definition pop_main (p : passive) : res (passive * option (nat * pstep * score)) :=
  match find_last (fun _ => true) (queue p) with
  | None => Ok (p, None)
  | Some (s, id) => do (p, e) <- take_entry (note_shallow (dequeue p s id) s) id; Ok (p, Some e)
  end.
(** 492-511 [pop_entry_with_shallow]: whether this pop is a depth-first one *)
Definition df_turn (p : passive) : bool :=
  match df_interleave_period (scoring p) with Some n => Nat.eqb (Nat.modulo (S (pop_count p)) n) 0 | None => false end.
Definition pop_entry (p : passive) : res (passive * option (nat * pstep * score)) :=
  let turn := df_turn p in
  let p := with_count p (S (pop_count p)) in
  if turn then
    do (p, o) <- pop_df p;
    match o with Some e => Ok (p, Some e) | None => pop_main p end
  else pop_main p.
(** 533-540 [pop_shallow_entry] *)
Definition pop_shallow (p : passive) : res (passive * option (nat * pstep * score)) :=
  match next_shallow p with
  | None => Ok (p, None)
  | Some (s, id) => do (p, e) <- take_entry (dequeue p s id) id; Ok (p, Some e)
  end.

(** 551-690 [simplify_one_direction], for what the lookup has found *)
Definition simplify_found (decide : pstep -> nat -> decision info) (acc : passive * list pstep) (x : nat * nat) : res (passive * list pstep) :=
  let (p, new) := acc in
  let (id, i) := x in
  match nth_error (clauses p) id with
  | None => Panic
  | Some None => Ok (p, new)
  | Some (Some (st, s)) =>
    if negb (Nat.ltb i (length (literals (p_clause st)))) then Panic else
    match decide st i with
    | Keep => Ok (p, new)
    | Drop => Ok (dequeue (with_clauses p (set_nth (clauses p) id None)) s id, new)
    | Replace st' => Ok (dequeue (with_clauses p (set_nth (clauses p) id None)) s id, new ++ [st'])
    end
  end.
Definition simplify_dir (found : list (nat * nat) -> list (nat * nat)) (decide : pstep -> nat -> decision info) (p : passive) : res passive :=
  do (p, new) <- foldm (simplify_found decide) (found (literals_index p)) (p, []);
  push_batch p new.
(** 703-739 [simplify]; the second direction only if the literal is not oriented *)
Definition simplify (found1 found2 : list (nat * nat) -> list (nat * nat)) (decide1 decide2 : pstep -> nat -> decision info)
  (oriented : bool) (p : passive) : res passive :=
  do p <- simplify_dir found1 decide1 p;
  if oriented then Ok p else simplify_dir found2 decide2 p.
(** 692-702 [get_contradiction] *)
Definition get_contradiction (p : passive) : res (option (pstep * pstep)) :=
  match contradiction p with
  | None => Ok None
  | Some (a, b) =>
    match nth_error (clauses p) a, nth_error (clauses p) b with
    | Some (Some (x, _)), Some (Some (y, _)) => Ok (Some (x, y))
    | Some _, Some _ => Ok None
    | _, _ => Panic
    end
  end.
End P.
