(** Model of src/kernel/equality_graph.rs.  Term ids, group ids and application ids are natural
    numbers (the code's u32 does not wrap before memory is exhausted); groups inside a [litid] are
    converted.  Not modelled: the [adjacent] edges, [contradiction_info], rewrite sources, steps
    and everything computed from them (traces and dependencies), which no decision depends on.
    A [Rewrite] operation is the [TermEquality] of its two terms.
    Hash maps and sets iterate in an order chosen by [ordk], [ordc], which get the number of the iteration. *)
From Coq Require Import List Arith NArith Bool.
Import ListNotations.
From Verif Require Import Term Literal Clause SemFacts ClauseSet.

(** [Panic]: a panic or an index out of range; [NoFuel]: the step bound was exceeded *)
Inductive res (A : Type) := Ok (a : A) | Panic | NoFuel.
Arguments Ok {A} a. Arguments Panic {A}. Arguments NoFuel {A}.
Definition rbind {A B} (x : res A) (f : A -> res B) : res B :=
  match x with Ok a => f a | Panic => Panic | NoFuel => NoFuel end.
Definition unwrap {A} (x : option A) : res A := match x with Some a => Ok a | None => Panic end.
Notation "'do' p <- x ; e" := (rbind x (fun p => e)) (at level 200, p pattern, x at level 100, e at level 200).
(** a [for] loop *)
Fixpoint foldm {A S} (f : S -> A -> res S) (l : list A) (s : S) : res S :=
  match l with [] => Ok s | x :: r => do s' <- f s x; foldm f r s' end.

(** 65-100 [Decomposition] *)
Inductive decomp := DAtomic (a : atom) | DApp (f a : nat) | DOpaque.
Definition decomp_eq_dec (x y : decomp) : {x = y} + {x <> y}.
Proof. decide equality; [apply atom_eq_dec|apply Nat.eq_dec|apply Nat.eq_dec]. Defined.
Definition decomp_eqb (x y : decomp) : bool := if decomp_eq_dec x y then true else false.

(** 130-150 [TermInfo] *)
Record tinfo := TI { ti_term : term; ti_group : nat; ti_decomp : decomp }.
(** 165-193 [GroupInfo]; of the inequalities only the keys *)
Record ginfo := GI { gi_terms : list nat; gi_apps : list nat; gi_ineq : list nat }.
(** 152-163 [PossibleGroupInfo] *)
Inductive pgroup := Remapped (g : nat) | Info (i : ginfo).
(** 200-257 [ApplicationKey], [ApplicationInfo] *)
Record appinfo := AI { ai_key : nat * nat; ai_res : nat }.
(** 278-291 [SemanticOperation] *)
Inductive semop := OEq (s t : nat) | ONeq (s t : nat) | OClause (c : clauseid).

(** 298-337 [EqualityGraph]; the end of the [pending] vector is the head of the list *)
Record egraph := EG {
  eg_terms : list tinfo;
  eg_groups : list pgroup;
  eg_apps : list (option appinfo);
  eg_clauses : clauseset;
  eg_amap : list ((nat * nat) * nat);
  eg_decomps : list (decomp * nat);
  eg_pending : list semop;
  eg_contra : bool;
  eg_opaque : list (term * nat);
  eg_tick : nat
}.
(** 346-359 [new] *)
Definition eg_new : egraph := EG [] [] [] cs_new [] [] [] false [] 0.

Definition set_terms (s : egraph) x := EG x (eg_groups s) (eg_apps s) (eg_clauses s) (eg_amap s) (eg_decomps s) (eg_pending s) (eg_contra s) (eg_opaque s) (eg_tick s).
Definition set_groups (s : egraph) x := EG (eg_terms s) x (eg_apps s) (eg_clauses s) (eg_amap s) (eg_decomps s) (eg_pending s) (eg_contra s) (eg_opaque s) (eg_tick s).
Definition set_apps (s : egraph) x y := EG (eg_terms s) (eg_groups s) x (eg_clauses s) y (eg_decomps s) (eg_pending s) (eg_contra s) (eg_opaque s) (eg_tick s).
Definition set_clauses (s : egraph) x := EG (eg_terms s) (eg_groups s) (eg_apps s) x (eg_amap s) (eg_decomps s) (eg_pending s) (eg_contra s) (eg_opaque s) (eg_tick s).
Definition set_pending (s : egraph) x := EG (eg_terms s) (eg_groups s) (eg_apps s) (eg_clauses s) (eg_amap s) (eg_decomps s) x (eg_contra s) (eg_opaque s) (eg_tick s).
Definition set_contra (s : egraph) := EG (eg_terms s) (eg_groups s) (eg_apps s) (eg_clauses s) (eg_amap s) (eg_decomps s) (eg_pending s) true (eg_opaque s) (eg_tick s).
Definition tick (s : egraph) := EG (eg_terms s) (eg_groups s) (eg_apps s) (eg_clauses s) (eg_amap s) (eg_decomps s) (eg_pending s) (eg_contra s) (eg_opaque s) (S (eg_tick s)).
Definition push (s : egraph) (o : semop) := set_pending s (o :: eg_pending s).

Fixpoint upd {A} (l : list A) (i : nat) (x : A) : list A :=
  match l, i with
  | [], _ => []
  | _ :: r, 0 => x :: r
  | y :: r, S i => y :: upd r i x
  end.
Definition key_eqb (a b : nat * nat) : bool := Nat.eqb (fst a) (fst b) && Nat.eqb (snd a) (snd b).
Definition memb (x : nat) (l : list nat) : bool := existsb (Nat.eqb x) l.
Definition delete (x : nat) (l : list nat) : list nat := filter (fun y => negb (Nat.eqb x y)) l.

(** 395-401 [get_term], [get_group_id] *)
Definition get_term (s : egraph) (t : nat) : res term := do i <- unwrap (nth_error (eg_terms s) t); Ok (ti_term i).
Definition get_group_id (s : egraph) (t : nat) : res nat := do i <- unwrap (nth_error (eg_terms s) t); Ok (ti_group i).
(** 424-431 [get_group_info] *)
Definition get_group_info (s : egraph) (g : nat) : res ginfo :=
  match nth_error (eg_groups s) g with Some (Info i) => Ok i | _ => Panic end.

(** 446-460, 484-497, 534-549: a new term in a new group *)
Definition new_term (s : egraph) (t : term) (d : decomp) : egraph * nat :=
  let id := length (eg_terms s) in
  (EG (eg_terms s ++ [TI t (length (eg_groups s)) d]) (eg_groups s ++ [Info (GI [id] [] [])])
      (eg_apps s) (eg_clauses s) (eg_amap s) (eg_decomps s) (eg_pending s) (eg_contra s) (eg_opaque s) (eg_tick s), id).
Definition add_decomp (s : egraph) (d : decomp) (id : nat) : egraph :=
  EG (eg_terms s) (eg_groups s) (eg_apps s) (eg_clauses s) (eg_amap s) (map_set decomp_eqb (eg_decomps s) d id)
     (eg_pending s) (eg_contra s) (eg_opaque s) (eg_tick s).
Definition add_opaque (s : egraph) (t : term) (id : nat) : egraph :=
  EG (eg_terms s) (eg_groups s) (eg_apps s) (eg_clauses s) (eg_amap s) (eg_decomps s)
     (eg_pending s) (eg_contra s) (map_set term_eqb (eg_opaque s) t id) (eg_tick s).

(** 436-462 [insert_atom] *)
Definition insert_atom (s : egraph) (a : atom) : egraph * nat :=
  match map_get decomp_eqb (eg_decomps s) (DAtomic a) with
  | Some id => (s, id)
  | None => let (s, id) := new_term s (TAtom a) (DAtomic a) in (add_decomp s (DAtomic a) id, id)
  end.
(** 528-551 [insert_opaque_term] *)
Definition insert_opaque_term (s : egraph) (t : term) : egraph * nat :=
  match map_get term_eqb (eg_opaque s) t with
  | Some id => (s, id)
  | None => let (s, id) := new_term s t DOpaque in (add_opaque s t id, id)
  end.

(** 230-238 [ApplicationKey::groups] *)
Definition key_groups (k : nat * nat) : list nat :=
  let (f, a) := k in if Nat.eqb f a then [f] else if Nat.leb f a then [f; a] else [a; f].

(** 555-590 [insert_group_application] *)
Definition insert_group_application (s : egraph) (func arg result : nat) : res egraph :=
  do rg <- get_group_id s result;
  match map_get key_eqb (eg_amap s) (func, arg) with
  | Some existing =>
    do eg <- get_group_id s existing;
    Ok (if Nat.eqb eg rg then s else push s (OEq existing result))
  | None =>
    let id := length (eg_apps s) in
    do groups <- foldm (fun gs g =>
        match nth_error gs g with
        | Some (Info i) => Ok (upd gs g (Info (GI (gi_terms i) (gi_apps i ++ [id]) (gi_ineq i))))
        | _ => Panic
        end) (key_groups (func, arg)) (eg_groups s);
    Ok (set_apps (set_groups s groups) (eg_apps s ++ [Some (AI (func, arg) result)])
                 (map_set key_eqb (eg_amap s) (func, arg) result))
  end.

(** 221-228 [ApplicationKey::remap_group] *)
Definition key_remap (old new : nat) (k : nat * nat) : nat * nat :=
  (if Nat.eqb (fst k) old then new else fst k, if Nat.eqb (snd k) old then new else snd k).

(** the meaning of a [LiteralId] over groups *)
Definition lit_of (l r : nat) (p : bool) : litid := litid_new (N.of_nat l) (N.of_nat r) p.

Section Orders.
(** the order in which the k-th iteration over a hash table visits its keys *)
Context (ordk : nat -> list nat -> list nat) (ordc : nat -> list clauseid -> list clauseid).

(** clause_set.rs:313-327, 331-345 with the removed clauses in the order in which the caller sees them *)
Definition remove_literal (s : egraph) (l : litid) : egraph * list clauseid :=
  let cs := ordc (eg_tick s) (literal_entry (eg_clauses s) l) in
  (tick (set_clauses s (cs_remove_all (eg_clauses s) cs)), cs).
Definition remove_group (s : egraph) (g : nat) : egraph * list clauseid :=
  let cs := ordc (eg_tick s) (group_entry (eg_clauses s) (N.of_nat g)) in
  (tick (set_clauses s (cs_remove_all (eg_clauses s) cs)), cs).

(** 1133-1156 [handle_inequality] *)
Definition handle_inequality (s : egraph) (g1 g2 : nat) : egraph :=
  let (s, pos) := remove_literal s (lit_of g1 g2 true) in
  let (s, neg) := remove_literal s (lit_of g1 g2 false) in
  fold_left (fun s c => push s (OClause c)) (pos ++ neg) s.

(** 699-708: take the old group's information, leave the forwarding *)
Definition take_group (s : egraph) (old new : nat) : res (egraph * ginfo) :=
  do i <- get_group_info s old; Ok (set_groups s (upd (eg_groups s) old (Remapped new)), i).
(** 710-712 *)
Definition move_terms (s : egraph) (new : nat) (ts : list nat) : res egraph :=
  do terms <- foldm (fun l t =>
     do i <- unwrap (nth_error l t); Ok (upd l t (TI (ti_term i) new (ti_decomp i)))) ts (eg_terms s);
  Ok (set_terms s terms).
(** 714-746: one application of the old group; the second component collects those that stay *)
Definition move_application (old new : nat) (sk : egraph * list nat) (id : nat) : res (egraph * list nat) :=
  let (s, keep) := sk in
  do o <- unwrap (nth_error (eg_apps s) id);
  match o with
  | None => Ok (s, keep)
  | Some app =>
    let amap := map_remove key_eqb (eg_amap s) (ai_key app) in
    let key := key_remap old new (ai_key app) in
    match map_get key_eqb amap key with
    | Some existing =>
      Ok (push (set_apps s (upd (eg_apps s) id None) amap) (OEq (ai_res app) existing), keep)
    | None =>
      Ok (set_apps s (upd (eg_apps s) id (Some (AI key (ai_res app)))) (map_set key_eqb amap key (ai_res app)),
          keep ++ [id])
    end
  end.
(** 748-774: one inequality of the old group; the second component are the discovered inequalities *)
Definition move_inequality (old new : nat) (sd : egraph * list (nat * nat)) (g : nat) : res (egraph * list (nat * nat)) :=
  let (s, disc) := sd in
  do i <- get_group_info s g;
  if memb old (gi_ineq i) then
    let rest := delete old (gi_ineq i) in
    let put l := set_groups s (upd (eg_groups s) g (Info (GI (gi_terms i) (gi_apps i) l))) in
    if Nat.eqb g new then Ok (set_contra (put rest), disc)
    else if memb new rest then Ok (put rest, disc)
    else Ok (put (new :: rest), disc ++ [(g, new)])
  else Panic.
(** 781-798: the new group's information after the merge *)
Definition merge_info (new : nat) (i old : ginfo) (keep order : list nat) : ginfo :=
  GI (gi_terms i ++ gi_terms old) (gi_apps i ++ keep)
     (fold_left (fun l g => if negb (Nat.eqb g new) && negb (memb g l) then g :: l else l) order (gi_ineq i)).
(** 815-827: the reverse of one inequality of the new group *)
Definition reverse_inequality (new : nat) (sd : egraph * list (nat * nat)) (g : nat) : res (egraph * list (nat * nat)) :=
  let (s, disc) := sd in
  match nth_error (eg_groups s) g with
  | None => Panic
  | Some (Remapped _) => Ok (s, disc)
  | Some (Info i) =>
    if memb new (gi_ineq i) then Ok (s, disc)
    else Ok (set_groups s (upd (eg_groups s) g (Info (GI (gi_terms i) (gi_apps i) (new :: gi_ineq i)))), disc ++ [(g, new)])
  end.
(** 836-866: a clause that mentions the old group *)
Definition remap_id (old new : nat) (g : N) : N := if N.eqb g (N.of_nat old) then N.of_nat new else g.
Definition move_clause (old new : nat) (s : egraph) (c : clauseid) : egraph :=
  match clauseid_new (map (fun l => litid_new (remap_id old new (lleft l)) (remap_id old new (lright l)) (lpos l)) c) with
  | NTrue => s
  | NFalse => set_contra s
  | NClause c' => push s (OClause c')
  end.
Definition handle_all (s : egraph) (l : list (nat * nat)) : egraph :=
  fold_left (fun s p => handle_inequality s (fst p) (snd p)) l s.

(** 688-870 [remap_group] *)
Definition remap_group (s : egraph) (old new : nat) : res egraph :=
  do (s, oi) <- take_group s old new;
  do s <- move_terms s new (gi_terms oi);
  do (s, keep) <- foldm (move_application old new) (gi_apps oi) (s, []);
  let order := ordk (eg_tick s) (gi_ineq oi) in
  do (s, disc) <- foldm (move_inequality old new) order (tick s, []);
  let s := handle_all s disc in
  do ni <- get_group_info s new;
  let mi := merge_info new ni oi keep (ordk (eg_tick s) (gi_ineq oi)) in
  let s := tick (set_groups s (upd (eg_groups s) new (Info mi))) in
  do (s, disc) <- foldm (reverse_inequality new) (ordk (eg_tick s) (gi_ineq mi)) (tick s, []);
  let s := handle_all s disc in
  let (s, cs) := remove_group s old in
  Ok (fold_left (move_clause old new) cs s).

(** 1524-1552 [update_group_id]: the chain of forwardings, then path compression.  A chain longer
    than the number of groups is a cycle, on which the code does not return. *)
Fixpoint chase (n : nat) (gs : list pgroup) (g : nat) : res (list nat * nat) :=
  match n with
  | 0 => NoFuel
  | S n =>
    do o <- unwrap (nth_error gs g);
    match o with
    | Info _ => Ok ([], g)
    | Remapped h => do (chain, last) <- chase n gs h; Ok (g :: chain, last)
    end
  end.
Definition update_group_id (s : egraph) (g : nat) : res (egraph * nat) :=
  do (chain, last) <- chase (S (length (eg_groups s))) (eg_groups s) g;
  Ok (set_groups s (fold_left (fun gs i => upd gs i (Remapped last)) (removelast chain) (eg_groups s)), last).

(** 880-917: the loop that evaluates the literals; [None] is a true literal *)
Fixpoint evaluate_literals (s : egraph) (c : list litid) (acc : list litid) : res (egraph * option (list litid)) :=
  match c with
  | [] => Ok (s, Some acc)
  | l :: c =>
    do (s, left) <- update_group_id s (N.to_nat (lleft l));
    do (s, right) <- update_group_id s (N.to_nat (lright l));
    if Nat.eqb left right then
      if lpos l then Ok (s, None) else evaluate_literals s c acc
    else
    do li <- get_group_info s left;
    if memb right (gi_ineq li) then
      if negb (lpos l) then Ok (s, None) else evaluate_literals s c acc
    else evaluate_literals s c (acc ++ [lit_of left right (lpos l)])
  end.

(** 985-994: the clause with the i-th literal's sign flipped; 1000-1005 without it *)
Definition flip_literal (c : clauseid) (i : nat) : clauseid :=
  match nth_error c i with
  | Some l => upd c i (litid_new (lleft l) (lright l) (negb (lpos l)))
  | None => c
  end.
Fixpoint without (c : clauseid) (i : nat) : clauseid :=
  match c, i with
  | [], _ => []
  | _ :: r, 0 => r
  | x :: r, S i => x :: without r i
  end.
(** 980-1027: the resolution with clauses of the set that differ in one sign *)
Definition resolve_literal (c : clauseid) (s : egraph) (i : nat) : egraph :=
  if set_mem (flip_literal c i) (cs_clauses (eg_clauses s)) then
    match clauseid_new (without c i) with
    | NTrue => s
    | NFalse => set_contra s
    | NClause r => if set_mem r (cs_clauses (eg_clauses s)) then s else push s (OClause r)
    end
  else s.
(** 960-1031: the insertion of a clause in normal form *)
Definition insert_new_clause (s : egraph) (lits : list litid) : egraph :=
  match clauseid_new lits with
  | NTrue => s
  | NFalse => set_contra s
  | NClause c =>
    if set_mem c (cs_clauses (eg_clauses s)) then s else
    fold_left (resolve_literal c) (seq 0 (length c)) (set_clauses s (cs_insert (eg_clauses s) c))
  end.
(** 874-1032 [insert_clause_normalized] *)
Definition insert_clause_normalized (s : egraph) (c : clauseid) : res egraph :=
  do (s, o) <- evaluate_literals s c [];
  match o with
  | None => Ok s
  | Some [] => Ok (set_contra s)
  | Some [l] =>
    do (s, lg) <- update_group_id s (N.to_nat (lleft l));
    do (s, rg) <- update_group_id s (N.to_nat (lright l));
    do li <- get_group_info s lg;
    do ri <- get_group_info s rg;
    match gi_terms li, gi_terms ri with
    | lt :: _, rt :: _ => Ok (push s (if lpos l then OEq lt rt else ONeq lt rt))
    | _, _ => Ok (insert_new_clause s [l])
    end
  | Some lits => Ok (insert_new_clause s lits)
  end.

(** 1061-1082 [set_terms_equal_once] *)
Definition heuristic_size (i : ginfo) : nat := length (gi_terms i) + length (gi_apps i).
Definition set_terms_equal_once (s : egraph) (t1 t2 : nat) : res egraph :=
  do g1 <- get_group_id s t1;
  do g2 <- get_group_id s t2;
  if Nat.eqb g1 g2 then Ok s else
  do i1 <- get_group_info s g1;
  do i2 <- get_group_info s g2;
  let s1 := heuristic_size i1 in let s2 := heuristic_size i2 in
  if Nat.ltb s1 s2 || (Nat.eqb s1 s2 && Nat.ltb g2 g1) then remap_group s g1 g2 else remap_group s g2 g1.

(** 1158-1192 [set_terms_not_equal_once] *)
Definition set_terms_not_equal_once (s : egraph) (t1 t2 : nat) : res egraph :=
  do g1 <- get_group_id s t1;
  do g2 <- get_group_id s t2;
  if Nat.eqb g1 g2 then Ok (set_contra s) else
  do i1 <- get_group_info s g1;
  if memb g2 (gi_ineq i1) then do _ <- get_group_info s g2; Ok s else
  let s := set_groups s (upd (eg_groups s) g1 (Info (GI (gi_terms i1) (gi_apps i1) (g2 :: gi_ineq i1)))) in
  do i2 <- get_group_info s g2;
  if memb g1 (gi_ineq i2) then Panic else
  Ok (handle_inequality (set_groups s (upd (eg_groups s) g2 (Info (GI (gi_terms i2) (gi_apps i2) (g1 :: gi_ineq i2))))) g1 g2).

(** 1034-1056 [process_pending] *)
Definition process_one (s : egraph) (o : semop) : res egraph :=
  match o with
  | OEq a b => set_terms_equal_once s a b
  | ONeq a b => set_terms_not_equal_once s a b
  | OClause c => insert_clause_normalized s c
  end.
Fixpoint process_pending (n : nat) (s : egraph) : res egraph :=
  match n with
  | 0 => NoFuel
  | S n =>
    match eg_pending s with
    | [] => Ok s
    | o :: rest =>
      let s := set_pending s rest in
      if eg_contra s then Ok s else do s <- process_one s o; process_pending n s
    end
  end.

(** 467-523 [insert_application]; [ins] is the recursive call of [insert_term] *)
Definition swapped_eq (t : term) : option term :=
  match spine_head t, args t with
  | h, [x; y; z] =>
    match head_atom h with
    | Sym SEq => if term_eqb (teq x z y) t then None else Some (teq x z y)
    | _ => None
    end
  | _, _ => None
  end.
Definition insert_application (ins : egraph -> term -> res (egraph * nat)) (s : egraph) (func arg : nat) : res (egraph * nat) :=
  match map_get decomp_eqb (eg_decomps s) (DApp func arg) with
  | Some id => Ok (s, id)
  | None =>
    do ft <- get_term s func;
    do at_ <- get_term s arg;
    let t := TApp ft at_ in
    let (s, id) := new_term s t (DApp func arg) in
    let s := add_decomp s (DApp func arg) id in
    do fg <- get_group_id s func;
    do ag <- get_group_id s arg;
    do s <- insert_group_application s fg ag id;
    match swapped_eq t with
    | None => Ok (s, id)
    | Some sw => do (s, sid) <- ins s sw; Ok (push s (OEq id sid), id)
    end
  end.

(** 595-640 [insert_term] *)
Fixpoint insert_term (n : nat) (s : egraph) (t : term) : res (egraph * nat) :=
  match n with
  | 0 => NoFuel
  | S n =>
    do (s, id) <-
      match t with
      | TAtom a => Ok (insert_atom s a)
      | TApp f a =>
        do (s, fid) <- insert_term n s f;
        do (s, aid) <- insert_term n s a;
        insert_application (insert_term n) s fid aid
      | TBind _ _ _ => Ok (insert_opaque_term s t)
      end;
    do s <- process_pending n s;
    Ok (s, id)
  end.

(** 1087-1126 [set_terms_equal], [set_terms_not_equal] *)
Definition set_terms_equal (n : nat) (s : egraph) (t1 t2 : nat) : res egraph := process_pending n (push s (OEq t1 t2)).
Definition set_terms_not_equal (n : nat) (s : egraph) (t1 t2 : nat) : res egraph := process_pending n (push s (ONeq t1 t2)).

(** 650-668, 1360-1366: the literals of a clause as ids; the groups are read when each literal is inserted *)
Definition literal_id (n : nat) (s : egraph) (l : literal) : res (egraph * litid) :=
  do (s, li) <- insert_term n s (left l);
  do (s, ri) <- insert_term n s (right l);
  do lg <- get_group_id s li;
  do rg <- get_group_id s ri;
  Ok (s, lit_of lg rg (positive l)).
Fixpoint literal_ids (n : nat) (s : egraph) (c : list literal) : res (egraph * list litid) :=
  match c with
  | [] => Ok (s, [])
  | l :: c => do (s, i) <- literal_id n s l; do (s, is) <- literal_ids n s c; Ok (s, i :: is)
  end.

(** 646-685 [insert_clause] *)
Definition insert_clause (n : nat) (s : egraph) (c : list literal) : res egraph :=
  match c with
  | [l] =>
    do (s, li) <- insert_term n s (left l);
    do (s, ri) <- insert_term n s (right l);
    if positive l then set_terms_equal n s li ri else set_terms_not_equal n s li ri
  | _ =>
    do (s, ids) <- literal_ids n s c;
    process_pending n
      match clauseid_new ids with
      | NTrue => s
      | NFalse => set_contra s
      | NClause c => push s (OClause c)
      end
  end.

(** 1206-1234 [evaluate_literal] *)
Definition evaluate_literal (n : nat) (s : egraph) (l : literal) : res (egraph * option bool) :=
  if has_any_variable (left l) || has_any_variable (right l) then Ok (s, None) else
  do (s, li) <- insert_term n s (left l);
  do (s, ri) <- insert_term n s (right l);
  do lg <- get_group_id s li;
  do rg <- get_group_id s ri;
  if Nat.eqb lg rg then Ok (s, Some (positive l)) else
  do i <- get_group_info s lg;
  if memb rg (gi_ineq i) then Ok (s, Some (negb (positive l))) else Ok (s, None).

(** 1345-1385 [clause_exists] *)
Definition clause_exists (n : nat) (s : egraph) (c : list literal) : res (egraph * bool) :=
  match c with
  | [] => Ok (s, false)
  | _ =>
    if existsb (fun l => has_any_variable (left l) || has_any_variable (right l)) c then Ok (s, false) else
    do (s, ids) <- literal_ids n s c;
    Ok (s, match clauseid_new ids with
           | NTrue => true
           | NFalse => eg_contra s
           | NClause c => set_mem c (cs_clauses (eg_clauses s))
           end)
  end.
(** 1329-1333, the loop *)
Fixpoint some_literal_true (n : nat) (s : egraph) (c : list literal) : res (egraph * bool) :=
  match c with
  | [] => Ok (s, false)
  | l :: c =>
    do (s, v) <- evaluate_literal n s l;
    match v with Some true => Ok (s, true) | _ => some_literal_true n s c end
  end.
(** 1324-1342 [check_clause] *)
Definition check_clause (n : nat) (s : egraph) (c : list literal) : res (egraph * bool) :=
  if eg_contra s then Ok (s, true) else
  do (s, b) <- some_literal_true n s c;
  if b then Ok (s, true) else clause_exists n s c.
End Orders.
