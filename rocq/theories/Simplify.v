(** Model of [simplify_file] (src/simplifier.rs 72-167), which removes claims from a file while everything still verifies, with
    [collect_candidates] (295-404), [collect_affected_goals], [can_remove_candidate] and [prove_without_fact] (414-474) and
    [remove_line_range] (476-488).

    Simplified: loading a source, searching for a proof and verifying a module are functions that are given; searches and
    verifications get the number of the candidate too, since they have time limits.  Nobody else changes the file, and writing
    it succeeds.  Messages, paths, options and certificate caches are left out.  Characters are numbers, 10 is the newline. *)
From Coq Require Import List Arith Bool.
Import ListNotations.
From Verif Require Import LoweredModule.

Definition text := list nat.

(** [str::split_inclusive] of the newline *)
Fixpoint split_inclusive (s : text) : list text :=
  match s with
  | [] => []
  | c :: s => if c =? 10 then [c] :: split_inclusive s
              else match split_inclusive s with [] => [[c]] | l :: ls => (c :: l) :: ls end
  end.

(** simplifier.rs 476-488 *)
Definition remove_line_range (source : text) (first last : nat) : option text :=
  if last <? first then None
  else let lines := split_inclusive source in
    if (length lines <=? first) || (length lines <=? last) then None
    else Some (concat (firstn first lines ++ skipn (S last) lines)).

(** lowered_module.rs 39-56, with the lines of claims *)
Inductive sitem :=
| SFact (fact : nat)
| SClaim (goal post first last : nat)
| SBlock (items : list sitem) (ext : option nat).
Fixpoint erase (i : sitem) : litem :=
  match i with
  | SFact f => IFact f
  | SClaim g p _ _ => IClaim g p
  | SBlock is e => IBlock (map erase is) e
  end.

(** A loaded target: items, the number of goals, and which goals and facts are anonymous *)
Record loaded := LOADED { ld_items : list sitem; ld_goals : nat; ld_anon_goal : nat -> bool; ld_anon_fact : nat -> bool }.
(** simplifier.rs 64-70 *)
Record candidate := CAND { c_goal : nat; c_post : nat; c_first : nat; c_last : nat }.

(** simplifier.rs 388-401; the loop from the end is written as a search of the rest first *)
Definition last_list (f : sitem -> option nat) : list sitem -> option nat :=
  fix go is := match is with [] => None | i :: is => match go is with Some r => Some r | None => f i end end.
Fixpoint last_claim (i : sitem) : option nat :=
  match i with SFact _ => None | SClaim _ p _ _ => Some p | SBlock is _ => last_list last_claim is end.
Definition last_claim_fact := last_list last_claim.

(** simplifier.rs 372-386 *)
Fixpoint exported_claims (i : sitem) : list nat :=
  match i with
  | SBlock is _ => match last_claim_fact is with Some f => [f] | None => [] end ++ flat_map exported_claims is
  | _ => []
  end.

(** simplifier.rs 320-370 *)
Fixpoint candidates_in (l : loaded) (exported : list nat) (cursor depth : nat) (i : sitem) : list candidate :=
  match i with
  | SFact _ => []
  | SClaim g p first last =>
      if (0 <? depth) && (cursor <=? first) && negb (existsb (Nat.eqb p) exported) && ld_anon_goal l g && ld_anon_fact l p
      then [CAND g p first last] else []
  | SBlock is _ => flat_map (candidates_in l exported cursor (S depth)) is
  end.
Definition collect_candidates (l : loaded) (cursor : nat) : list candidate :=
  flat_map (candidates_in l (flat_map exported_claims (ld_items l)) cursor 0) (ld_items l).

(** The first candidate in the order of simplifier.rs 308-315 *)
Definition key_ltb (a b : candidate) : bool :=
  if c_first a =? c_first b then
    if c_last a =? c_last b then
      if c_post a =? c_post b then c_goal a <? c_goal b else c_post a <? c_post b
    else c_last a <? c_last b
  else c_first a <? c_first b.
Fixpoint first_candidate (cs : list candidate) : option candidate :=
  match cs with
  | [] => None
  | c :: cs => match first_candidate cs with Some d => Some (if key_ltb d c then d else c) | None => Some c end
  end.

(** simplifier.rs 414-427 *)
Definition visible (l : loaded) (g : nat) : option (list nat) := visible_fact_ids_for g (map erase (ld_items l)).
Definition affected_goals (l : loaded) (fact : nat) : list nat :=
  filter (fun g => match visible l g with Some V => existsb (Nat.eqb fact) V | None => false end) (seq 0 (ld_goals l)).

Section Simplify.
  (** [load]: [load_target]; [prove k s g V]: the outcome of the search for goal [g] of the source [s] from the facts [V], no
      value for an error; [verify k s]: [verify_edited_target] *)
  Context (load : text -> option loaded) (prove : nat -> text -> nat -> list nat -> option bool) (verify : nat -> text -> bool).

  (** simplifier.rs 442-474 *)
  Definition prove_without_fact (k : nat) (s : text) (l : loaded) (fact g : nat) : option bool :=
    match visible l g with
    | None => None
    | Some V => prove k s g (filter (fun f => negb (f =? fact)) V)
    end.
  (** simplifier.rs 429-440 *)
  Fixpoint can_remove (k : nat) (s : text) (l : loaded) (fact : nat) (goals : list nat) : option bool :=
    match goals with
    | [] => Some true
    | g :: goals => match prove_without_fact k s l fact g with
                    | None => None
                    | Some false => Some false
                    | Some true => can_remove k s l fact goals
                    end
    end.

  (** The state of the loop: the file, [working_source], the cursor, [considered], [removed] *)
  Record state := ST { st_file : text; st_work : option text; st_cursor : nat; st_considered : nat; st_removed : list (nat * nat * nat) }.
  Definition init (s : text) : state := ST s None 0 0 [].
  (** What the next round loads *)
  Definition source (st : state) : text := match st_work st with Some s => s | None => st_file st end.

  Inductive outcome := Next (st : state) | Done (st : state) | Failed (st : state).
  (** One round of simplifier.rs 95-159 *)
  Definition step (dry : bool) (st : state) : outcome :=
    let s := source st in
    match load s with
    | None => Failed st
    | Some l =>
        match first_candidate (collect_candidates l (st_cursor st)) with
        | None => Done st
        | Some c =>
            let k := S (st_considered st) in
            let st := ST (st_file st) (st_work st) (st_cursor st) k (st_removed st) in
            let goals := affected_goals l (c_post c) in
            match can_remove k s l (c_post c) goals with
            | None => Failed st
            | Some false => Next (ST (st_file st) (st_work st) (S (c_last c)) k (st_removed st))
            | Some true =>
                match remove_line_range s (c_first c) (c_last c) with
                | None => Failed st
                | Some edited =>
                    match load edited with
                    | None => Failed st
                    | Some _ =>
                        if verify k edited then
                          Next (ST (if dry then st_file st else edited) (if dry then Some edited else None) (c_first c) k
                                   (st_removed st ++ [(c_first c, c_last c, length goals)]))
                        else Failed st
                    end
                end
            end
        end
    end.
  Fixpoint run (fuel : nat) (dry : bool) (st : state) : option (bool * state) :=
    match fuel with
    | 0 => None
    | S fuel => match step dry st with
                | Next st => run fuel dry st
                | Done st => Some (true, st)
                | Failed st => Some (false, st)
                end
    end.
End Simplify.
