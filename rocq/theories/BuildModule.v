(** Model of how the builder verifies the goals of a module and decides whether it is good: [verify_goal] (src/builder.rs
    2257-2553), [search_finished] (1890-2008), [verify_lowered_claim] and [verify_lowered_items] (2692-2850), and
    [verify_lowered_module] (2852-2976); and the loop over batches of modules (1365-1401; src/verifier.rs 644-686, 796-804).

    Simplified: checking a certificate, searching, making a certificate and cancellation are given functions of the goal and
    the facts of the processor.  Not in evaluation mode; not for interface modules, surface checks and packages whose
    certificates are suppressed (they return without a record), and no axioms in strict mode (an error).  A panic while a
    certificate is made is an error too.  Metrics, events and hashes are left out: a record says whether it has the hash. *)
From Coq Require Import List Arith Bool.
Import ListNotations.
From Verif Require Import LoweredModule.

(** builder.rs 1190-1199; prover [Outcome], with the outcomes that only warn as one *)
Inductive status := Good | Warning | Error.
Inductive found := Success | Interrupted | NotFound.
Definition is_good (s : status) : bool := match s with Good => true | _ => false end.
(** builder.rs 1210-1214 *)
Definition warn (s : status) : status := match s with Good => Warning | _ => s end.

Section Build.
  Context {Cert : Type}.
  Context (cert_goal : Cert -> nat) (goal_name : nat -> nat).
  Context (check : Cert -> nat -> list nat -> bool) (trim : Cert -> nat -> list nat -> Cert).
  Context (search : nat -> list nat -> found) (make : nat -> list nat -> option Cert) (cancelled : nat -> bool).
  (** builder.rs 240-320: [b_force] is [print_found_proof || force_search]; the filter says which goals are verified *)
  Record settings := SET { b_check : bool; b_force : bool; b_override : option Cert; b_filter : option (nat -> bool); b_exit : bool }.
  Context (set : settings).

  (** [st_good] is [current_module_good]; the worklist has the unused certificates with their indexes *)
  Record bstate := BST { st_status : status; st_good : bool; st_certs : list Cert; st_work : list (nat * Cert) }.

  (** The loop of builder.rs 2303-2372: a certificate with its index, an error in check mode, or nothing *)
  Inductive cached := Hit (i : nat) (c : Cert) | Bad | Miss.
  Fixpoint try_cached (g : nat) (V : list nat) (cs : list (nat * Cert)) : cached :=
    match cs with
    | [] => Miss
    | (i, c) :: cs => if check c g V then Hit i (trim c g V) else if b_check set then Bad else try_cached g V cs
    end.
  (** certificate.rs 2321-2339 *)
  Definition entries (g : nat) (w : list (nat * Cert)) := filter (fun e => cert_goal (snd e) =? goal_name g) w.
  Definition remove_index (i : nat) (w : list (nat * Cert)) := filter (fun e => negb (fst e =? i)) w.

  (** builder.rs 2257-2553; no value for an error *)
  Definition verify_goal (g : nat) (V : list nat) (st : bstate) : option bstate :=
    if cancelled g then None
    else match b_override set with
      | Some c => if check c g V then Some st else None
      | None =>
          match (if b_force set then Miss else try_cached g V (entries g (st_work st))) with
          | Hit i c => Some (BST (st_status st) (st_good st) (st_certs st ++ [c]) (remove_index i (st_work st)))
          | Bad => None
          | Miss =>
              if b_check set then None
              else match search g V with
                | Success => match make g V with
                             | Some c => Some (BST (st_status st) (st_good st) (st_certs st ++ [c]) (st_work st))
                             | None => None
                             end
                | Interrupted => Some (BST Error false (st_certs st) (st_work st))
                | NotFound => Some (BST (warn (st_status st)) false (st_certs st) (st_work st))
                end
          end
      end.
  (** builder.rs 2692-2758 *)
  Definition wanted (g : nat) : bool := match b_filter set with Some f => f g | None => true end.
  Definition verify_claim (g : nat) (V : list nat) (st : bstate) : option bstate := if wanted g then verify_goal g V st else Some st.

  (** builder.rs 2760-2850, with the stop at the first warning *)
  Definition build_list (f : litem -> list nat * bstate -> option (list nat * bstate)) : list litem -> list nat * bstate -> option (list nat * bstate) :=
    fix go is s := match is with
      | [] => Some s
      | i :: is => match f i s with
                   | None => None
                   | Some s => if b_exit set && negb (is_good (st_status (snd s))) then Some s else go is s
                   end
      end.
  Fixpoint build_item (top : bool) (i : litem) (s : list nat * bstate) : option (list nat * bstate) :=
    let (proc, st) := s in
    match i with
    | IFact f => Some (proc ++ [f], st)
    | IClaim g f => match verify_claim g proc st with None => None | Some st => Some (proc ++ [f], st) end
    | IBlock is ext =>
        match (if match is with [] => true | _ => false end && top then Some st
               else option_map snd (build_list (build_item false) is (proc, st))) with
        | None => None
        | Some st => Some (match ext with Some f => proc ++ [f] | None => proc end, st)
        end
    end.
  Definition build_items (top : bool) := build_list (build_item top).

  (** builder.rs 2852-2976: the state after it and the record for the cache, with the number of the used certificates and
      whether it has the hash of the module; [s0] is the status before *)
  Definition verify_module (s0 : status) (store : list Cert) (items : list litem) : option (bstate * option (list Cert * nat * bool)) :=
    let work := combine (seq 0 (length store)) store in
    let st := BST s0 true [] work in
    match (match items with [] => Some st | _ => option_map snd (build_items true items ([], st)) end) with
    | None => None
    | Some st =>
        match b_filter set with
        | Some _ => Some (st, None)
        | None => Some (st, Some (st_certs st ++ map snd (st_work st), length (st_certs st), st_good st))
        end
    end.
End Build.
Arguments settings : clear implicits.
Arguments bstate : clear implicits.

(** The work for a module, with its own goals: what checking and searching do with them *)
Record work Cert := WORK { w_name : nat -> nat; w_check : Cert -> nat -> list nat -> bool; w_trim : Cert -> nat -> list nat -> Cert;
  w_search : nat -> list nat -> found; w_make : nat -> list nat -> option Cert; w_cancelled : nat -> bool; w_store : list Cert; w_items : list litem }.
Arguments WORK {Cert}. Arguments w_name {Cert}. Arguments w_check {Cert}. Arguments w_trim {Cert}. Arguments w_search {Cert}.
Arguments w_make {Cert}. Arguments w_cancelled {Cert}. Arguments w_store {Cert}. Arguments w_items {Cert}.

Section Stream.
  Context {Cert : Type} (cert_goal : Cert -> nat) (set : settings Cert).
  Definition verify_work (s : status) (w : work Cert) :=
    verify_module cert_goal (w_name w) (w_check w) (w_trim w) (w_search w) (w_make w) (w_cancelled w) set s (w_store w) (w_items w).
  Definition is_error (s : status) : bool := match s with Error => true | _ => false end.
  (** builder.rs 1391-1400 and 3459-3525 without modules that are skipped as unchanged; an error of a module sets the status
      (2137-2149).  The records are those that are inserted into the cache. *)
  Fixpoint process_modules (s : status) (ws : list (work Cert)) : status * list (work Cert * (list Cert * nat * bool)) :=
    match ws with
    | [] => (s, [])
    | w :: ws =>
        match verify_work s w with
        | None => (Error, [])
        | Some (st, rec) =>
            let recs := match rec with Some r => [(w, r)] | None => [] end in
            if b_exit set && negb (is_good (st_status st)) || is_error (st_status st) then (st_status st, recs)
            else let (s, recs') := process_modules (st_status st) ws in (s, recs ++ recs')
        end
    end.
  (** builder.rs 1365-1401 without parallel work, which [exit_on_warning] excludes (2977-2992) *)
  Definition process_batch (s : status) (ws : list (work Cert)) := if is_error s then (s, []) else process_modules s ws.
  (** verifier.rs 644-686: the modules come in batches, and only an error ends the loop *)
  Fixpoint stream (s : status) (batches : list (list (work Cert))) : status * list (work Cert * (list Cert * nat * bool)) :=
    match batches with
    | [] => (s, [])
    | b :: bs => let (s, recs) := process_batch s b in
                 if is_error s then (s, recs) else let (s, recs') := stream s bs in (s, recs ++ recs')
    end.
  (** verifier.rs 796-804: the records are written unless there was an error *)
  Definition saved (batches : list (list (work Cert))) : list (work Cert * (list Cert * nat * bool)) :=
    let (s, recs) := stream Good batches in if is_error s then [] else recs.
End Stream.
