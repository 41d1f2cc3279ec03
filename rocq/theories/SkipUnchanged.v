(** Model of skipping modules that did not change: src/builder.rs:3717-3797, 1813-1827, 2934-2977, 3803-3813,
    src/project.rs:3842-3869 and 1759-1776.
    A hash stands for the text it is computed from.  Elaboration and search are not modelled: a build says for each of its
    targets which certificates it found and whether all goals were proved. *)
From Coq Require Import String Ascii List Arith Bool.
Import ListNotations.
From Verif Require Import BuildCache.

(** the files at the time of a build *)
Record world := World { w_exists : path -> bool; w_text : path -> string }.

Section Skip.
(** [imports]: the names a module text imports *)
Context (src : path) (imports : string -> list (list string)).
Definition source (w : world) (d : descriptor) : option path := source_path (w_exists w) src d.
(** project.rs:2220 [get_module_content_hash] *)
Definition hash (w : world) (d : descriptor) : option string := option_map (w_text w) (source w d).
(** [BindingMap::direct_dependencies] *)
Definition direct (w : world) (d : descriptor) : list descriptor :=
  match hash w d with Some t => map Name (imports t) | None => [] end.
(** project.rs:3842-3869 [append_dependencies]: whether the module is new, what was seen, and the output ([None]: out of fuel) *)
Fixpoint each (go : list descriptor -> list descriptor -> descriptor -> option (bool * list descriptor * list descriptor))
              (l seen out : list descriptor) : option (bool * list descriptor * list descriptor) :=
  match l with
  | [] => Some (true, seen, out)
  | e :: l => match go seen out e with
              | None => None
              | Some (new, seen, out) => each go l seen (if new then out ++ [e] else out)
              end
  end.
Fixpoint append_deps (fuel : nat) (w : world) (seen out : list descriptor) (d : descriptor) : option (bool * list descriptor * list descriptor) :=
  match fuel with
  | 0 => None
  | S fuel => if existsb (desc_eqb d) seen then Some (false, seen, out) else each (append_deps fuel w) (direct w d) (d :: seen) out
  end.
Definition all_deps (fuel : nat) (w : world) (d : descriptor) : option (list descriptor) :=
  option_map snd (append_deps fuel w [] [] d).
(** builder.rs:3720-3735 [dependency_hashes_for_module] *)
Definition dep_hashes (w : world) (deps : list descriptor) : list (descriptor * string) :=
  flat_map (fun e => match hash w e with Some h => [(e, h)] | None => [] end) deps.
(** 3737-3797 [try_skip_unchanged_module]: whether the module is skipped; [check] is [check_hashes] without [force_search] *)
Definition matches (w : world) (k : cache) (d : descriptor) : bool :=
  match hash w d with Some h => manifest_matches (w_exists w) src k d h | None => false end.
Definition skips (check : bool) (w : world) (k : cache) (d : descriptor) (deps : list descriptor) : bool :=
  check && matches w k d && forallb (matches w k) deps && mhas desc_eqb d (certs k).

(** One module of a build: a target with the certificates found and whether all goals were proved (2934-2977), or an interface
    that was validated (1813-1827). *)
Inductive action := Verify (d : descriptor) (s : store) (good : bool) | Validate (d : descriptor).
Definition module_of (a : action) : descriptor := match a with Verify d _ _ | Validate d => d end.
(** the new cache of the build, and the modules that were really verified or validated *)
Definition act (fuel : nat) (check : bool) (w : world) (k : cache) (st : cache * list (world * descriptor)) (a : action) : option (cache * list (world * descriptor)) :=
  let '(c, log) := st in
  match all_deps fuel w (module_of a), hash w (module_of a) with
  | Some deps, Some h =>
    match a with
    | Verify d s good =>
      if skips check w k d deps then Some (record_state (w_exists w) src c d h (dep_hashes w deps), log) else
      if good then Some (insert (w_exists w) src c d s (Some h) (dep_hashes w deps), (w, d) :: log)
      else Some (insert (w_exists w) src c d s None [], log)
    | Validate d => Some (record_state (w_exists w) src c d h (dep_hashes w deps), (w, d) :: log)
    end
  | _, _ => None
  end.
Fixpoint acts (fuel : nat) (check : bool) (w : world) (k : cache) (st : cache * list (world * descriptor)) (l : list action) : option (cache * list (world * descriptor)) :=
  match l with
  | [] => Some st
  | a :: l => match act fuel check w k st a with Some st => acts fuel check w k st l | None => None end
  end.
(** project.rs:1759-1776 [update_build_cache]: [preserve] is a partial build, [write] whether the cache is written *)
Definition update (write preserve : bool) (new k : cache) : cache :=
  if write then saved_cache new k preserve else merge_certificates new k.

(** ** Histories
    a module that loads: it and everything it imports has one source file *)
Inductive depends (w : world) : descriptor -> descriptor -> Prop :=
| depends_direct d e : In e (direct w d) -> depends w d e
| depends_trans d e x : In e (direct w d) -> depends w e x -> depends w d x.
Definition resolves (w : world) (d : descriptor) : Prop :=
  match d with Name parts => parts <> [] /\ forallb valid_part parts = true | _ => False end /\
  exists p, path_from_descriptor (w_exists w) src d = Some p /\ w_exists w p = true.
Definition loads (w : world) (d : descriptor) : Prop := resolves w d /\ forall e, depends w d e -> resolves w e.
(** The caches after builds in any worlds, with what was verified on the way.  A build that fails with an error leaves the cache (3805). *)
Inductive history (ok : bool -> bool -> Prop) : cache -> list (world * descriptor) -> Prop :=
| h_empty : history ok no_cache []
| h_build k log fuel check w l new log' write preserve : history ok k log -> ok write preserve ->
    (forall a, In a l -> loads w (module_of a)) -> acts fuel check w k (no_cache, log) l = Some (new, log') ->
    history ok (update write preserve new k) log'.
End Skip.
