(** Model of the claims of a certificate (src/kernel/certificate_step.rs).  [n] bounds the recursion of term
    normalization. *)
From Coq Require Import List Arith Bool.
Import ListNotations.
From Verif Require Import Term LocalContext Literal Clause TermNorm Typing VariableMap EqualityGraph Checker.

(** 20-28 [Claim] *)
Record claim := CLAIM { clm_clause : clause; clm_map : vmap }.

(** 37-45: the number of leading type parameters *)
Fixpoint leading_type_params (c : lctx) : nat :=
  match c with
  | Some T :: r => if is_type_param_kind T then S (leading_type_params r) else 0
  | _ => 0
  end.
(** 51, [VariableMap::apply_to_all] *)
Fixpoint normalize_map (n : nat) (m : vmap) : option vmap :=
  match m with
  | [] => Some []
  | None :: r => option_map (cons None) (normalize_map n r)
  | Some t :: r =>
    match normalize_term n t, normalize_map n r with Some t', Some r' => Some (Some t' :: r') | _, _ => None end
  end.
(** 53-59: the mapped terms in the order of their variables, renumbered; [None]: a panic *)
Fixpoint renumber_map (c : lctx) (ids : list nat) (m : vmap) : option (vmap * list nat) :=
  match m with
  | [] => Some ([], ids)
  | None :: r => option_map (fun x => (None :: fst x, snd x)) (renumber_map c ids r)
  | Some t :: r =>
    match normalize_var_ids c ids t with
    | None => None
    | Some (t', ids') => option_map (fun x => (Some t' :: fst x, snd x)) (renumber_map c ids' r)
    end
  end.
(** 80-98 [validate_var_map_scope] *)
Definition map_in_scope (cl : claim) : bool :=
  let len := length (context (clm_clause cl)) in
  forallb (fun i => match vget (clm_map cl) i with
                    | Some t => Nat.ltb i len && forallb (fun v => Nat.ltb v len) (vars t)
                    | None => true
                    end) (seq 0 (length (clm_map cl))).
(** 36-78 [Claim::new]; [Ok None]: an error *)
Definition claim_new (n : nat) (c : clause) (m : vmap) : res (option claim) :=
  do t <- unwrap (normalize_with_trace_pinned (literals c) (context c) (leading_type_params (context c)));
  do m1 <- fueled (normalize_map n m);
  do r <- unwrap (renumber_map (context c) (snd t) m1);
  let (m2, ids) := r in
  do out <- unwrap (LocalContext.remap (context c) ids);
  let cl := CLAIM (Clause (literals (fst t)) out) (map (vget m2) ids) in
  Ok (if map_in_scope cl then Some cl else None).
(** 251-253 [normalized_generic_clause] *)
Definition claim_generic (cl : claim) : clause := clm_clause cl.
(** 260-281 [specialized_clause_for_display], [normalized_specialized_clause] *)
Definition claim_specialized (n : nat) (al : aliases) (cl : claim) : res (option clause) :=
  if map_in_scope cl then
    do c <- unwrap (specialize_clause_compact al (clm_map cl) (clm_clause cl));
    do c' <- checker_normal n c; Ok (Some c')
  else Ok None.
