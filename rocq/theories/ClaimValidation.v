(** Model of the validation of claims (src/kernel/certificate_step.rs:101-240).  [n] bounds the recursion of term
    normalization.  The result [Ok false] stands for an error message. *)
From Coq Require Import List Arith Bool.
Import ListNotations.
From Verif Require Import Term LocalContext Literal Clause TermNorm Typing VariableMap EqualityGraph Checker CertificateStep.

(** 101-112 [specialized_replacement_context] *)
Definition replacement_context (cl : claim) : option lctx :=
  option_map (keep_unmapped (clm_map cl) (context (clm_clause cl)))
    (build_output_context (clm_map cl) (context (clm_clause cl))).
(** 114-133 [term_has_expected_type] *)
Definition has_expected_type (K : kctx) (c : lctx) (t actual expected : term) : bool :=
  match expected with
  | TSym (STypeclass m i) => term_eqb actual type0 || k_instance K t c (m, i)
  | TSym SType0 => is_type_param_kind actual || term_eqb actual expected
  | _ => term_eqb actual expected
  end.
(** 135-170 [validate_var_map_types] *)
Definition map_entry_ok (n : nat) (K : kctx) (cl : claim) (rc : lctx) (i : nat) : res bool :=
  match vget (clm_map cl) i with
  | None => Ok true
  | Some t =>
    match get_var_type (context (clm_clause cl)) i with
    | None => Ok false
    | Some T =>
      do expected <- fueled (normalize_term n (apply_to_term (clm_map cl) T));
      match checked_type K rc t with
      | None => Ok false
      | Some U => do actual <- fueled (normalize_term n U); Ok (has_expected_type K rc t actual expected)
      end
    end
  end.
Fixpoint all_res {A} (f : A -> res bool) (l : list A) : res bool :=
  match l with
  | [] => Ok true
  | x :: r => do b <- f x; if b then all_res f r else Ok false
  end.
Definition validate_map_types (n : nat) (K : kctx) (cl : claim) : res bool :=
  do rc <- unwrap (replacement_context cl);
  all_res (map_entry_ok n K cl rc) (seq 0 (length (clm_map cl))).
(** 172-232 [validate_clause_well_typed] *)
Definition var_type_ok (K : kctx) (c : lctx) (o : option term) : bool :=
  match o with
  | None => true
  | Some T => match checked_type K c T with Some k => is_type_param_kind k | None => false end
  end.
Definition literal_ok (n : nat) (K : kctx) (c : lctx) (l : literal) : res bool :=
  match checked_type K c (left l) with
  | None => Ok false
  | Some A =>
    do A <- fueled (normalize_term n A);
    match checked_type K c (right l) with
    | None => Ok false
    | Some B => do B <- fueled (normalize_term n B); Ok (term_eqb A B)
    end
  end.
Definition validate_clause (n : nat) (K : kctx) (c : clause) : res bool :=
  if validate_variable_ordering (context c) && forallb (var_type_ok K (context c)) (context c)
  then all_res (literal_ok n K (context c)) (literals c) else Ok false.
(** 234-241 [validate_checker_payload] *)
Definition validate_payload (n : nat) (K : kctx) (al : aliases) (cl : claim) : res bool :=
  if map_in_scope cl then
    do a <- validate_clause n K (clm_clause cl);
    if a then
      do b <- validate_map_types n K cl;
      if b then
        do s <- claim_specialized n al cl;
        match s with None => Ok false | Some c => validate_clause n K c end
      else Ok false
    else Ok false
  else Ok false.
