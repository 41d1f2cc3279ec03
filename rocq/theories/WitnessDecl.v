(** The [let ... satisfy] lines of certificates (certificate.rs:1846-2175, kernel/certificate_step.rs:312-545) and the
    registry of witnesses of the source (prover/synthetic.rs:102-157, elaborator/lowering.rs:500-535).
    Model only, no proofs. *)
From Coq Require Import List Arith NArith Bool.
Import ListNotations.
From Verif Require Import VariableMap EqualityGraph Checker CertificateStep TraceChecker.
From Verif Require Import Term LocalContext Typing Literal Clause BoolReduction SearchRules Witness.

(** A line [let w(x0: A0, ...) -> z: A satisfy { body }] after lowering.  In the body the arguments are the free variables
    0, 1, ... in the order of the line, and the bound variable 0 is the witness.  A line without arguments is
    [let w: A satisfy { body }].  There are no type parameters. *)
Record declaration := DECL { d_args : list term; d_type : term; d_body : term }.
Definition d_context (d : declaration) : lctx := map Some (d_args d).

(** certificate.rs:2085-2096, 2003-2006: [forall args. exists z. body]; the clause before normalization *)
Definition existence (d : declaration) : clause := Clause [lit_positive (TBind KEx (d_type d) (d_body d))] (d_context d).
(** 2094-2096: the claim that has to be justified has no arguments *)
Definition justification (d : declaration) : option claim := option_map (fun g => CLAIM g []) (normalized (existence d)).

(** 2082, 1918-1930: the type of the new constant *)
Definition declared_type (d : declaration) : term := fold_right tarrow (d_type d) (d_args d).

(** synthetic.rs:102-135, lowering.rs:500-535: for a [let ... satisfy] inside of a value the registry has the constant that was
    made for it and the normalized clause of the existence. *)
Definition registry := list (N * clause).

(** synthetic.rs:110-134, 265-270, clause.rs:1228-1246: the clause that the registry has for the constant; the constant is
    applied to the variables of the normalized clause [c] of the existence in their order *)
Definition registered_clause (w : N) (c : clause) : option clause :=
  match literals c with
  | [Lit true (TBind KEx A b) _] =>
    match open_bound b (apply_args (TSym (SScoped w)) (map (fun v => TVar v) (seq 0 (length (context c))))) with
    | None => None
    | Some t => option_map (fun x => fst (fst x)) (normalize_boolean_reduction [lit_positive t] (context c) (length (context c)))
    end
  | _ => None
  end.

(** certificate.rs:1866-1885 [existing_synthetic_witness_symbol].  The code iterates over a map; this is the first entry. *)
Fixpoint existing_witness (r : registry) (g j : clause) : option N :=
  match r with
  | [] => None
  | (w, c) :: r => if clause_eqb c g || clause_eqb c j then Some w else existing_witness r g j
  end.

(** 1887-1942 [register_certificate_local_constant]: a constant of the registry is given the new name, otherwise the
    constant [w] is added *)
Definition register_constant (K : kctx) (w : N) (d : declaration) (existing : option N) : kctx * N :=
  match existing with
  | Some s => (K, s)
  | None => (with_scoped K w (declared_type d), w)
  end.

(** 2107-2128: [forall args. body] with the constant applied to all arguments in the order of the line; before
    normalization.  [None]: a panic of [open_bound]. *)
Definition declared_witness (w : N) (d : declaration) : term :=
  apply_args (TSym (SScoped w)) (map (fun v => TVar v) (seq 0 (length (d_args d)))).
Definition declared_clause (w : N) (d : declaration) : option clause :=
  option_map (fun t => Clause [lit_positive t] (d_context d)) (open_bound (d_body d) (declared_witness w d)).

(** 1955-2175 [parse_variable_satisfy_step], [parse_function_satisfy_step] for a body that the clausifier leaves as one
    literal: the asserted clause is the normalized one.  In general the clauses are those of Clausifier.v; [None] is an
    error. *)
Definition parse_satisfy (n : nat) (al : aliases) (K : kctx) (r : registry) (w : N) (d : declaration) : option (kctx * N * parsed) :=
  match justification d with
  | None => None
  | Some cl =>
    match claim_specialized n al cl with
    | Ok (Some j) =>
      let '(K', s) := register_constant K w d (existing_witness r (claim_generic cl) j) in
      match declared_clause s d with
      | None => None
      | Some c =>
        match normalized c with
        | None => None
        | Some c' => Some (K', s, PSatisfy (claim_generic cl) (Some j) None [c'])
        end
      end
    | _ => None
    end
  end.
