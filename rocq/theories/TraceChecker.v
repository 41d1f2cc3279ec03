(** Model of the checking of a certificate trace (src/certificate_trace.rs, [TraceChecker]) over the checker of
    Checker.v.  The code of a step is parsed by [Certificate::parse_code_line] (certificate.rs:1650-1704);
    a step carries what the parser gives for it.  The kernel context [K] is fixed: it already knows the
    names that witness declarations introduce.  The lines recorded for display are omitted. *)
From Coq Require Import List Arith Bool.
Import ListNotations.
From Verif Require Import Term LocalContext Literal Clause TermNorm Typing Unifier Inference BoolReduction ClauseSet EqualityGraph Checker.

(** 97-133 [TraceRule] *)
Inductive trule := RFact | RClaim | RBr | RBrIntro | REq | REr | REf | RExt | RInj | RInst | RWit | RContra.
(** What parsing gives.  A claim: its generic clause ([normalized_generic_clause]) and its specialized clause
    ([normalized_specialized_clause], kernel/certificate_step.rs; [None] is an error).  A witness declaration:
    the same two clauses of its justification, its specialized clause if it has one, and the clauses that
    hold of the witness. *)
Inductive parsed :=
| PClaim (generic : clause) (specialized : option clause)
| PSatisfy (generic : clause) (justification : option clause) (specialized : option clause) (witness : list clause)
| PError.
(** 20-50 [TraceStep]; [st_wrapper] is [is_synthetic_generic_wrapper] of the code (58-61) *)
Record tstep := TS {
  st_rule : trule;
  st_parsed : parsed;
  st_wrapper : bool;
  st_premises : list nat;
  st_generic : bool;
  st_kind : option kind;
  st_lit : option nat
}.

(** 71-93 [StepClauses]: the first clause, then the aliases without repetitions; [all] lists them in this order *)
Fixpoint dedup_aliases (p : clause) (seen aliases : list clause) : list clause :=
  match aliases with
  | [] => []
  | a :: r => if clause_eqb a p || clause_in a seen then dedup_aliases p seen r else a :: dedup_aliases p (a :: seen) r
  end.
Definition step_clauses (p : clause) (aliases : list clause) : list clause := p :: dedup_aliases p [] aliases.
(** 1596-1602 [claim_aliases] *)
Definition claim_aliases (generic specialized : clause) : list clause :=
  if clause_eqb generic specialized then [] else [generic].

(** 4381-4410 [parse_required_claim_with_generic] *)
Definition required_with_generic (t : tstep) : option (clause * clause) :=
  match st_parsed t with
  | PClaim g sp =>
    if st_generic t && st_wrapper t then Some (g, g) else option_map (fun s => (g, s)) sp
  | _ => None
  end.
(** 4348-4379 [parse_required_claim] *)
Definition required (t : tstep) : option clause :=
  match st_parsed t with PClaim g sp => if st_generic t then Some g else sp | _ => None end.
Definition chosen (t : tstep) (generic specialized : clause) : clause := if st_generic t then generic else specialized.

(** [Iterator::any], for questions that only read the checker and for questions that change it *)
Fixpoint any_m {A} (f : A -> res bool) (l : list A) : res bool :=
  match l with
  | [] => Ok false
  | x :: r => do b <- f x; if b then Ok true else any_m f r
  end.
Fixpoint all_m {A} (f : A -> res bool) (l : list A) : res bool :=
  match l with
  | [] => Ok true
  | x :: r => do b <- f x; if b then all_m f r else Ok false
  end.
Fixpoint any_s {A} (f : checker -> A -> res (checker * bool)) (s : checker) (l : list A) : res (checker * bool) :=
  match l with
  | [] => Ok (s, false)
  | x :: r => do (s, b) <- f s x; if b then Ok (s, true) else any_s f s r
  end.
(** the clauses of the listed steps; [None]: a step is missing *)
Fixpoint premise_clauses (cs : list (list clause)) (ps : list nat) : option (list clause) :=
  match ps with
  | [] => Some []
  | p :: r =>
    match nth_error cs p, premise_clauses cs r with Some l, Some l' => Some (l ++ l') | _, _ => None end
  end.
(** 4064-4070: premises whose first clause has no variable come first *)
Definition has_variable_at (cs : list (list clause)) (p : nat) : bool :=
  match nth_error cs p with Some (c :: _) => clause_has_any_variable c | _ => true end.
Definition ordered_premises (cs : list (list clause)) (ps : list nat) : list nat :=
  filter (fun p => negb (has_variable_at cs p)) ps ++ filter (has_variable_at cs) ps.

Section Trace.
Context (K : kctx) (ts : tstore) (inhab : term -> lctx -> bool) (avail : clause -> bool) (path : egraph -> literal -> bool).
Context (ordk : nat -> list nat -> list nat) (ordc : nat -> list clauseid -> list clauseid) (orde : list clause -> list clause).
Notation known := (check_for_trace path ordk ordc).

(** the state: the checker and the clauses of the steps so far *)
Definition tstate := (checker * list (list clause))%type.

(** 4419-4431 [accept_clause_with_aliases], 4433-4456 [record_clause] *)
Definition insert_all (n : nat) (s : checker) (l : list clause) : res checker := foldm (insert_for_trace K ordk ordc n) l s.
Definition accept (n : nat) (s : checker) (cs : list (list clause)) (p : clause) (aliases : list clause) : res (option tstate) :=
  let l := step_clauses p aliases in
  do s <- insert_all n s l; Ok (Some (s, cs ++ [l])).

(** 3848-3857, 3984-3997: equal, or with the same canonical form *)
Definition same_canonical (n : nat) (s : checker) (a b : clause) : res bool :=
  do x <- canonical_clause inhab n s a;
  match x with
  | None => Ok false
  | Some x => do y <- canonical_clause inhab n s b; Ok (match y with Some y => clause_eqb x y | None => false end)
  end.
Definition same (n : nat) (s : checker) (a b : clause) : res bool :=
  if clause_eqb a b then Ok true else same_canonical n s a b.

(** 3778-3811 *)
Definition check_claim (n : nat) (st : tstate) (t : tstep) : res (option tstate) :=
  let (s, cs) := st in
  match required_with_generic t with
  | None => Ok None
  | Some (g, sp) =>
    let c := chosen t g sp in
    do (s, b) <- any_s (known n) s [g; c; sp];
    if b then accept n s cs c (if st_wrapper t then [] else claim_aliases g sp) else Ok None
  end.
(** 3812-3861 *)
Definition check_inst (n : nat) (st : tstate) (t : tstep) : res (option tstate) :=
  let (s, cs) := st in
  match st_premises t with
  | [p] =>
    match nth_error cs p, required_with_generic t with
    | Some sources, Some (g, sp) =>
      do b <- any_m (fun source => same n s source g) sources;
      if b then accept n s cs sp [] else Ok None
    | _, _ => Ok None
    end
  | _ => Ok None
  end.
(** 3862-3955 *)
Fixpoint canonical_targets (n : nat) (s : checker) (l : list clause) : res (list clause) :=
  match l with
  | [] => Ok []
  | c :: r => do o <- canonical_clause inhab n s c; do r <- canonical_targets n s r; Ok (match o with Some c => c :: r | None => r end)
  end.
Definition check_br (n : nat) (st : tstate) (t : tstep) : res (option tstate) :=
  let (s, cs) := st in
  match st_premises t with
  | [p] =>
    match nth_error cs p, required_with_generic t, st_kind t, st_lit t with
    | Some sources, Some (g, sp), Some k, Some i =>
      let c := chosen t g sp in
      do targets <- canonical_targets n s [c; g; sp];
      do b <- any_m (fun source =>
        do o <- apply_reduction K inhab n s source k i;
        Ok (match o with Some d => clause_in d (c :: g :: sp :: targets) | None => false end)) sources;
      if b then accept n s cs c [] else Ok None
    | _, _, _, _ => Ok None
    end
  | _ => Ok None
  end.
(** 3956-4028 *)
Definition intro_targets (c g sp : clause) : list clause :=
  c :: (if clause_eqb sp c then [] else [sp]) ++ (if clause_eqb g c || clause_eqb g sp then [] else [g]).
Definition set_given (n : nat) (s : checker) (given : list clause) (set : list clause) : res bool :=
  all_m (fun member => any_m (fun premise => same n s premise member) given) set.
Definition target_given (n : nat) (s : checker) (given : list clause) (target : clause) : res bool :=
  do sets <- checker_boolean_reduction_sets K inhab n s target; any_m (set_given n s given) sets.
Definition check_br_intro (n : nat) (st : tstate) (t : tstep) : res (option tstate) :=
  let (s, cs) := st in
  match required_with_generic t with
  | None => Ok None
  | Some (g, sp) =>
    let c := chosen t g sp in
    let aliases := if st_wrapper t then [] else claim_aliases g sp in
    match st_premises t with
    | [] =>
      do (s, b) <- any_s (reduction_proves K inhab ordk ordc n) s [g; c; sp];
      if b then accept n s cs c aliases else Ok None
    | ps =>
      match premise_clauses cs ps with
      | None => Ok None
      | Some given =>
        do b <- any_m (target_given n s given) (intro_targets c g sp);
        if b then accept n s cs c aliases else Ok None
      end
    end
  end.
(** 4029-4109 *)
Definition check_eq_local (n : nat) (s : checker) (cs : list (list clause)) (ps : list nat) (c : clause) : res (option tstate) :=
  match premise_clauses cs (ordered_premises cs ps) with
  | None => Ok None
  | Some sources =>
    do l <- insert_all n (with_eager ck_new false) sources;
    do (l, b) <- known n l c;
    do (l, b) <- (if b then Ok (l, true) else any_s (fun l source => graph_derives path ordk ordc n l source c) l sources);
    if b then accept n s cs c [] else Ok None
  end.
Definition check_eq (n : nat) (st : tstate) (t : tstep) : res (option tstate) :=
  let (s, cs) := st in
  match required t with
  | None => Ok None
  | Some c =>
    match st_premises t with
    | [] => do (s, b) <- known n s c; if b then accept n s cs c [] else Ok None
    | [p] =>
      match nth_error cs p with
      | None => Ok None
      | Some sources =>
        do (s, b) <- any_s (fun s source => graph_derives path ordk ordc n s source c) s sources;
        if b then accept n s cs c [] else check_eq_local n s cs [p] c
      end
    | ps => check_eq_local n s cs ps c
    end
  end.
(** 4110-4197 *)
Definition check_rule (derives : checker -> clause -> clause -> res bool) (n : nat) (st : tstate) (t : tstep) : res (option tstate) :=
  let (s, cs) := st in
  match st_premises t with
  | [p] =>
    match nth_error cs p, required t with
    | Some sources, Some c =>
      do b <- any_m (fun source => derives s source c) sources;
      if b then accept n s cs c [] else Ok None
    | _, _ => Ok None
    end
  | _ => Ok None
  end.
(** 4291-4346 [check_witness_step] *)
Definition check_wit (n : nat) (st : tstate) (t : tstep) : res (option tstate) :=
  let (s, cs) := st in
  match st_parsed t with
  | PSatisfy g (Some j) sp ws =>
    do (s, b) <- any_s (known n) s [g; j];
    if b then
      let more := match sp with Some c => [c] | None => [] end ++ ws in
      do s <- insert_all n s (g :: j :: more);
      Ok (Some (s, cs ++ [step_clauses j (g :: more)]))
    else Ok None
  | _ => Ok None
  end.
(** 4201-4285 *)
Definition impossible : clause := Clause [] [].
Definition check_contra (n : nat) (st : tstate) (t : tstep) : res (option tstate) :=
  let (s, cs) := st in
  do b <- match st_premises t with
          | [] => Ok (has_contradiction s)
          | [p] => match nth_error cs p with
                   | Some sources => any_m (reduction_closes K ts inhab avail path ordk ordc orde n s) sources
                   | None => Ok false
                   end
          | [p; q] => match nth_error cs p, nth_error cs q with
                      | Some ls, Some rs => any_m (fun a => any_m (fun b => clauses_contradict K ordk ordc n a b) rs) ls
                      | _, _ => Ok false
                      end
          | _ => Ok false
          end;
  if b then accept n s cs impossible [] else Ok None.

(** 3776-4289 [check_step]; [Ok None]: an error *)
Definition check_step (n : nat) (st : tstate) (t : tstep) : res (option tstate) :=
  match st_rule t with
  | RFact | RClaim => check_claim n st t
  | RInst => check_inst n st t
  | RBr => check_br n st t
  | RBrIntro => check_br_intro n st t
  | REq => check_eq n st t
  | REr => check_rule (fun s c r => resolution_derives K ts inhab n s c r) n st t
  | REf => check_rule (fun s c r => factoring_derives K ts inhab n s c r) n st t
  | RExt => check_rule (fun _ c r => extensionality_derives K c r) n st t
  | RInj => check_rule (fun s c r => injectivity_derives inhab n s c r) n st t
  | RWit => check_wit n st t
  | RContra => check_contra n st t
  end.
(** 3758-3774 [check]: [Ok true] if the trace is accepted *)
Fixpoint check_steps (n : nat) (st : tstate) (steps : list tstep) : res bool :=
  if has_contradiction (fst st) then Ok true else
  match steps with
  | [] => Ok false
  | t :: r =>
    do o <- check_step n st t;
    match o with Some st => check_steps n st r | None => Ok false end
  end.
Definition check_trace (n : nat) (s : checker) (steps : list tstep) : res bool := check_steps n (s, []) steps.
(** 3758-3774 [check]: the number of steps consumed, counted from [i]; [Ok None]: not accepted *)
Fixpoint check_usage (n : nat) (st : tstate) (i : nat) (steps : list tstep) : res (option nat) :=
  if has_contradiction (fst st) then Ok (Some i) else
  match steps with
  | [] => Ok None
  | t :: r =>
    do o <- check_step n st t;
    match o with Some st => check_usage n st (S i) r | None => Ok None end
  end.
Definition check_trace_usage (n : nat) (s : checker) (steps : list tstep) : res (option nat) := check_usage n (s, []) 0 steps.
End Trace.
(** certificate.rs:968-971 [trim_to_consumed_prefix] *)
Definition trim_to_consumed_prefix (steps : list tstep) (keep : nat) : list tstep := firstn keep steps.
