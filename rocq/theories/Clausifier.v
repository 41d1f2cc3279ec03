(** Model of src/kernel/clausifier.rs and src/kernel/extended_term.rs: how a normalized formula
    becomes clauses.  Line numbers without a file name are of clausifier.rs.

    The mutable local context is threaded through the functions.  The code keeps [next_var_id]
    beside it; both are advanced together, starting from the same number (192-205), so the next id
    is the length of the context here.  The [stack] (18) is pushed and popped but never read and is
    left out, as is [type_var_map], of which only the kinds in order of id are used (192-220).
    [None] stands for [Err], for a panic and for running out of fuel. *)
From Coq Require Import List Arith NArith Bool.
Import ListNotations.
From Verif Require Import Term LocalContext Literal Clause Typing TermNorm.

(** 20-47 *)
Definition clause_literals := list (list literal).
Definition clauses_true : clause_literals := [].
Definition clauses_false : clause_literals := [[]].
(** literal.rs:68-75, 102-109 *)
Definition lit_true_value : literal := lit_new true ttrue ttrue.
Definition lit_false_value : literal := lit_new false ttrue ttrue.
Definition is_true_value (l : literal) : bool := positive l && is_true (left l) && is_true (right l).
Definition is_false_value (l : literal) : bool := negb (positive l) && is_true (left l) && is_true (right l).
Definition clauses_from_literal (l : literal) : clause_literals :=
  if is_true_value l then clauses_true else if is_false_value l then clauses_false else [[l]].
(** 38-69 *)
Definition clauses_and (a b : clause_literals) : clause_literals := a ++ b.
Definition clauses_and_all (l : list clause_literals) : clause_literals := fold_left clauses_and l clauses_true.
Definition clauses_or (a b : clause_literals) : clause_literals :=
  flat_map (fun x => map (fun y => x ++ y) b) a.
Definition clauses_or_all (l : list clause_literals) : clause_literals := fold_left clauses_or l clauses_false.
(** 71-77 *)
Definition negate_clauses (l : clause_literals) : clause_literals :=
  clauses_or_all (map (fun c => clauses_and_all (map (fun x => clauses_from_literal (negate x)) c)) l).
(** 79-97 *)
Definition clauses_to_literal (l : clause_literals) : option literal :=
  match l with
  | [] => Some lit_true_value
  | [[]] => Some lit_false_value
  | [[x]] => Some x
  | _ => None
  end.
(** 99-123 *)
Definition clauses_as_signed_term (l : clause_literals) : option (term * bool) :=
  match l with
  | [[x]] => if is_signed_term x then Some (left x, positive x) else None
  | _ => None
  end.
Definition clauses_match_negated (a b : clause_literals) : option (term * bool) :=
  match clauses_as_signed_term a, clauses_as_signed_term b with
  | Some (t, s), Some (t', s') => if term_eqb t t' && negb (eqb s s') then Some (t, s) else None
  | _, _ => None
  end.
(** 139-148 *)
Definition clause_set_if (c : literal) (a b : clause_literals) : clause_literals :=
  clauses_and (clauses_or (clauses_from_literal (negate c)) a) (clauses_or (clauses_from_literal c) b).

(** extended_term.rs:40-48 *)
Inductive extended :=
| ETerm (t : term)
| EIf (c : literal) (a b : term)
| ELam (l : list (nat * term)) (b : term).

(** extended_term.rs:85-120 [apply] *)
Definition ext_apply (e : extended) (l : list term) : extended :=
  match e with
  | ETerm t => ETerm (apply t l)
  | EIf c a b => EIf c (apply a l) (apply b l)
  | ELam vs b =>
    let ids := map fst vs in
    if Nat.ltb (length l) (length vs) then
      ELam (skipn (length l) vs) (replace_variables (combine (firstn (length l) ids) l) b)
    else if Nat.eqb (length l) (length vs) then ETerm (replace_variables (combine ids l) b)
    else ETerm (apply (replace_variables (combine ids (firstn (length vs) l)) b) (skipn (length vs) l))
  end.

(** extended_term.rs:26-35, 122-160 [eq_term_to_clause_set], [eq_to_clause_set] *)
Definition eq_term_to_clause_set (e : extended) (t : term) (neg : bool) : option clause_literals :=
  match e with
  | ETerm l => Some (clauses_from_literal (lit_new (negb neg) l t))
  | EIf c a b =>
    Some [[negate c; lit_new (negb neg) a t]; [c; lit_new (negb neg) b t]]
  | ELam _ _ => None
  end.
Definition eq_to_clause_set (e f : extended) (neg : bool) : option clause_literals :=
  match e, f with
  | _, ETerm r => eq_term_to_clause_set e r neg
  | ETerm l, _ => eq_term_to_clause_set f l neg
  | _, _ => None
  end.

Definition obind {A B} (o : option A) (f : A -> option B) : option B :=
  match o with Some x => f x | None => None end.
Notation "'do' x <- o ; f" := (obind o (fun x => f)) (at level 200, x pattern, right associativity).

(** a loop that threads the context *)
Fixpoint map_state {A B} (f : lctx -> A -> option (B * lctx)) (c : lctx) (l : list A) : option (list B * lctx) :=
  match l with
  | [] => Some ([], c)
  | x :: l => do (y, c) <- f c x; do (r, c) <- map_state f c l; Some (y :: r, c)
  end.
Fixpoint map_opt {A B} (f : A -> option B) (l : list A) : option (list B) :=
  match l with
  | [] => Some []
  | x :: l => do y <- f x; do r <- map_opt f l; Some (y :: r)
  end.

(** split_pi as long as possible, without opening the output: 950-957, 1194-1200 *)
Fixpoint pi_inputs (T : term) : list term :=
  match T with TBind KPi A B => A :: pi_inputs B | _ => [] end.
Fixpoint pi_output (T : term) : term :=
  match T with TBind KPi _ B => pi_output B | _ => T end.
(** term.rs:564-575 *)
Fixpoint count_type_params (T : term) : nat :=
  match T with
  | TBind KPi A B => if is_type_param_kind A then S (count_type_params B) else 0
  | _ => 0
  end.

(** fresh variables of the given types: 966-972, 1212-1218, 1276-1282 *)
Fixpoint fresh_vars (c : lctx) (l : list term) : list term * lctx :=
  match l with
  | [] => ([], c)
  | A :: l => let '(r, c') := fresh_vars (push_type c A) l in (TVar (length c) :: r, c')
  end.

(** 547-549; [open_bound] always answers (C16) *)
Definition open_body (b r : term) : term := match open_bound b r with Some t => t | None => b end.

(** 238-252 [open_leading_foralls_as_free_vars]; opening does not change the size *)
Fixpoint open_foralls_fuel (n : nat) (c : lctx) (t : term) : term * lctx :=
  match n with
  | 0 => (t, c)
  | S n =>
    match t with
    | TBind KAll A b => open_foralls_fuel n (push_type c A) (open_body b (TVar (length c)))
    | _ => (t, c)
    end
  end.
Definition open_foralls (c : lctx) (t : term) : term * lctx := open_foralls_fuel (tsize t) c t.

(** 1466-1478, the loop that opens a lambda *)
Fixpoint open_lambdas_fuel (n : nat) (c : lctx) (t : term) : list (nat * term) * term * lctx :=
  match n with
  | 0 => ([], t, c)
  | S n =>
    match t with
    | TBind KLam A b =>
      let '(vs, r, c') := open_lambdas_fuel n (push_type c A) (open_body b (TVar (length c))) in
      ((length c, A) :: vs, r, c')
    | _ => ([], t, c)
    end
  end.
Definition open_lambdas (c : lctx) (t : term) := open_lambdas_fuel (tsize t) c t.

(** 1008-1061 [try_inline_term_to_signed_term] and 910-916 [try_inline_term_to_term] *)
Fixpoint inline_fuel (n : nat) (t : term) : option (term * bool) :=
  match n with
  | 0 => None
  | S n =>
    match split_symbol_application t SNot 1 with
    | Some (x :: _) => do (u, s) <- inline_fuel n x; Some (u, negb s)
    | _ =>
      match t with
      | TBind KAll _ _ | TBind KEx _ _ | TBind KLam _ _ => None
      | _ =>
        if term_eqb t ttrue then Some (ttrue, true)
        else if term_eqb t tfalse then Some (ttrue, false)
        else
        match split_symbol_application t SAnd 2, split_symbol_application t SOr 2,
              split_symbol_application t SEq 3, split_symbol_application t SIte 4 with
        | None, None, None, None =>
          if is_app t then
            let positive x := do (u, s) <- inline_fuel n x; if (s : bool) then Some u else None in
            do f <- positive (spine_head t);
            do l <- map_opt positive (args t);
            Some (apply (TAtom (head_atom f)) (args f ++ l), true)
          else Some (t, true)
        | _, _, _, _ => None
        end
      end
    end
  end.
Definition inline (t : term) : option (term * bool) := inline_fuel (tsize t) t.
Definition inline_positive (t : term) : option term :=
  match inline t with Some (u, true) => Some u | _ => None end.

Definition is_lambda (t : term) : bool := match t with TBind KLam _ _ => true | _ => false end.
(** the abstraction loop of 1646-1649: the last variable is abstracted first, at depth 0 *)
Fixpoint abstract_all (depth : nat) (ids : list nat) (t : term) : term :=
  match ids with
  | [] => t
  | v :: r => abstract_all (S depth) r (abstract_var v depth t)
  end.
Fixpoint lambdas (l : list term) (t : term) : term :=
  match l with [] => t | A :: l => TBind KLam A (lambdas l t) end.

Section Clausifier.
(** The kernel context, with the metadata of match eliminators (symbol_table.rs:410). *)
Context (K : kctx) (ME : symbol -> option (list symbol)).

(** 1661-1678 *)
Definition literal_to_bool_term (c : lctx) (l : literal) : option term :=
  if is_signed_term l then Some (if positive l then left l else tnot (left l))
  else do T <- get_type K c (left l);
       let e := teq T (left l) (right l) in Some (if positive l then e else tnot e).

(** 1623-1659 [extended_term_to_term] *)
Definition ext_to_term (c : lctx) (e : extended) : option term :=
  match e with
  | ETerm t => Some t
  | EIf l a b =>
    if term_eqb a b then Some a else
    do T <- get_type K c a; do p <- literal_to_bool_term c l; Some (tite T p a b)
  | ELam vs b =>
    let out := lambdas (map snd vs) (abstract_all 0 (rev (map fst vs)) b) in
    do _ <- get_type K c out; Some out
  end.

Section Conversion.
Context (rec : lctx -> term -> option (extended * lctx)).
(** 1325-1344 [arg_term_to_extended] *)
Definition arg_to_ext (c : lctx) (t : term) : option (extended * lctx) :=
  if is_lambda t then rec c t else
  do T <- get_type K c t;
  if term_eqb T tbool && (match inline_positive t with None => true | _ => false end)
  then Some (ETerm t, c) else rec c t.

(** 1374-1425, the two spines under construction; the second is empty until a conditional is met *)
Fixpoint add_spine (c : lctx) (cond : option literal) (s1 s2 : list term) (l : list extended)
  : option (option literal * list term * list term) :=
  match l with
  | [] => Some (cond, s1, s2)
  | ETerm t :: l => add_spine c cond (s1 ++ [t]) (match s2 with [] => [] | _ => s2 ++ [t] end) l
  | EIf p a b :: l =>
    match s2 with [] => add_spine c (Some p) (s1 ++ [a]) (s1 ++ [b]) l | _ => None end
  | (ELam _ _ as e) :: l =>
    do t <- ext_to_term c e; add_spine c cond (s1 ++ [t]) (match s2 with [] => [] | _ => s2 ++ [t] end) l
  end.
(** term.rs:2536-2547 *)
Definition from_spine (l : list term) : option term :=
  match l with [] => None | f :: r => Some (apply f r) end.

(** 1350-1425 [apply_term_to_extended_term] *)
Definition app_to_ext (c : lctx) (f : term) (l : list extended) : option (extended * lctx) :=
  do (e, c) <- rec c f;
  if is_lambda f then
    do ts <- map_opt (ext_to_term c) l; Some (ext_apply e ts, c)
  else
    do (cond, s1, s2) <-
      match e with
      | ETerm t => Some (None, [t], [])
      | EIf p a b => Some (Some p, [a], [b])
      | ELam _ _ => do t <- ext_to_term c e; Some (None, [t], [])
      end;
    do (cond, s1, s2) <- add_spine c cond s1 s2 l;
    match cond with
    | Some p => do a <- from_spine s1; do b <- from_spine s2; Some (EIf p a b, c)
    | None => do a <- from_spine s1; Some (ETerm a, c)
    end.
End Conversion.

(** 1431-1517 [term_to_extended_term] *)
Fixpoint to_ext (n : nat) (c : lctx) (t : term) : option (extended * lctx) :=
  match n with
  | 0 => None
  | S n =>
    match split_symbol_application t SIte 4 with
    | Some [_; p; a; b] =>
      do (ea, c) <- to_ext n c a; do a' <- ext_to_term c ea;
      do (eb, c) <- to_ext n c b; do b' <- ext_to_term c eb;
      do T <- get_type K c a';
      Some (ETerm (tite T p a' b'), c)
    | _ =>
      if is_app t then
        do (l, c) <- map_state (arg_to_ext (to_ext n)) c (args t);
        app_to_ext (to_ext n) c (spine_head t) l
      else
      match t with
      | TBind KLam _ _ =>
        let '(vs, b, c) := open_lambdas c t in
        do (e, c) <- to_ext n c b; do b' <- ext_to_term c e;
        Some (ELam vs b', c)
      | TBind KAll _ _ | TBind KEx _ _ => Some (ETerm t, c)
      | _ =>
        if term_eqb t ttrue then Some (ETerm ttrue, c)
        else if term_eqb t tfalse then Some (ETerm tfalse, c)
        else
          do T <- get_type K c t;
          if term_eqb T tbool then
            match inline_positive t with Some u => Some (ETerm u, c) | None => Some (ETerm t, c) end
          else Some (ETerm t, c)
      end
    end
  end.

(** 1519-1532 *)
Definition to_inline_term (n : nat) (c : lctx) (t : term) : option (term * lctx) :=
  match inline_positive t with
  | Some u => Some (u, c)
  | None => do (e, c) <- to_ext n c t; do u <- ext_to_term c e; Some (u, c)
  end.

(** 511-542 [split_match_eliminator_application]: type arguments, scrutinee, cases by constructor *)
Definition split_match (t : term) : option (list term * term * list (symbol * term)) :=
  if is_app t then
    match head_atom (spine_head t) with
    | Sym s =>
      do ctors <- ME s;
      let k := count_type_params (symbol_type K s) in
      if Nat.eqb (length (args t)) (k + 1 + length ctors) then
        do scrut <- nth_error (args t) k;
        Some (firstn k (args t), scrut, combine ctors (skipn (S k) (args t)))
      else None
    | _ => None
    end
  else None.
Definition is_match (t : term) : bool := match split_match t with Some _ => true | None => false end.

(** 992-1006 *)
Definition bool_equality_literal (l r : term) (pos : bool) : option literal :=
  match inline l, inline r with
  | Some (a, s), Some (b, s') => Some (lit_new (eqb (eqb s s') pos) a b)
  | _, _ => None
  end.

(** 923-990 [try_term_to_single_literal]; the inner option is the code's *)
Definition single_literal (n : nat) (c : lctx) (t : term) (pos : bool) : option (option literal * lctx) :=
  match split_symbol_application t SEq 3 with
  | Some [_; l; r] =>
    if is_match l || is_match r then Some (None, c) else
    do T <- get_type K c l;
    match pi_inputs T with
    | [] =>
      if term_eqb T tbool then
        match bool_equality_literal l r pos with
        | Some x => Some (Some x, c)
        | None => Some (Some (lit_new pos l r), c)
        end
      else Some (Some (lit_new pos l r), c)
    | _ =>
      do (l', c) <- to_ext n c l;
      do (r', c) <- to_ext n c r;
      if pos then
        let '(xs, c) := fresh_vars c (pi_inputs T) in
        do a <- ext_to_term c (ext_apply l' xs);
        do b <- ext_to_term c (ext_apply r' xs);
        if term_eqb (pi_output T) tbool then
          match bool_equality_literal a b true with
          | Some x => Some (Some x, c)
          | None => Some (Some (lit_new true a b), c)
          end
        else Some (Some (lit_new true a b), c)
      else
        do a <- ext_to_term c l'; do b <- ext_to_term c r';
        Some (Some (lit_new false a b), c)
    end
  | _ => Some (None, c)
  end.

(** 271-287 [literal_from_shallow_term] *)
Definition literal_from_shallow (n : nat) (c : lctx) (t : term) (pos : bool) : option (literal * lctx) :=
  do (o, c) <- single_literal n c t pos;
  match o with
  | Some x => Some (x, c)
  | None => do (u, c) <- to_inline_term n c t; Some (from_signed_term u pos, c)
  end.

(** 289-350 [shallow_term_to_disjunctive_literals] *)
Fixpoint disjunctive (n : nat) (c : lctx) (t : term) (pos : bool) : option (list literal * lctx) :=
  match n with
  | 0 => None
  | S n =>
    match split_symbol_application t SNot 1 with
    | Some (x :: _) => disjunctive n c x (negb pos)
    | _ =>
      match split_symbol_application t (if pos then SOr else SAnd) 2 with
      | Some [a; b] =>
        do (l, c) <- disjunctive n c a pos; do (r, c) <- disjunctive n c b pos; Some (l ++ r, c)
      | _ => do (x, c) <- literal_from_shallow n c t pos; Some ([x], c)
      end
    end
  end.

(** 554-577 [instantiate_binder_prefix] without the count, which is only used for the stack *)
Fixpoint instantiate_prefix (f : term) (l : list term) : term :=
  match l with
  | [] => f
  | a :: r =>
    match f with
    | TBind KLam _ b | TBind KAll _ b | TBind KEx _ b => instantiate_prefix (open_body b a) r
    | _ => apply f l
    end
  end.

(** 579-630 [instantiate_match_case] *)
Fixpoint apply_type_args (T : term) (l : list term) : option term :=
  match l with
  | [] => Some T
  | A :: l =>
    match T with
    | TBind KPi J B => if is_type_param_kind J then apply_type_args (open_body B A) l else None
    | _ => None
    end
  end.
Fixpoint field_vars (n : nat) (c : lctx) (T : term) : option (list term * lctx) :=
  match n with
  | 0 => None
  | S n =>
    match T with
    | TBind KPi J B =>
      if is_type_param_kind J then None else
      do (r, c') <- field_vars n (push_type c J) (open_body B (TVar (length c)));
      Some (TVar (length c) :: r, c')
    | _ => Some ([], c)
    end
  end.
Definition match_case (c : lctx) (ctor : symbol) (targs : list term) (case : term) : option (term * term * lctx) :=
  do T <- apply_type_args (symbol_type K ctor) targs;
  do (xs, c) <- field_vars (S (tsize T)) c T;
  Some (apply (TSym ctor) (targs ++ xs), instantiate_prefix case xs, c).

(** [split_symbol_application] answers exactly as many arguments as asked for: 493-509 *)
Definition split1 (t : term) (s : symbol) : option term := match split_symbol_application t s 1 with Some [a] => Some a | _ => None end.
Definition split2 (t : term) (s : symbol) : option (term * term) := match split_symbol_application t s 2 with Some [a; b] => Some (a, b) | _ => None end.
Definition split3 (t : term) (s : symbol) : option (term * term * term) := match split_symbol_application t s 3 with Some [a; b; d] => Some (a, b, d) | _ => None end.
Definition split4 (t : term) (s : symbol) : option (term * term * term * term) := match split_symbol_application t s 4 with Some [a; b; d; e] => Some (a, b, d, e) | _ => None end.
Definition is_conjunction (t : term) : bool := match split2 t SAnd with Some _ => true | None => false end.
Definition is_quantifier (t : term) : bool := match t with TBind KAll _ _ | TBind KEx _ _ => true | _ => false end.
Definition is_quantified (t : term) : bool :=
  match t with TBind KLam _ _ | TBind KAll _ _ | TBind KEx _ _ => true | _ => false end.

(** 710-878 [term_to_clause_set], 1063-1105 [apply_term_to_clause_set], 1107-1323
    [term_eq_to_clause_set] *)
Fixpoint clause_set (n : nat) (c : lctx) (t : term) (neg : bool) {struct n} : option (clause_literals * lctx) :=
  match n with
  | 0 => None
  | S n =>
    if is_quantifier t then Some (clauses_from_literal (from_signed_term t (negb neg)), c) else
    match split1 t SNot with Some x => clause_set n c x (negb neg) | None =>
    match split2 t SAnd with
    | Some (a, b) =>
      do (l, c) <- clause_set n c a neg; do (r, c) <- clause_set n c b neg;
      Some (if neg then clauses_or l r else clauses_and l r, c)
    | None =>
    match split2 t SOr with
    | Some (a, b) =>
      if is_conjunction a || is_conjunction b
      then do (u, c) <- to_inline_term n c t; Some (clauses_from_literal (from_signed_term u (negb neg)), c)
      else
        do (l, c) <- clause_set n c a neg; do (r, c) <- clause_set n c b neg;
        Some (if neg then clauses_and l r else clauses_or l r, c)
    | None =>
    match split3 t SEq with
    | Some (_, a, b) => eq_clause_set n c a b neg
    | None =>
    match split4 t SIte with
    | Some (_, p, a, b) =>
      do (lp, c) <- clause_set n c p false;
      do x <- clauses_to_literal lp;
      do (la, c) <- clause_set n c a neg; do (lb, c) <- clause_set n c b neg;
      Some (clause_set_if x la lb, c)
    | None =>
      if is_app t && is_quantified (spine_head t)
      then clause_set n c (instantiate_prefix (spine_head t) (args t)) neg
      else if term_eqb t ttrue then Some (if neg then clauses_false else clauses_true, c)
      else if term_eqb t tfalse then Some (if neg then clauses_true else clauses_false, c)
      else do (u, c) <- to_inline_term n c t; Some (clauses_from_literal (from_signed_term u (negb neg)), c)
    end end end end end
  end
with apply_clause_set (n : nat) (c : lctx) (f : term) (l : list extended) (neg : bool) {struct n}
  : option (clause_literals * lctx) :=
  match n with
  | 0 => None
  | S n =>
    if is_quantified f then
      do ts <- map_opt (ext_to_term c) l;
      clause_set n c (instantiate_prefix f ts) neg
    else
      do (e, c) <- app_to_ext (to_ext n) c f l;
      match e with
      | ETerm u => Some (clauses_from_literal (from_signed_term u (negb neg)), c)
      | _ => None
      end
  end
with eq_clause_set (n : nat) (c : lctx) (l r : term) (neg : bool) {struct n} : option (clause_literals * lctx) :=
  match n with
  | 0 => None
  | S n =>
    let cases (other : term) (m : list term * term * list (symbol * term)) :=
      let '(targs, scrut, cs) := m in
      let dargs := firstn (length targs - 1) targs in
      do (parts, c) <- map_state (fun c '(ctor, case) =>
        do (pattern, value, c) <- match_case c ctor dargs case;
        do (condition, c) <- eq_clause_set n c scrut pattern false;
        do (conclusion, c) <- eq_clause_set n c other value neg;
        Some (clauses_or (negate_clauses condition) conclusion, c)) c cs;
      Some (clauses_and_all parts, c) in
    match split_match r, split_match l with
    | Some m, _ => cases l m
    | None, Some m => cases r m
    | None, None =>
      do T <- get_type K c l;
      match pi_inputs T with
      | [] =>
        if term_eqb T tbool then
          match inline l, inline r with
          | Some (a, s), Some (b, s') =>
            Some (clauses_from_literal (lit_new (xorb (eqb s s') neg) a b), c)
          | _, _ =>
            if neg then
              do (l1, c) <- clause_set n c l true; do (r1, c) <- clause_set n c r true;
              do (l2, c) <- clause_set n c l false; do (r2, c) <- clause_set n c r false;
              Some (clauses_and (clauses_or l1 r1) (clauses_or l2 r2), c)
            else
              do (l1, c) <- clause_set n c l true; do (r1, c) <- clause_set n c r false;
              do (l2, c) <- clause_set n c l false; do (r2, c) <- clause_set n c r true;
              Some (clauses_and (clauses_or l1 r1) (clauses_or l2 r2), c)
          end
        else
          do (l', c) <- to_ext n c l; do (r', c) <- to_ext n c r;
          do s <- eq_to_clause_set l' r' neg; Some (s, c)
      | _ =>
        if neg then
          do (l', c) <- to_ext n c l; do (r', c) <- to_ext n c r;
          do a <- ext_to_term c l'; do b <- ext_to_term c r';
          Some (clauses_from_literal (lit_new false a b), c)
        else if term_eqb (pi_output T) tbool then
          let '(xs, c) := fresh_vars c (pi_inputs T) in
          let xs := map ETerm xs in
          do (lp, c) <- apply_clause_set n c l xs false;
          do (ln, c) <- apply_clause_set n c l xs true;
          do (rp, c) <- apply_clause_set n c r xs false;
          do (rn, c) <- apply_clause_set n c r xs true;
          match clauses_match_negated lp ln, clauses_match_negated rp rn with
          | Some (a, s), Some (b, s') => Some (clauses_from_literal (lit_new (eqb s s') a b), c)
          | _, _ => Some (clauses_and (clauses_or ln rp) (clauses_or lp rn), c)
          end
        else
          do (l', c) <- to_ext n c l; do (r', c) <- to_ext n c r;
          let '(xs, c) := fresh_vars c (pi_inputs T) in
          do s <- eq_to_clause_set (ext_apply l' xs) (ext_apply r' xs) false; Some (s, c)
      end
    end
  end.

(** 125-137 [clauses_into_clauses_with_pinned] *)
Definition into_clauses (l : clause_literals) (c : lctx) (pinned : nat) : option (list clause) :=
  map_opt (fun ls => clause_new_with_pinned ls c pinned) (filter (fun ls => negb (existsb lit_is_tautology ls)) l).

Definition one_clause (l : list literal) (c : lctx) (pinned : nat) : option (list clause) :=
  do cl <- clause_new_with_pinned l c pinned; Some (if is_tautology cl then [] else [cl]).

(** 352-441 [shallow_term_to_clauses] *)
Fixpoint shallow_clauses (n : nat) (c : lctx) (t : term) (pos : bool) (pinned : nat) : option (list clause * lctx) :=
  match n with
  | 0 => None
  | S n =>
    match split_symbol_application t SNot 1 with
    | Some (x :: _) => shallow_clauses n c x (negb pos) pinned
    | _ =>
    match split_symbol_application t (if pos then SAnd else SOr) 2 with
    | Some [a; b] =>
      do (l, c) <- shallow_clauses n c a pos pinned; do (r, c) <- shallow_clauses n c b pos pinned; Some (l ++ r, c)
    | _ =>
    match split_symbol_application t (if pos then SOr else SAnd) 2 with
    | Some _ => do (l, c) <- disjunctive n c t pos; do r <- one_clause l c pinned; Some (r, c)
    | None =>
      do (l, c) <- clause_set n c t (negb pos); do r <- into_clauses l c pinned; Some (r, c)
    end end end
  end.

(** 192-206 [initial_clause_context] is [map Some kinds], with all of it pinned.
    443-456 [shallow_clausify_term] *)
Definition shallow_clausify (n : nat) (kinds : list term) (t : term) : option (list clause) :=
  let '(u, c) := open_foralls (map Some kinds) t in
  do (r, _) <- shallow_clauses n c u true (length kinds); Some r.

(** 462-488 [clausify_term_to_single_clause], 170-172 [lower_normalized_term_to_clauses] *)
Definition lower_to_clauses (n : nat) (kinds : list term) (t : term) : option (list clause) :=
  let '(u, c) := open_foralls (map Some kinds) t in
  let plain := do (l, c) <- disjunctive n c u true; one_clause l c (length kinds) in
  match split_symbol_application u SEq 3 with
  | Some [_; a; b] => if is_match a || is_match b then shallow_clausify n kinds t else plain
  | _ => plain
  end.

(** 1559-1583 [exact_clause_literals_from_term], [exact_clause_literal_from_term] *)
Definition exact_literal (t : term) : literal :=
  match split_symbol_application t SNot 1 with
  | Some (x :: _) =>
    match split_symbol_application x SEq 3 with
    | Some [_; a; b] => lit_new false a b
    | _ => lit_new false x ttrue
    end
  | _ =>
    match split_symbol_application t SEq 3 with
    | Some [_; a; b] => lit_new true a b
    | _ => lit_new true t ttrue
    end
  end.
Fixpoint exact_literals_fuel (n : nat) (t : term) : list literal :=
  match n with
  | 0 => [exact_literal t]
  | S n =>
    match split_symbol_application t SOr 2 with
    | Some [a; b] => exact_literals_fuel n a ++ exact_literals_fuel n b
    | _ => [exact_literal t]
    end
  end.
Definition exact_literals (t : term) : list literal := exact_literals_fuel (tsize t) t.

(** 223-236 [allocate_next_open_local_slot]: the first free slot from [next] on *)
Fixpoint free_slot (n : nat) (c : lctx) (i : nat) : nat :=
  match n with
  | 0 => i
  | S n => match get_var_type c i with Some _ => free_slot n c (S i) | None => i end
  end.
Definition open_slot (c : lctx) (next : nat) : nat := free_slot (length c) c next.

(** 256-269 [open_leading_foralls_preserving_local_slots] *)
Fixpoint open_foralls_in_slots (n : nat) (c : lctx) (next : nat) (t : term) : term * lctx :=
  match n with
  | 0 => (t, c)
  | S n =>
    match t with
    | TBind KAll A b =>
      let v := open_slot c next in
      open_foralls_in_slots n (set_type c v A) (S v) (open_body b (TVar v))
    | _ => (t, c)
    end
  end.

(** 1534-1557 [lower_normalized_term_to_clause_with_opening_policy]; [c] is the context of
    209-220 [initial_exact_clause_context], the type variables in their own slots *)
Definition lower_to_clause (open : bool) (c : lctx) (t : term) : option clause :=
  let '(u, c) := if open then open_foralls_in_slots (tsize t) c 0 t else (t, c) in
  if term_eqb u tfalse then Some (Clause [] c)
  else normalized_preserving_locals (Clause (exact_literals u) c).

(** 1586-1612 [term_to_inline_literal_body], 1614-1621 [term_to_claim_arg_shape] *)
Definition inline_literal_body (t : term) : option term :=
  match inline t with
  | Some (u, true) => Some u
  | o =>
    if match o with Some (u, false) => term_eqb u ttrue | _ => false end then Some tfalse
    else if negb (has_any_variable t) then
      do T <- get_type K [] t; if term_eqb T tbool then Some t else None
    else None
  end.
Definition claim_arg_shape (t : term) : term :=
  match inline_literal_body t with Some u => u | None => t end.
End Clausifier.
