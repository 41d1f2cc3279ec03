(** Model of the boolean reductions of src/kernel/clause.rs.

    An outer [None] is a panic (an unopenable body, an untypable term, a cyclic context) or, in
    [simplify_ite], more rewriting than [fuel] allows; an inner [None] is the code's [None]. *)
From Coq Require Import List Arith NArith Bool.
Import ListNotations.
From Verif Require Import Term LocalContext Kbo TermNorm Literal Clause Typing.

(** 41-92 *)
Inductive kind :=
| FalseLiteralElimination
| IteSimplifyLeft | IteSimplifyRight
| IteSplitLeftThenBranch | IteSplitLeftElseBranch | IteSplitRightThenBranch | IteSplitRightElseBranch
| FunctionInequalityToExists
| SignedNot | BooleanEqToEquality
| PositiveForallOpen | PositiveExistsObviousWitness | PositiveExistsOpen
| NegatedForallToExists | NegatedExistsOpen
| PositiveAndLeft | PositiveAndRight | NegativeAnd
| PositiveOr | NegativeOrLeft | NegativeOrRight
| BooleanEqualityLeftOrNotRight | BooleanEqualityNotLeftOrRight
| BooleanInequalityNotLeftOrNotRight | BooleanInequalityLeftOrRight.

(** 986-1005; the witness itself is not used by the callers *)
Definition reduce_exists_with_obvious_witness (t : term) : option (option term) :=
  match t with
  | TBind KEx _ body =>
    match clause_split body SEq 3 with
    | Some [_; a; b] =>
      let w := if term_eqb a (TBound 0) then Some b else if term_eqb b (TBound 0) then Some a else None in
      match w with
      | None => Some None
      | Some w => if has_bound_variable w then Some None else option_map Some (open_bound body w)
      end
    | _ => Some None
    end
  | _ => Some None
  end.

(** 1010-1033 *)
Definition reduce_function_inequality (K : kctx) (c : lctx) (l : literal) : option (option term) :=
  if positive l then Some None else
  match get_type K c (left l), get_type K c (right l) with
  | Some T, Some U =>
    if negb (term_eqb T U) then Some None else
    match T with
    | TBind KPi A B =>
      Some (Some (TBind KEx A (tnot (teq B (TApp (left l) (TBound 0)) (TApp (right l) (TBound 0))))))
    | _ => Some None
    end
  | _, _ => None
  end.

(** 1036-1042 *)
Definition reduce_negated_forall (t : term) : option term :=
  match t with TBind KAll A b => Some (TBind KEx A (tnot b)) | _ => None end.

(** 1044-1102 *)
Fixpoint simplify_ite (fuel : nat) (t : term) : option term :=
  match fuel with
  | 0 => None
  | S n =>
    obind (map_children (simplify_ite n) t) (fun t' =>
    match beta_head t' with
    | Some r => simplify_ite n r
    | None =>
      match clause_split t' SIte 4 with
      | Some [_; cond; a; b] =>
        Some (if is_true cond then a
              else if term_eqb cond tfalse then b
              else if term_eqb a b then a
              else t')
      | _ => Some t'
      end
    end)
  end.

(** 1153-1169 [reduce_negated_exists], [reduce_positive_forall]: the body with a fresh variable *)
Definition open_quantifier (q : bkind) (t : term) (c : lctx) : option (option (term * lctx)) :=
  match t with
  | TBind k A b =>
    if bkind_eq_dec k q
    then option_map (fun b' => Some (b', push_type c A)) (open_bound b (TVar (length c)))
    else Some None
  | _ => Some None
  end.

(** literal.rs:26-55 *)
Definition lit_positive (t : term) : literal := lit_new true t ttrue.
Definition lit_negative (t : term) : literal := lit_new false t ttrue.

(** 1104-1117 *)
Definition with_replaced_literal (ls : list literal) (i : nat) (r : list literal) : list literal :=
  firstn i ls ++ r ++ skipn (S i) ls.

(** the guard "left type is Bool and right is true (resp. not true)"; [None] if typing panics *)
Definition bool_left (K : kctx) (c : lctx) (l : literal) : option bool :=
  option_map (fun T => term_eqb T tbool) (get_type K c (left l)).

(** 1248-1562: what replaces literal [l] of the clause, and in which context *)
Definition replacement (fuel : nat) (K : kctx) (cl : clause) (k : kind) (l : literal)
  : option (option (list literal * lctx)) :=
  let c := context cl in
  let here r := Some (Some (r, c)) in
  let signed (sign : option bool) (body : option (option (list literal * lctx))) :=
    match bool_left K c l with
    | None => None
    | Some b =>
      if b && is_true (right l) && match sign with Some s => Bool.eqb (positive l) s | None => true end
      then body else Some None
    end in
  let booleq (sign : bool) (r : list literal) :=
    match bool_left K c l with
    | None => None
    | Some b => if b && negb (is_true (right l)) && Bool.eqb (positive l) sign then here r else Some None
    end in
  match k with
  | FalseLiteralElimination =>
    if negb (is_signed_term l) || (negb (is_true (left l)) && negb (term_eqb (left l) tfalse)) then Some None
    else if (if is_true (left l) then positive l else negb (positive l)) then Some None else here []
  | IteSimplifyLeft =>
    match simplify_ite fuel (left l) with
    | None => None
    | Some t => if term_eqb t (left l) then Some None else here [lit_new (positive l) t (right l)]
    end
  | IteSimplifyRight =>
    match simplify_ite fuel (right l) with
    | None => None
    | Some t => if term_eqb t (right l) then Some None else here [lit_new (positive l) (left l) t]
    end
  | IteSplitLeftThenBranch =>
    match clause_split (left l) SIte 4 with
    | Some [_; cond; a; _] => here [lit_negative cond; lit_new (positive l) a (right l)]
    | _ => Some None
    end
  | IteSplitLeftElseBranch =>
    match clause_split (left l) SIte 4 with
    | Some [_; cond; _; b] => here [lit_positive cond; lit_new (positive l) b (right l)]
    | _ => Some None
    end
  | IteSplitRightThenBranch =>
    match clause_split (right l) SIte 4 with
    | Some [_; cond; a; _] => here [lit_negative cond; lit_new (positive l) (left l) a]
    | _ => Some None
    end
  | IteSplitRightElseBranch =>
    match clause_split (right l) SIte 4 with
    | Some [_; cond; _; b] => here [lit_positive cond; lit_new (positive l) (left l) b]
    | _ => Some None
    end
  | FunctionInequalityToExists =>
    match reduce_function_inequality K c l with
    | None => None
    | Some None => Some None
    | Some (Some t) => here [lit_positive t]
    end
  | SignedNot =>
    signed None
      match clause_split (left l) SNot 1 with
      | Some [x] => here [from_signed_term x (negb (positive l))]
      | _ => Some None
      end
  | BooleanEqToEquality =>
    signed None
      match clause_split (left l) SEq 3 with
      | Some [_; x; y] => here [lit_new (positive l) x y]
      | _ => Some None
      end
  | PositiveForallOpen =>
    signed (Some true)
      match open_quantifier KAll (left l) c with
      | None => None
      | Some None => Some None
      | Some (Some (t, c')) => Some (Some ([lit_positive t], c'))
      end
  | PositiveExistsObviousWitness =>
    signed (Some true)
      (if Nat.ltb 1 (length (literals cl)) && match left l with TBind KEx _ _ => true | _ => false end
       then Some None else
       match reduce_exists_with_obvious_witness (left l) with
       | None => None
       | Some None => Some None
       | Some (Some t) => here [lit_positive t]
       end)
  | PositiveExistsOpen => Some None
  | NegatedForallToExists =>
    signed (Some false)
      match reduce_negated_forall (left l) with
      | None => Some None
      | Some t => here [lit_positive t]
      end
  | NegatedExistsOpen =>
    signed (Some false)
      match open_quantifier KEx (left l) c with
      | None => None
      | Some None => Some None
      | Some (Some (t, c')) => Some (Some ([lit_negative t], c'))
      end
  | PositiveAndLeft =>
    signed (Some true) match clause_split (left l) SAnd 2 with Some [x; _] => here [lit_positive x] | _ => Some None end
  | PositiveAndRight =>
    signed (Some true) match clause_split (left l) SAnd 2 with Some [_; y] => here [lit_positive y] | _ => Some None end
  | NegativeAnd =>
    signed (Some false)
      match clause_split (left l) SAnd 2 with Some [x; y] => here [lit_negative x; lit_negative y] | _ => Some None end
  | PositiveOr =>
    signed (Some true)
      match clause_split (left l) SOr 2 with Some [x; y] => here [lit_positive x; lit_positive y] | _ => Some None end
  | NegativeOrLeft =>
    signed (Some false) match clause_split (left l) SOr 2 with Some [x; _] => here [lit_negative x] | _ => Some None end
  | NegativeOrRight =>
    signed (Some false) match clause_split (left l) SOr 2 with Some [_; y] => here [lit_negative y] | _ => Some None end
  | BooleanEqualityLeftOrNotRight => booleq true [lit_positive (left l); lit_negative (right l)]
  | BooleanEqualityNotLeftOrRight => booleq true [lit_negative (left l); lit_positive (right l)]
  | BooleanInequalityNotLeftOrNotRight => booleq false [lit_negative (left l); lit_negative (right l)]
  | BooleanInequalityLeftOrRight => booleq false [lit_positive (left l); lit_positive (right l)]
  end.

(** 1119-1139 *)
Definition normalize_boolean_reduction (ls : list literal) (c : lctx) (old : nat) : option (clause * list nat * lctx) :=
  match normalize_with_trace ls c with
  | None => None
  | Some (_, ids) =>
    match normalize_with_var_ids_prefilled ls c (filter (fun v => Nat.ltb v old) ids) with
    | None => None
    | Some (cl, ids') => Some (cl, ids', c)
    end
  end.

(** 1248-1562, with the normalization *)
Definition reduced_literals (fuel : nat) (K : kctx) (cl : clause) (k : kind) (i : nat)
  : option (option (list literal * lctx)) :=
  match nth_error (literals cl) i with
  | None => Some None
  | Some l =>
    option_map (option_map (fun rc => (with_replaced_literal (literals cl) i (fst rc), snd rc)))
      (replacement fuel K cl k l)
  end.
Definition boolean_reduction_at (fuel : nat) (K : kctx) (cl : clause) (k : kind) (i : nat)
  : option (option (clause * list nat * lctx)) :=
  match reduced_literals fuel K cl k i with
  | None => None
  | Some None => Some None
  | Some (Some (ls, c)) => option_map Some (normalize_boolean_reduction ls c (length (context cl)))
  end.

(** 1564-1912 [find_boolean_reductions_with_locations_with_options]: the kinds tried for a literal, in
    order.  The two loops of the code that differ from [boolean_reduction_at] are its [continue]s. *)
Definition app_res {A} (a b : option (list A)) : option (list A) :=
  match a, b with Some x, Some y => Some (x ++ y) | _, _ => None end.



Definition find_for_literal (fuel : nat) (K : kctx) (cl : clause) (l : literal)
  : option (list (kind * (list literal * lctx))) :=
  let c := context cl in
  let at_ k r : list (kind * (list literal * lctx)) := [(k, (r, c))] in
  if is_signed_term l && (is_true (left l) || term_eqb (left l) tfalse) then
    Some (if (if is_true (left l) then positive l else negb (positive l)) then []
          else at_ FalseLiteralElimination [])
  else
  app_res (match simplify_ite fuel (left l) with
           | None => None
           | Some t => Some (if term_eqb t (left l) then [] else at_ IteSimplifyLeft [lit_new (positive l) t (right l)])
           end)
 (app_res (match simplify_ite fuel (right l) with
           | None => None
           | Some t => Some (if term_eqb t (right l) then [] else at_ IteSimplifyRight [lit_new (positive l) (left l) t])
           end)
 (app_res (Some match clause_split (left l) SIte 4 with
           | Some [_; cond; a; b] =>
             at_ IteSplitLeftThenBranch [lit_negative cond; lit_new (positive l) a (right l)] ++
             at_ IteSplitLeftElseBranch [lit_positive cond; lit_new (positive l) b (right l)]
           | _ => []
           end)
 (app_res (Some match clause_split (right l) SIte 4 with
           | Some [_; cond; a; b] =>
             at_ IteSplitRightThenBranch [lit_negative cond; lit_new (positive l) (left l) a] ++
             at_ IteSplitRightElseBranch [lit_positive cond; lit_new (positive l) (left l) b]
           | _ => []
           end)
 (app_res (match reduce_function_inequality K c l with
           | None => None
           | Some None => Some []
           | Some (Some t) => Some (at_ FunctionInequalityToExists [lit_positive t])
           end)
 (match bool_left K c l with
  | None => None
  | Some false => Some []
  | Some true =>
    if is_true (right l) then
      match clause_split (left l) SNot 1 with
      | Some [x] => Some (at_ SignedNot [from_signed_term x (negb (positive l))])
      | _ =>
      match clause_split (left l) SEq 3 with
      | Some [_; x; y] => Some (at_ BooleanEqToEquality [lit_new (positive l) x y])
      | _ =>
      if Nat.ltb 1 (length (literals cl)) && positive l && match left l with TBind KEx _ _ => true | _ => false end
      then Some [] else
      let connectives :=
        match clause_split (left l) SAnd 2 with
        | Some [x; y] =>
          Some (if positive l then at_ PositiveAndLeft [lit_positive x] ++ at_ PositiveAndRight [lit_positive y]
                else at_ NegativeAnd [lit_negative x; lit_negative y])
        | _ =>
        match clause_split (left l) SOr 2 with
        | Some [x; y] =>
          Some (if positive l then at_ PositiveOr [lit_positive x; lit_positive y]
                else at_ NegativeOrLeft [lit_negative x] ++ at_ NegativeOrRight [lit_negative y])
        | _ => Some []
        end end in
      if positive l then
        match open_quantifier KAll (left l) c with
        | None => None
        | Some (Some (t, c')) => Some [(PositiveForallOpen, ([lit_positive t], c'))]
        | Some None =>
          match reduce_exists_with_obvious_witness (left l) with
          | None => None
          | Some (Some t) => Some (at_ PositiveExistsObviousWitness [lit_positive t])
          | Some None => connectives
          end
        end
      else
        match reduce_negated_forall (left l) with
        | Some t => Some (at_ NegatedForallToExists [lit_positive t])
        | None =>
          match open_quantifier KEx (left l) c with
          | None => None
          | Some (Some (t, c')) => Some [(NegatedExistsOpen, ([lit_negative t], c'))]
          | Some None => connectives
          end
        end
      end end
    else if positive l then
      Some (at_ BooleanEqualityLeftOrNotRight [lit_positive (left l); lit_negative (right l)] ++
            at_ BooleanEqualityNotLeftOrRight [lit_negative (left l); lit_positive (right l)])
    else
      Some (at_ BooleanInequalityNotLeftOrNotRight [lit_negative (left l); lit_negative (right l)] ++
            at_ BooleanInequalityLeftOrRight [lit_positive (left l); lit_positive (right l)])
  end))))).

(** one literal's results, normalized *)
Fixpoint normalize_found (cl : clause) (i : nat) (l : list (kind * (list literal * lctx)))
  : option (list (kind * nat * (clause * list nat * lctx))) :=
  match l with
  | [] => Some []
  | (k, (r, c)) :: rest =>
    match normalize_boolean_reduction (with_replaced_literal (literals cl) i r) c (length (context cl)) with
    | None => None
    | Some t => option_map (cons (k, i, t)) (normalize_found cl i rest)
    end
  end.
Fixpoint find_from (fuel : nat) (K : kctx) (cl : clause) (i : nat) (ls : list literal)
  : option (list (kind * nat * (clause * list nat * lctx))) :=
  match ls with
  | [] => Some []
  | l :: rest =>
    match find_for_literal fuel K cl l with
    | None => None
    | Some found => app_res (normalize_found cl i found) (find_from fuel K cl (S i) rest)
    end
  end.
Definition find_boolean_reductions (fuel : nat) (K : kctx) (cl : clause) := find_from fuel K cl 0 (literals cl).
