(** Model of the normalization part of src/kernel/clause.rs. *)
From Coq Require Import List Arith NArith Bool.
Import ListNotations.
From Verif Require Import Term LocalContext Kbo TermNorm Literal.

(** 17-20 *)
Record clause := Clause { literals : list literal; context : lctx }.

Definition lctx_eq_dec (a b : lctx) : {a = b} + {a <> b}.
Proof. apply list_eq_dec. decide equality. apply term_eq_dec. Defined.
Definition clause_eq_dec (a b : clause) : {a = b} + {a <> b}.
Proof. decide equality; [apply lctx_eq_dec|apply list_eq_dec, literal_eq_dec]. Defined.
Definition clause_eqb (a b : clause) : bool := if clause_eq_dec a b then true else false.

(** 970-979 [split_symbol_application]; here the head must be the bare symbol *)
Definition clause_split (t : term) (s : symbol) (arity : nat) : option (list term) :=
  if is_app t && Nat.eqb (length (args t)) arity && term_eqb (spine_head t) (TSym s)
  then Some (args t) else None.

(** 135-140 *)
Definition is_droppable_impossible_literal (l : literal) : bool :=
  lit_is_impossible l && negb (lit_has_any_variable l).

(** 341-356; always exactly one literal *)
Definition normalize_literal (l : literal) : literal :=
  let r := normalize_clause_term (right l) in
  if is_true r then
    let '(a, pos) := normalize_signed_clause_term (left l) (positive l) in
    match clause_split a SEq 3 with
    | Some [_; x; y] => lit_new pos x y
    | _ => from_signed_term a pos
    end
  else lit_new (positive l) (normalize_clause_term (left l)) r.

Definition sort_literals (l : list literal) : list literal := sort lit_cmp l.
Definition dedup_literals (l : list literal) : list literal := dedup literal_eqb l.

(** the loop "for literal in &mut literals" of 158, 170, 335 *)
Fixpoint renumber_literals (c : lctx) (ids : list nat) (l : list literal)
  : option (list literal * list nat) :=
  match l with
  | [] => Some ([], ids)
  | x :: r =>
    match lit_normalize_var_ids c ids x with
    | None => None
    | Some (x', ids1, _) =>
      match renumber_literals c ids1 r with
      | None => None
      | Some (r', ids2) => Some (x' :: r', ids2)
      end
    end
  end.

(** 326-338 [normalize_var_ids_with_pinned], with the variable map *)
Definition normalize_var_ids_with_pinned (pinned : nat) (cl : clause) : option (clause * list nat) :=
  match renumber_literals (context cl) (seq 0 pinned) (literals cl) with
  | None => None
  | Some (lits, ids) => option_map (fun c' => (Clause lits c', ids)) (remap (context cl) ids)
  end.

(** 299-308, the literal-level pass *)
Definition normalize_literals (l : list literal) : list literal :=
  dedup_literals (sort_literals
    (filter (fun x => negb (is_droppable_impossible_literal x)) (map normalize_literal l))).

(** 298-324 [normalize_with_pinned] *)
Definition normalize_with_pinned (pinned : nat) (cl : clause) : option clause :=
  match normalize_var_ids_with_pinned pinned (Clause (normalize_literals (literals cl)) (context cl)) with
  | None => None
  | Some (c1, _) =>
    match normalize_var_ids_with_pinned pinned (Clause (normalize_literals (literals c1)) (context c1)) with
    | None => None
    | Some (c2, _) => Some (Clause (dedup_literals (sort_literals (literals c2))) (context c2))
    end
  end.

(** 193-230 [new], [new_with_pinned_vars], [normalized], [normalized_preserving_locals] *)
Definition clause_new (l : list literal) (c : lctx) : option clause := normalize_with_pinned 0 (Clause l c).
Definition clause_new_with_pinned (l : list literal) (c : lctx) (pinned : nat) : option clause :=
  normalize_with_pinned pinned (Clause l c).
Definition normalized (cl : clause) : option clause := normalize_with_pinned 0 cl.
Definition normalized_preserving_locals (cl : clause) : option clause :=
  normalize_with_pinned (length (context cl)) cl.

(** 142-185 [normalize_with_var_ids_prefilled] *)
Definition normalize_with_var_ids_prefilled (l : list literal) (c : lctx) (ids0 : list nat)
  : option (clause * list nat) :=
  match renumber_literals c ids0 (normalize_literals l) with
  | None => None
  | Some (lits, ids) =>
    option_map (fun c' => (Clause (dedup_literals (sort_literals lits)) c', ids)) (remap c ids)
  end.
(** 255-296 *)
Definition normalize_with_trace (l : list literal) (c : lctx) := normalize_with_var_ids_prefilled l c [].
Definition normalize_with_trace_pinned (l : list literal) (c : lctx) (pinned : nat) :=
  normalize_with_var_ids_prefilled l c (seq 0 pinned).

(** 377-393 [is_tautology] *)
Fixpoint before_positive (l : list literal) : list literal * list literal :=
  match l with
  | [] => ([], [])
  | x :: r => if positive x then ([], l) else let '(a, b) := before_positive r in (x :: a, b)
  end.
Definition is_tautology (cl : clause) : bool :=
  let '(neg, pos) := before_positive (literals cl) in
  existsb (fun n => existsb (fun p => term_eqb (left n) (left p) && term_eqb (right n) (right p)) pos) neg
  || existsb lit_is_tautology (literals cl).

(** 427-434 [contains] *)
Definition clause_contains (a b : clause) : bool :=
  forallb (fun l => existsb (fun x => literal_eqb x l) (literals a)) (literals b).

Definition clause_has_any_variable (cl : clause) : bool := existsb lit_has_any_variable (literals cl).

(** 451-470 [compact_var_ids_preserving_literal_shape] *)
Fixpoint compact_literals (c : lctx) (ids : list nat) (l : list literal)
  : option (list literal * list nat) :=
  match l with
  | [] => Some ([], ids)
  | x :: r =>
    match normalize_var_ids c ids (left x) with
    | None => None
    | Some (a, ids1) =>
      match normalize_var_ids c ids1 (right x) with
      | None => None
      | Some (b, ids2) =>
        match compact_literals c ids2 r with
        | None => None
        | Some (r', ids3) => Some (Lit (positive x) a b :: r', ids3)
        end
      end
    end
  end.
Definition compact_var_ids (cl : clause) : option clause :=
  match compact_literals (context cl) [] (literals cl) with
  | None => None
  | Some (lits, ids) => option_map (Clause lits) (remap (context cl) ids)
  end.

(** term.rs:2487-2496 [collect_structural_var_ids] *)
Definition collect_vars (ids : list nat) (t : term) : list nat :=
  fold_left (fun ids v => if existsb (Nat.eqb v) ids then ids else ids ++ [v]) (vars t) ids.
(** term.rs:2500-2512 [apply_var_renumbering]; unknown variables stay *)
Fixpoint apply_var_renumbering (ids tids : list nat) (t : term) : term :=
  match t with
  | TAtom (FreeVar i) =>
    match position i ids with
    | Some p => TVar p
    | None => match position i tids with Some p => TVar (length ids + p) | None => t end
    end
  | TAtom _ => t
  | TApp f a => TApp (apply_var_renumbering ids tids f) (apply_var_renumbering ids tids a)
  | TBind k A b => TBind k (apply_var_renumbering ids tids A) (apply_var_renumbering ids tids b)
  end.
(** 480-520 [normalize_var_ids_types_last] *)
Definition normalize_var_ids_types_last (cl : clause) : option clause :=
  let sids := fold_left (fun ids l => collect_vars (collect_vars ids (left l)) (right l)) (literals cl) [] in
  let tids := filter (fun v => negb (existsb (Nat.eqb v) sids)) (seq 0 (length (context cl))) in
  let lits := map (fun l => Lit (positive l) (apply_var_renumbering sids tids (left l))
                                 (apply_var_renumbering sids tids (right l))) (literals cl) in
  option_map (Clause lits) (remap (context cl) (sids ++ tids)).

(** 582-607 [canonicalize_with_pinned] *)
Definition canonicalize_with_pinned (pinned : nat) (cl : clause) : option clause :=
  match renumber_literals (context cl) (seq 0 pinned) (sort lit_stable_cmp (literals cl)) with
  | None => None
  | Some (lits, ids) => option_map (Clause (sort_literals lits)) (remap (context cl) ids)
  end.
