(** Model of src/kernel/term_normalization.rs.

    [normalize_term] and [beta_reduce_subterms] recurse on the result of a reduction, so they take
    a recursion-depth bound; [None] means that the bound was reached (the code recurses on). *)
From Coq Require Import List Arith NArith Bool.
Import ListNotations.
From Verif Require Import Term FlatTerm Kbo.

(** term.rs:22, 1609: the derived [Ord] of [TermComponent] and of the component vector *)
Definition mark_rank (m : mark) : N :=
  match m with MApp => 0 | MBind KPi => 1 | MBind KLam => 2 | MBind KAll => 3 | MBind KEx => 4 end.
Definition comp_cmp (a b : component) : comparison :=
  match a, b with
  | CMark m x, CMark n y => lexc (N.compare (mark_rank m) (mark_rank n)) (N.compare x y)
  | CMark _ _, CAtom _ => Lt
  | CAtom _, CMark _ _ => Gt
  | CAtom a, CAtom b => atom_cmp a b
  end.
Fixpoint flat_cmp (a b : flat) : comparison :=
  match a, b with
  | [], [] => Eq
  | [], _ => Lt
  | _, [] => Gt
  | x :: a', y :: b' => lexc (comp_cmp x y) (flat_cmp a' b')
  end.
Definition term_cmp (s t : term) : comparison := flat_cmp (encode s) (encode t).
Definition term_leb (s t : term) : bool := match term_cmp s t with Gt => false | _ => true end.

(** 22-31 [split_symbol_application] *)
Definition is_app (t : term) : bool := match t with TApp _ _ => true | _ => false end.
Definition split_symbol_application (t : term) (s : symbol) (arity : nat) : option (list term) :=
  if is_app t && Nat.eqb (length (args t)) arity &&
     (match head_atom (spine_head t) with Sym s' => if symbol_eq_dec s' s then true else false | _ => false end)
  then Some (args t) else None.

(** 95-104 [beta_reduce_head_lambda_application]; [open_bound] always answers (C16) *)
Definition beta_head (t : term) : option term :=
  match t with
  | TApp (TBind KLam _ b) a => open_bound b a
  | _ => None
  end.

(** 106-121 [eta_reduce_single_lambda].  The head and the arguments but the last together are the
    function part of the application. *)
Definition eta_head (t : term) : option term :=
  match t with
  | TBind KLam _ (TApp f (TAtom (BoundVar 0))) =>
    if references_bound 0 f then None else shift_down 1 1 f
  | _ => None
  end.

(** 123-127 [cancel_double_negation] *)
Definition cancel_double_negation (t : term) : option term :=
  match split_symbol_application t SNot 1 with
  | Some [x] =>
    match split_symbol_application x SNot 1 with Some [y] => Some y | _ => None end
  | _ => None
  end.

(** 129-142 [normalize_fully_applied_eq] *)
Definition eq_ordered (l r : term) : bool :=
  match l, r with
  | TAtom (FreeVar i), TAtom (FreeVar j) => Nat.leb i j
  | _, _ => term_leb l r
  end.
Definition normalize_fully_applied_eq (t : term) : option term :=
  match split_symbol_application t SEq 3 with
  | Some [T; l; r] => if eq_ordered l r then None else Some (teq T r l)
  | _ => None
  end.

Definition obind {A B} (o : option A) (f : A -> option B) : option B :=
  match o with Some x => f x | None => None end.
Definition unwrap_or {A} (o : option A) (d : A) : A := match o with Some x => x | None => d end.

(** 33-61 [normalize_term_children] and 64-92 [beta_reduce_term_children] *)
Definition map_children (f : term -> option term) (t : term) : option term :=
  match t with
  | TAtom _ => Some t
  | TApp g a => obind (f g) (fun g' => obind (f a) (fun a' => Some (TApp g' a')))
  | TBind k A b => obind (f A) (fun A' => obind (f b) (fun b' => Some (TBind k A' b')))
  end.

(** 145-151 [beta_reduce_subterms] *)
Fixpoint beta_reduce_subterms (fuel : nat) (t : term) : option term :=
  match fuel with
  | 0 => None
  | S n =>
    obind (map_children (beta_reduce_subterms n) t) (fun t' =>
    match beta_head t' with
    | Some r => beta_reduce_subterms n r
    | None => Some t'
    end)
  end.

(** 197-207 [normalize_term] *)
Fixpoint normalize_term (fuel : nat) (t : term) : option term :=
  match fuel with
  | 0 => None
  | S n =>
    obind (map_children (normalize_term n) t) (fun t' =>
    match beta_head t' with
    | Some r => normalize_term n r
    | None =>
      match eta_head t' with
      | Some r => normalize_term n r
      | None =>
        let t1 := unwrap_or (cancel_double_negation t') t' in
        Some (unwrap_or (normalize_fully_applied_eq t1) t1)
      end
    end)
  end.

(** 214-297 [normalize_clause_term_with_polarity].  The recursive calls on arguments are calls on
    proper subterms, so the depth of the term bounds the recursion; [term_depth] is enough (proved
    in TermNormProofs.v: the result is never [None]). *)
Fixpoint clause_term_pol (fuel : nat) (t : term) (positive : bool) : option term :=
  match fuel with
  | 0 => None
  | S n =>
    match split_symbol_application t SNot 1 with
    | Some [x] => clause_term_pol n x (negb positive)
    | _ =>
    match split_symbol_application t SAnd 2 with
    | Some [x; y] =>
      obind (clause_term_pol n x positive) (fun x' =>
      obind (clause_term_pol n y positive) (fun y' =>
      Some (if positive then tand x' y' else tor x' y')))
    | _ =>
    match split_symbol_application t SOr 2 with
    | Some [x; y] =>
      obind (clause_term_pol n x positive) (fun x' =>
      obind (clause_term_pol n y positive) (fun y' =>
      Some (if positive then tor x' y' else tand x' y')))
    | _ =>
    match t with
    | TBind KAll A b =>
      obind (clause_term_pol n A true) (fun A' =>
      obind (clause_term_pol n b positive) (fun b' =>
      Some (TBind (if positive then KAll else KEx) A' b')))
    | TBind KEx A b =>
      obind (clause_term_pol n A true) (fun A' =>
      obind (clause_term_pol n b positive) (fun b' =>
      Some (TBind (if positive then KEx else KAll) A' b')))
    | TAtom _ => Some (if positive then t else tnot t)
    | TApp f a =>
      obind (clause_term_pol n f true) (fun f' =>
      obind (clause_term_pol n a true) (fun a' =>
      let r := TApp f' a' in
      let r := unwrap_or (normalize_fully_applied_eq r) r in
      Some (if positive then r else tnot r)))
    | TBind k A b =>
      obind (clause_term_pol n A true) (fun A' =>
      obind (clause_term_pol n b true) (fun b' =>
      let r := TBind k A' b' in
      Some (if positive then r else tnot r)))
    end end end end
  end.

Fixpoint term_depth (t : term) : nat :=
  match t with
  | TAtom _ => 1
  | TApp f a => S (Nat.max (term_depth f) (term_depth a))
  | TBind _ A b => S (Nat.max (term_depth A) (term_depth b))
  end.

Definition normalize_clause_term_with_polarity (t : term) (positive : bool) : term :=
  unwrap_or (clause_term_pol (term_depth t) t positive) t.

(** 300-302 *)
Definition normalize_clause_term (t : term) : term := normalize_clause_term_with_polarity t true.

(** 306-318 [normalize_signed_clause_term] *)
Fixpoint signed_clause_term (fuel : nat) (t : term) (positive : bool) : option (term * bool) :=
  match fuel with
  | 0 => None
  | S n =>
    match split_symbol_application t SNot 1 with
    | Some [x] => signed_clause_term n x (negb positive)
    | _ =>
    match split_symbol_application t SOr 2 with
    | Some [x; y] =>
      Some (tand (normalize_clause_term_with_polarity x false)
                 (normalize_clause_term_with_polarity y false), negb positive)
    | _ => Some (normalize_clause_term t, positive)
    end end
  end.
Definition normalize_signed_clause_term (t : term) (positive : bool) : term * bool :=
  unwrap_or (signed_clause_term (term_depth t) t positive) (t, positive).
