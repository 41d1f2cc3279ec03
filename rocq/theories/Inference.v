(** Model of the single-premise inferences of src/kernel/clause.rs. *)
From Coq Require Import List Arith NArith Bool.
Import ListNotations.
From Verif Require Import Term LocalContext Kbo Typing Literal Clause.

(** term.rs:1026-1037 [num_args]; a binder counts as one argument *)
Fixpoint num_args (t : term) : nat :=
  match t with TAtom _ => 0 | TApp f _ => S (num_args f) | TBind _ _ _ => 1 end.

(** term.rs:2249-2253 [get_head_term] *)
Definition head_term (t : term) : term := TAtom (head_atom t).

(** The comparison loop of clause.rs:648-660: [None] is the index panic, otherwise the arguments at
    the only position where the lists differ, if there is exactly one. *)
Fixpoint only_difference (l r : list term) (found : option (term * term)) : option (option (term * term)) :=
  match l with
  | [] => Some found
  | a :: l' =>
    match r with
    | [] => None
    | b :: r' =>
      if term_eqb a b then only_difference l' r' found else
      match found with
      | Some _ => Some None
      | None => only_difference l' r' (Some (a, b))
      end
    end
  end.

(** 631-672 [find_injectivities]; [pre] are the literals before the current one *)
Fixpoint injectivities_from (pre post : list literal) : option (list (list literal)) :=
  match post with
  | [] => Some []
  | x :: r =>
    if positive x then Some [] else
    let continue := injectivities_from (pre ++ [x]) r in
    if atom_eq_dec (head_atom (left x)) (head_atom (right x)) then
      if Nat.eqb (num_args (left x)) (num_args (right x)) then
        match only_difference (args (left x)) (args (right x)) None with
        | None => None
        | Some None => continue
        | Some (Some (a, b)) => option_map (cons (pre ++ lit_new false a b :: r)) continue
        end
      else continue
    else continue
  end.
Definition find_injectivities (c : clause) : option (list (list literal)) :=
  injectivities_from [] (literals c).

(** 675-681 [injectivities] *)
Fixpoint normalize_all (c : lctx) (l : list (list literal)) : option (list clause) :=
  match l with
  | [] => Some []
  | x :: r =>
    match clause_new x c, normalize_all c r with
    | Some x', Some r' => Some (if is_tautology x' then r' else x' :: r')
    | _, _ => None
    end
  end.
Definition injectivities (c : clause) : option (list clause) :=
  match find_injectivities c with None => None | Some l => normalize_all (context c) l end.

(** 763-781 [expected_input_type_for_arg] *)
Definition expected_input (K : kctx) (c : lctx) (t : term) (prefix : list term) : option term :=
  match checked_type K c (apply (head_term t) prefix) with
  | Some (TBind KPi input _) => Some input
  | _ => None
  end.

(** 783-818 [would_leave_unsupported_bare_head] *)
Definition unsupported_bare_head (K : kctx) (t : term) (remaining : nat) : bool :=
  Nat.eqb remaining 0 &&
  match head_atom t with
  | Sym SEq | Sym SIte => true
  | Sym (SGlobal m i) => k_value_params K (SGlobal m i)
  | Sym (SScoped i) => k_value_params K (SScoped i)
  | _ => false
  end.

Fixpoint common_prefix (a b : list term) : nat :=
  match a, b with
  | x :: a', y :: b' => if term_eqb x y then S (common_prefix a' b') else 0
  | _, _ => 0
  end.

(** 825-904: the peeling loop.  The argument lists are reversed, so that the last argument is the
    first element and the tail is the prefix.  [peeled] has the last peeled variable first.  The outer
    [None] is a return through [?]. *)
Fixpoint peel (K : kctx) (c : lctx) (longer shorter : term) (matching : nat) (la sa : list term)
  (peeled : list nat) : option (list nat) :=
  match matching, la, sa with
  | S m, _ :: lp, TAtom (FreeVar v) :: sp =>
    match get_var_type c v with
    | None => None
    | Some T =>
      match expected_input K c longer (rev lp), expected_input K c shorter (rev sp) with
      | Some li, Some si =>
        if negb (term_eqb T li) || negb (term_eqb T si) then Some peeled else
        if unsupported_bare_head K longer (length lp) || unsupported_bare_head K shorter (length sp) then Some peeled else
        if existsb (Nat.eqb v) peeled then Some peeled else
        if existsb (has_variable v) lp || existsb (has_variable v) sp then Some peeled else
        peel K c longer shorter m lp sp (v :: peeled)
      | _, _ => None
      end
    end
  | _, _, _ => Some peeled
  end.

(** atom.rs:92-94 *)
Definition is_variable_atom (a : atom) : bool := match a with Sym _ => false | _ => true end.
Definition drop_last {A} (n : nat) (l : list A) : list A := firstn (length l - n) l.

(** 721-965 [find_extensionality_for_literal]; the inner [None] is "does not apply" and the outer the
    panic of [get_type] *)
Definition extensionality_for_literal (K : kctx) (c : lctx) (l : literal) : option (option (literal * list nat)) :=
  if negb (positive l) || term_eqb (left l) (right l) then Some None else
  let '(longer, shorter) :=
    if Nat.leb (num_args (right l)) (num_args (left l)) then (left l, right l) else (right l, left l) in
  let la := args longer in
  let sa := args shorter in
  match la, sa with
  | [], _ | _, [] => Some None
  | _, _ =>
    if is_variable_atom (head_atom longer) || is_variable_atom (head_atom shorter) then Some None else
    match common_prefix (rev la) (rev sa) with
    | 0 => Some None
    | m =>
      match peel K c longer shorter m (rev la) (rev sa) [] with
      | None | Some [] => Some None
      | Some peeled =>
        let nl := apply (head_term longer) (drop_last (length peeled) la) in
        let ns := apply (head_term shorter) (drop_last (length peeled) sa) in
        if term_eqb nl ns then Some None else
        match get_type K c nl, get_type K c ns with
        | Some tl, Some ts => if term_eqb tl ts then Some (Some (lit_new true nl ns, peeled)) else Some None
        | _, _ => None
        end
      end
    end
  end.

Definition lit_has_variable (v : nat) (l : literal) : bool := has_variable v (left l) || has_variable v (right l).

(** 696-719 [find_extensionality]; inner and outer [None] as above *)
Fixpoint extensionality_from (K : kctx) (c : lctx) (pre post : list literal) : option (option (list literal)) :=
  match post with
  | [] => Some None
  | x :: r =>
    match extensionality_for_literal K c x with
    | None => None
    | Some None => extensionality_from K c (pre ++ [x]) r
    | Some (Some (l, peeled)) =>
      if existsb (fun o => existsb (fun v => lit_has_variable v o) peeled) (pre ++ r)
      then extensionality_from K c (pre ++ [x]) r
      else Some (Some (pre ++ l :: r))
    end
  end.
Definition find_extensionality (K : kctx) (c : clause) : option (option (list literal)) :=
  extensionality_from K (context c) [] (literals c).
