(** Model of src/kernel/unifier.rs and of equality resolution and factoring (src/kernel/inference.rs). *)
From Coq Require Import List Arith NArith Bool.
Import ListNotations.
From Verif Require Import Term LocalContext Kbo Literal Clause Typing VariableMap.

(** 36-48: scope 0 is OUTPUT (15), 1 LEFT, 2 RIGHT.  [u_clash] is not in the code: it records that
    [remap] or [unify_variable] has overwritten the value of a variable that was given one while the
    variable's own type was being unified. *)
Record ustate := {
  u_maps : list vmap;
  u_inputs : list (option lctx);
  u_out : lctx;
  u_clash : bool
}.

Fixpoint upd_nth {A} (l : list A) (i : nat) (x : A) : list A :=
  match l, i with
  | [], _ => []
  | _ :: r, 0 => x :: r
  | y :: r, S j => y :: upd_nth r j x
  end.
Definition umap (st : ustate) (s : nat) : vmap := nth s (u_maps st) [].
Definition set_umap (st : ustate) (s : nat) (m : vmap) : ustate :=
  {| u_maps := upd_nth (u_maps st) s m; u_inputs := u_inputs st; u_out := u_out st; u_clash := u_clash st |}.
Definition set_out (st : ustate) (c : lctx) : ustate :=
  {| u_maps := u_maps st; u_inputs := u_inputs st; u_out := c; u_clash := u_clash st |}.

(** 89-107 [new] *)
Definition unifier_new (n : nat) : ustate :=
  {| u_maps := repeat [] n; u_inputs := repeat None n; u_out := []; u_clash := false |}.
(** 111-113 [set_input_context] *)
Definition set_input_context (st : ustate) (s : nat) (c : lctx) : ustate :=
  {| u_maps := u_maps st; u_inputs := upd_nth (u_inputs st) s (Some c); u_out := u_out st; u_clash := u_clash st |}.
(** 378-384 [get_local_context]; [None] is a panic *)
Definition ulocal (st : ustate) (s : nat) : option lctx :=
  match s with
  | 0 => Some (u_out st)
  | _ => match nth_error (u_inputs st) s with Some (Some c) => Some c | _ => None end
  end.

(** 489-560 [apply_internal]; [None] is a panic or the end of the fuel [n] *)
Fixpoint uapply (n : nat) (st : ustate) (s : nat) (t : term) {struct n} : option (term * ustate) :=
  match n with
  | 0 => None
  | S n =>
    match t with
    | TAtom (FreeVar i) =>
      let fresh :=
        match vget (umap st s) i, s with
        | None, S _ =>
          let v := length (umap st 0) in
          let st1 := set_umap st 0 (umap st 0 ++ [None]) in
          let st2 := set_umap st1 s (vset (umap st1 s) i (TVar v)) in
          match ulocal st2 s with
          | None => None
          | Some c =>
            match get_var_type c i with
            | None => None
            | Some T =>
              match uapply n st2 s T with
              | None => None
              | Some (T', st3) => Some (set_out st3 (set_type (u_out st3) v T'))
              end
            end
          end
        | _, _ => Some st
        end in
      match fresh with
      | None => None
      | Some st' => Some (match vget (umap st' s) i with Some r => r | None => t end, st')
      end
    | TAtom _ => Some (t, st)
    | TApp f a =>
      match uapply n st s f with
      | None => None
      | Some (f', st1) =>
        match uapply n st1 s a with
        | None => None
        | Some (a', st2) => Some (TApp f' a', st2)
        end
      end
    | TBind k A b =>
      match uapply n st s A with
      | None => None
      | Some (A', st1) =>
        match uapply n st1 s b with
        | None => None
        | Some (b', st2) => Some (TBind k A' b', st2)
        end
      end
    end
  end.

(** 563-567 [apply_to_literal] *)
Definition uapply_literal (n : nat) (st : ustate) (s : nat) (l : literal) : option (literal * ustate) :=
  match uapply n st s (left l) with
  | None => None
  | Some (a, st1) =>
    match uapply n st1 s (right l) with
    | None => None
    | Some (b, st2) => Some (lit_new (positive l) a b, st2)
    end
  end.

(** type_store.rs [get_arity], [get_param_kinds] *)
Record tstore := { ts_arity : N -> N -> nat; ts_kinds : N -> N -> list term }.

(** 50-73 [resolve_type_constraint_kind]; a chain longer than the context is a cycle *)
Inductive ckind := CKType0 | CKTypeclass (m i : N) | CKOther.
Fixpoint resolve_kind (n : nat) (t : term) (c : lctx) : ckind :=
  match n with
  | 0 => CKOther
  | S n =>
    match t with
    | TAtom (Sym SType0) => CKType0
    | TAtom (Sym (STypeclass m i)) => CKTypeclass m i
    | TAtom (FreeVar v) => match get_var_type c v with Some T => resolve_kind n T c | None => CKOther end
    | _ => CKOther
    end
  end.
Definition resolve_type_constraint_kind (t : term) (c : lctx) : ckind := resolve_kind (S (S (length c))) t c.

Definition is_type0 (t : term) : bool := match t with TAtom (Sym SType0) => true | _ => false end.
Definition is_tparam_kind (t : term) : bool :=
  match t with TAtom (Sym (SType0 | STypeclass _ _)) => true | _ => false end.

Fixpoint proper_args (l : list (bool * bool)) (kinds : list term) : bool :=
  match l, kinds with
  | (p, z) :: l', k :: kinds' => (if is_tparam_kind k then p else negb z) && proper_args l' kinds'
  | _, _ => true
  end.
(** 121-169 [is_proper_type_expr]; [proper_parts] gives the head of the application spine and for
    every argument whether it is proper and whether it is [Type0] *)
Definition proper_finish (ts : tstore) (c : lctx) (t : term) (p : term * list (bool * bool)) : bool :=
  match t with
  | TAtom (Sym SBool) => true
  | TAtom (Sym (SType m i)) => Nat.eqb (ts_arity ts m i) 0
  | TAtom (FreeVar v) =>
    match get_var_type c v with
    | Some T => match resolve_type_constraint_kind T c with CKOther => false | _ => true end
    | None => false
    end
  | TApp _ _ =>
    match fst p with
    | TAtom (Sym (SType m i)) =>
      let l := snd p in
      if negb (Nat.eqb (length l) (ts_arity ts m i)) then false else
      if negb (Nat.eqb (length (ts_kinds ts m i)) (length l)) then forallb fst l else
      proper_args l (ts_kinds ts m i)
    | _ => false
    end
  | TBind KPi A _ => negb (is_tparam_kind A)
  | _ => false
  end.
Fixpoint proper_parts (ts : tstore) (c : lctx) (t : term) : term * list (bool * bool) :=
  match t with
  | TApp f a => let '(h, l) := proper_parts ts c f in (h, l ++ [(proper_finish ts c a (proper_parts ts c a), is_type0 a)])
  | _ => (t, [])
  end.
Definition is_proper_type_expr (ts : tstore) (c : lctx) (t : term) : bool := proper_finish ts c t (proper_parts ts c t).

(** 208-276 [enforce_typeclass_constraint_on_type_expr]; [None] is [false], otherwise the output
    context afterwards *)
Definition enforce_typeclass (K : kctx) (out : lctx) (required : term) (tc : N * N) (t : term) : option lctx :=
  match t with
  | TAtom (Sym (SType0 | SBool)) | TBind (KPi | KLam) _ _ => None
  | _ =>
    if k_instance K t out tc then Some out else
    match t with
    | TAtom (FreeVar v) =>
      match get_var_type out v with
      | None => None
      | Some T =>
        match resolve_type_constraint_kind T out with
        | CKTypeclass m i =>
          if tc_eqb (m, i) tc then Some out else
          let up := k_extends K (m, i) tc in
          let down := k_extends K tc (m, i) in
          if negb up && negb down then None else
          if down && negb up then Some (set_type out v required) else Some out
        | CKType0 => Some (set_type out v required)
        | CKOther => None
        end
      end
    | _ => None
    end
  end.

(** local_context.rs:126-132 [replace_variable] *)
Definition ctx_replace (id : nat) (t : term) (c : lctx) : lctx := map (option_map (replace_variable id t)) c.
(** 593-615: the types of the variables of the term that mention [id] *)
Definition self_reference_fix (id : nat) (t : term) (c : lctx) : lctx :=
  match get_var_type c id with
  | None => c
  | Some T =>
    fold_left (fun c v =>
      match get_var_type c v with
      | Some U => if has_variable id U then set_type c v (replace_variable id T U) else c
      | None => c
      end) (vars t) c
  end.

Definition atomic_variable (t : term) : option nat := match t with TAtom (FreeVar i) => Some i | _ => None end.

(** The part of [remap] after the swap of two variables (585-620) *)
Definition remap_now (n : nat) (st : ustate) (id : nat) (t : term) : option (option ustate) :=
  match uapply n st 0 t with
  | None => None
  | Some (t', st1) =>
    if has_variable id t' then Some None else
    let maps := map (map (option_map (replace_variable id t'))) (u_maps st1) in
    let out := ctx_replace id t' (self_reference_fix id t' (u_out st1)) in
    Some (Some {| u_maps := upd_nth maps 0 (vset (nth 0 maps []) id t'); u_inputs := u_inputs st1; u_out := out;
                  u_clash := u_clash st1 || match vget (umap st1 0) id with Some _ => true | None => false end |})
  end.

(** 705: [unify_variable] maps an input variable *)
Definition bind_input (st : ustate) (s i : nat) (t : term) : ustate :=
  {| u_maps := upd_nth (u_maps st) s (vset (umap st s) i t); u_inputs := u_inputs st; u_out := u_out st;
     u_clash := u_clash st || match vget (umap st s) i with Some _ => true | None => false end |}.

Section Unify.
Context (K : kctx) (ts : tstore).

(** The result is [Some (Some st)] for success, [Some None] for failure (the state is not used after
    that), [None] for a panic or the end of the fuel.

    923-990 [unify_internal], 624-705 [unify_variable], 569-621 [remap],
    172-206 [binding_type_is_compatible] *)
Fixpoint unify_internal (n : nat) (st : ustate) (s1 : nat) (t1 : term) (s2 : nat) (t2 : term) {struct n}
  : option (option ustate) :=
  match n with
  | 0 => None
  | S n =>
    match atomic_variable t1, atomic_variable t2 with
    | Some i, _ => unify_variable n st s1 i s2 t2
    | None, Some i => unify_variable n st s2 i s1 t1
    | None, None =>
      match split_eq_args t1, split_eq_args t2 with
      | Some (T1, a1, b1), Some (T2, a2, b2) =>
        let both x y :=
          match unify_internal n st s1 T1 s2 T2 with
          | Some (Some st1) =>
            match unify_internal n st1 s1 a1 s2 x with
            | Some (Some st2) => unify_internal n st2 s1 b1 s2 y
            | r => r
            end
          | r => r
          end in
        match both a2 b2 with
        | Some None => both b2 a2
        | r => r
        end
      | _, _ =>
        match t1, t2 with
        | TAtom a, TAtom b =>
          (* 710-738 [unify_atoms] without the variables *)
          Some (if atom_eq_dec a b then Some st else
                match a, b with
                | Sym (STypeclass _ _), Sym SType0 | Sym SType0, Sym (STypeclass _ _) => Some st
                | _, _ => None
                end)
        | TApp f1 a1, TApp f2 a2 =>
          match unify_internal n st s1 f1 s2 f2 with
          | Some (Some st1) => unify_internal n st1 s1 a1 s2 a2
          | r => r
          end
        | TBind k1 A1 b1, TBind k2 A2 b2 =>
          if bkind_eq_dec k1 k2 then
            match unify_internal n st s1 A1 s2 A2 with
            | Some (Some st1) => unify_internal n st1 s1 b1 s2 b2
            | r => r
            end
          else Some None
        | _, _ => Some None
        end
      end
    end
  end
with unify_variable (n : nat) (st : ustate) (s : nat) (i : nat) (ts' : nat) (t : term) {struct n}
  : option (option ustate) :=
  match n with
  | 0 => None
  | S n =>
    match ts' with
    | S _ =>
      match uapply n st ts' t with
      | None => None
      | Some (t', st1) => unify_variable n st1 s i 0 t'
      end
    | 0 =>
      match vget (umap st s) i with
      | Some e => unify_internal n st 0 e 0 t
      | None =>
        match s with
        | 0 =>
          if match atomic_variable t with Some j => Nat.eqb j i | None => false end then Some (Some st) else
          if has_variable i t then Some None else
          if has_escaping_bound_variable t then Some None else
          match match get_var_type (u_out st) i with
                | None => Some (Some st)
                | Some T => compatible n st 0 T t
                end with
          | Some (Some st1) => remap n st1 i t
          | r => r
          end
        | S _ =>
          match ulocal st s with
          | None => None
          | Some c =>
            match get_var_type c i with
            | None => None
            | Some T =>
              if has_escaping_bound_variable t then Some None else
              match compatible n st s T t with
              | Some (Some st1) =>
                match uapply n st1 0 t with
                | None => None
                | Some (t', st2) => Some (Some (bind_input st2 s i t'))
                end
              | r => r
              end
            end
          end
        end
      end
    end
  end
with remap (n : nat) (st : ustate) (id : nat) (t : term) {struct n} : option (option ustate) :=
  match n with
  | 0 => None
  | S n =>
    match atomic_variable t with
    | Some j => if Nat.ltb id j then unify_variable n st 0 j 0 (TVar id) else remap_now n st id t
    | None => remap_now n st id t
    end
  end
with compatible (n : nat) (st : ustate) (s : nat) (T : term) (t : term) {struct n} : option (option ustate) :=
  match n with
  | 0 => None
  | S n =>
    match T with
    | TAtom (Sym SType0) => Some (if is_type0 t then None else if is_proper_type_expr ts (u_out st) t then Some st else None)
    | TAtom (Sym (STypeclass m i)) =>
      match get_type K (u_out st) t with
      | None => None
      | Some U => Some (option_map (set_out st) (enforce_typeclass K (u_out st) T (m, i) (if is_tparam_kind U then t else U)))
      end
    | _ =>
      match get_type K (u_out st) t with
      | None => None
      | Some U => unify_internal n st s T 0 U
      end
    end
  end.

(** 742-747 [unify]; a call with the output scope panics *)
Definition unify (n : nat) (st : ustate) (s1 : nat) (t1 : term) (s2 : nat) (t2 : term) : option (option ustate) :=
  match s1, s2 with
  | 0, _ | _, 0 => None
  | _, _ => unify_internal n st s1 t1 s2 t2
  end.

(** ** inference.rs *)
Fixpoint uapply_literals (n : nat) (st : ustate) (l : list literal) : option (list literal * ustate) :=
  match l with
  | [] => Some ([], st)
  | x :: r =>
    match uapply_literal n st 1 x with
    | None => None
    | Some (x', st1) =>
      match uapply_literals n st1 r with
      | None => None
      | Some (r', st2) => Some (x' :: r', st2)
      end
    end
  end.
Definition inference_start (c : lctx) : ustate := set_input_context (unifier_new 3) 1 c.

(** 31-73 [find_equality_resolutions]; [pre] are the literals before the current one.  A result is
    the literals, the output context, the map of the clause's variables and the ghost flag. *)
Fixpoint equality_resolutions_from (n : nat) (c : lctx) (pre post : list literal)
  : option (list (list literal * lctx * vmap * bool)) :=
  match post with
  | [] => Some []
  | l :: r =>
    if positive l then Some [] else
    match unify n (inference_start c) 1 (left l) 1 (right l) with
    | None => None
    | Some None => equality_resolutions_from n c (pre ++ [l]) r
    | Some (Some st) =>
      match uapply_literals n st (pre ++ r) with
      | None => None
      | Some (ls, st') =>
        option_map (cons (ls, u_out st', umap st' 1, u_clash st')) (equality_resolutions_from n c (pre ++ [l]) r)
      end
    end
  end.
Definition find_equality_resolutions (n : nat) (cl : clause) : option (list (list literal * lctx * vmap * bool)) :=
  equality_resolutions_from n (context cl) [] (literals cl).

(** 12-19 [is_boolean_equality]; [None] is a panic *)
Definition is_boolean_equality (l : literal) (c : lctx) : option bool :=
  option_map (fun T => term_eqb T tbool) (get_type K c (left l)).

(** 124-161: one factoring of [s = t] with [u = v], [rest] being the other literals *)
Definition equality_factoring (n : nat) (c : lctx) (s t u v : term) (rest : list literal)
  : option (option (list literal * lctx * vmap * bool)) :=
  match unify n (inference_start c) 1 s 1 u with
  | None => None
  | Some None => Some None
  | Some (Some st) =>
    match uapply n st 1 t with
    | None => None
    | Some (t', st1) =>
      match uapply n st1 1 v with
      | None => None
      | Some (v', st2) =>
        match uapply n st2 1 u with
        | None => None
        | Some (u', st3) =>
          match uapply n st3 1 v with
          | None => None
          | Some (v'', st4) =>
            match uapply_literals n st4 rest with
            | None => None
            | Some (ls, st5) => Some (Some (lit_new false t' v' :: lit_new true u' v'' :: ls, u_out st5, umap st5 1, u_clash st5))
            end
          end
        end
      end
    end
  end.
Definition ocons {A} (x : option (option A)) (l : option (list A)) : option (list A) :=
  match x, l with
  | Some (Some a), Some r => Some (a :: r)
  | Some None, Some r => Some r
  | _, _ => None
  end.
(** 114-163: for one orientation of the first literal, over the other literals *)
Fixpoint factorings_over (n : nat) (c : lctx) (s t : term) (pre post : list literal)
  : option (list (list literal * lctx * vmap * bool)) :=
  match post with
  | [] => Some []
  | l :: r =>
    let next := factorings_over n c s t (pre ++ [l]) r in
    if negb (positive l) then next else
    match is_boolean_equality l c with
    | None => None
    | Some true => next
    | Some false =>
      ocons (equality_factoring n c s t (left l) (right l) (pre ++ r))
        (ocons (equality_factoring n c s t (right l) (left l) (pre ++ r)) next)
    end
  end.
(** 95-167 [find_equality_factorings] *)
Definition find_equality_factorings (n : nat) (cl : clause) : option (list (list literal * lctx * vmap * bool)) :=
  match literals cl with
  | [] => Some []
  | l :: r =>
    if negb (positive l) then Some [] else
    match is_boolean_equality l (context cl) with
    | None => None
    | Some true => Some []
    | Some false =>
      match factorings_over n (context cl) (left l) (right l) [] r, factorings_over n (context cl) (right l) (left l) [] r with
      | Some a, Some b => Some (a ++ b)
      | _, _ => None
      end
    end
  end.
End Unify.
