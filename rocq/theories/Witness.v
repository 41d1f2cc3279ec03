(** Named witnesses of existential quantifiers (prover/synthetic.rs:105-276, kernel/clause.rs:1138-1246,
    prover/active_set.rs:1187-1228).  Model only, no proofs. *)
From Coq Require Import List Arith NArith Bool.
Import ListNotations.
From Verif Require Import Term LocalContext Typing Literal Clause BoolReduction SearchRules.

(** The registration of a new scoped constant of type [T] (symbol_table.rs [add_constant] with
    [NewConstantType::Local]); what the type store records about it is not modelled. *)
Definition with_scoped (K : kctx) (w : N) (T : term) : kctx :=
  {| k_type := k_type K; k_global := k_global K; k_scoped := fun j => if N.eqb j w then T else k_scoped K j;
     k_instance := k_instance K; k_extends := k_extends K; k_value_params := k_value_params K |}.

(** clause.rs:1172-1206 [positive_exists_reduction_impl]; the result is the type and the body of the quantifier.
    [None] is a panic of the typing. *)
Definition positive_exists_reduction (K : kctx) (allow_obvious : bool) (c : clause) : option (option (term * term)) :=
  match literals c with
  | [l] =>
    match get_type K (context c) (left l) with
    | None => None
    | Some T =>
      if negb (term_eqb T tbool) then Some None else
      if negb (is_true (right l)) || negb (positive l) then Some None else
      match (if allow_obvious then Some None else reduce_exists_with_obvious_witness (left l)) with
      | None => None
      | Some (Some _) => Some None
      | Some None => match left l with TBind KEx A b => Some (Some (A, b)) | _ => Some None end
      end
    end
  | _ => Some None
  end.

(** synthetic.rs:169-185: the variables of kind type come first *)
Definition hoisted_order (c : lctx) : list nat :=
  let is_param v := match get_var_type c v with Some T => is_type_param_kind T | None => false end in
  filter is_param (seq 0 (length c)) ++ filter (fun v => negb (is_param v)) (seq 0 (length c)).

(** 262-276 [witness_symbol_type]; [None] is the panic for a context with gaps *)
Fixpoint witness_type_from (v : nat) (c : lctx) (result : term) : option term :=
  match c with
  | [] => Some result
  | None :: _ => None
  | Some T :: r => option_map (TBind KPi (convert_free_to_bound v T)) (witness_type_from (S v) r result)
  end.
Definition witness_symbol_type (c : lctx) (ret : term) : option term :=
  witness_type_from 0 c (convert_free_to_bound (length c) ret).

(** 159-235 [open_positive_exists] for the fresh scoped constant [w]: its type and the clause about it.
    The names, the type store and the stored entry are left out. *)
Definition open_positive_exists (c : clause) (w : N) (A b : term) : option (term * (clause * list nat * lctx)) :=
  let order := hoisted_order (context c) in
  match remap (context c) order, renumber_variables order A with
  | Some hoisted, Some ret =>
    match witness_symbol_type hoisted ret with
    | None => None
    | Some T =>
      let witness := apply_args (TSym (SScoped w)) (map (fun v => TVar v) order) in
      if has_escaping_bound_variable witness then None else
      match open_bound b witness with
      | None => None
      | Some reduced => option_map (pair T) (normalize_boolean_reduction [lit_positive reduced] (context c) (length (context c)))
      end
    end
  | _, _ => None
  end.

(** active_set.rs:1187-1228: the step of the search.  [sound] is [boolean_reduction_is_sound] (843-870), which only
    suppresses steps; the constant is declared even if the step is suppressed. *)
Definition witness_step (K : kctx) (sound : clause * list nat * lctx -> bool) (c : clause) (w : N) : option (kctx * option clause) :=
  match positive_exists_reduction K false c with
  | None => None
  | Some None => Some (K, None)
  | Some (Some (A, b)) =>
    match open_positive_exists c w A b with
    | None => None
    | Some (T, (c', ids, out)) => Some (with_scoped K w T, if sound (c', ids, out) then Some c' else None)
    end
  end.
