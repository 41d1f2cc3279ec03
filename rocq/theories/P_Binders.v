(** Property C16: bound-variable operations. *)
From Coq Require Import List Arith NArith Bool Lia.
Import ListNotations.
From Verif Require Import Term LocalContext Semantics TermProofs.

(** Opening a binder body never hits the index-underflow panic, and the result has, in every
    interpretation, the value of the body with the bound variable standing for the value of the
    replacement (whatever the outer binders mean, so nothing is captured). *)
Theorem open_bound_is_substitution :
  forall t r, exists u, open_bound t r = Some u /\
  forall (M : Model) rho bs, eval M rho bs u = eval M rho (scons (eval M rho bs r) bs) t.
Proof.
  intros t r. exists (open_at 0 r t). split; [apply open_bound_spec|].
  intros. apply eval_open.
Qed.
Print Assumptions open_bound_is_substitution.

(** [fun y => f(y, b0, b1)] opened with a term mentioning an outer binder: the inner binder is
    untouched, b1 (the opened one) is replaced by the shifted term, b2 moves down. *)
Example open_bound_is_substitution_case :
  open_bound (TBind KLam tbool (apply (TSym (SGlobal 0 0)) [TBound 0; TBound 1; TBound 2]))
             (TApp (TSym (SGlobal 0 1)) (TBound 0))
  = Some (TBind KLam tbool (apply (TSym (SGlobal 0 0))
            [TBound 0; TApp (TSym (SGlobal 0 1)) (TBound 1); TBound 1])).
Proof. reflexivity. Qed.

(** Shifting up skips the inserted binders; shifting back down returns the term. *)
Theorem shift_bound_is_weakening :
  forall t c k,
  (forall (M : Model) rho bs,
     eval M rho bs (shift_up c k t)
     = eval M rho (fun i => if Nat.ltb i c then bs i else bs (i + k)) t) /\
  shift_down c k (shift_up c k t) = Some t.
Proof.
  intros t c k. split; [|apply shift_down_up]. intros. apply eval_shift.
Qed.
Print Assumptions shift_bound_is_weakening.

Example shift_bound_is_weakening_case :
  shift_up 1 2 (TApp (TBound 0) (TBind KPi (TBound 1) (TBound 1))) =
    TApp (TBound 0) (TBind KPi (TBound 3) (TBound 1)) /\
  shift_down 0 1 (TBound 0) = None.
Proof. split; reflexivity. Qed.

(** Opening a binder with a variable that does not occur and abstracting that variable again
    gives the body back, and the other way round. *)
Theorem open_then_abstract :
  forall t, has_escaping_at 1 t = false -> has_variable 0 t = false ->
  exists u, open_bound t (TVar 0) = Some u /\ convert_free_to_bound 1 u = t.
Proof.
  intros t Ht Hv. exists (open_at 0 (TVar 0) t). split; [apply open_bound_spec|].
  apply close_open; auto. apply has_variable_false; auto.
Qed.
Print Assumptions open_then_abstract.

Theorem abstract_then_open :
  forall t, has_escaping_bound_variable t = false ->
  open_bound (convert_free_to_bound 1 t) (TVar 0) = Some t.
Proof.
  intros t Ht. rewrite open_bound_spec. f_equal. apply open_close; auto.
Qed.
Print Assumptions abstract_then_open.

Example open_then_abstract_case :
  let t := TBind KLam (TBound 0) (TApp (TBound 1) (TApp (TBound 0) (TVar 3))) in
  has_escaping_at 1 t = false /\ has_variable 0 t = false /\
  open_bound t (TVar 0) = Some (TBind KLam (TVar 0) (TApp (TVar 0) (TApp (TBound 0) (TVar 3)))).
Proof. repeat split. Qed.

Example abstract_then_open_case :
  let t := TBind KLam (TVar 0) (TApp (TVar 0) (TBound 0)) in
  has_escaping_bound_variable t = false /\
  convert_free_to_bound 1 t = TBind KLam (TBound 0) (TApp (TBound 1) (TBound 0)).
Proof. repeat split. Qed.

(** Abstracting the first [n] variables: in every interpretation the result reads variable [i]
    from the [n-1-i]-th enclosing binder and leaves all other variables alone. *)
Theorem abstract_is_environment_lookup :
  forall t n (M : Model) rho bs,
  eval M rho bs (convert_free_to_bound n t) =
  eval M (fun i => if Nat.ltb i n then bs (n - 1 - i) else rho i) (fun i => bs (i + n)) t.
Proof.
  intros t n M rho bs. unfold convert_free_to_bound. destruct (Nat.eqb_spec n 0) as [->|].
  - simpl. apply eval_bs. intros i. f_equal. lia.
  - rewrite eval_convert. simpl. reflexivity.
Qed.
Print Assumptions abstract_is_environment_lookup.

Example abstract_is_environment_lookup_case :
  convert_free_to_bound 2 (TApp (TApp (TVar 0) (TVar 1)) (TBind KPi (TVar 2) (TVar 1)))
  = TApp (TApp (TBound 1) (TBound 0)) (TBind KPi (TVar 2) (TBound 1)).
Proof. reflexivity. Qed.

(** Applying a function type to an argument is opening its output, also through the shortcut for
    outputs without bound variables. *)
Theorem type_application_is_opening :
  forall A B arg, exists u,
  type_apply_with_arg (TBind KPi A B) arg = Some u /\ open_bound B arg = Some u /\
  forall (M : Model) rho bs, eval M rho bs u = eval M rho (scons (eval M rho bs arg) bs) B.
Proof.
  intros A B arg. exists (open_at 0 arg B). rewrite open_bound_spec. repeat split.
  - simpl. destruct (has_bound_variable B) eqn:E; [apply open_bound_spec|].
    rewrite open_at_lc; auto. apply no_bound_lc; auto.
  - intros. apply eval_open.
Qed.
Print Assumptions type_application_is_opening.

Example type_application_is_opening_case :
  type_apply_with_arg (TBind KPi (TSym SType0) (TBind KPi (TBound 0) (TBound 1))) tbool
  = Some (TBind KPi tbool tbool).
Proof. reflexivity. Qed.
