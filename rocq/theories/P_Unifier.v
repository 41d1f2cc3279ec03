(** C15: if unification succeeds, the two terms become equal under the resulting maps. *)
From Coq Require Import List Arith NArith Bool Lia.
Import ListNotations.
From Verif Require Import Term LocalContext Literal Clause Typing VariableMap VariableMapProofs Unifier UnifierProofs P_Matching.

(** The states a unifier can be in: new, with input contexts, after [unify] and after [apply]. *)
Inductive reachable (K : kctx) (ts : tstore) : ustate -> Prop :=
| re_new n : 0 < n -> reachable K ts (unifier_new n)
| re_input st s c : reachable K ts st -> s < length (u_maps st) -> reachable K ts (set_input_context st s c)
| re_unify n st s1 t1 s2 t2 st' : reachable K ts st -> unify K ts n st s1 t1 s2 t2 = Some (Some st') -> u_clash st' = false ->
    reachable K ts st'
| re_apply n st s t t' st' : reachable K ts st -> uapply n st s t = Some (t', st') -> reachable K ts st'.

Lemma reachable_wf K ts st : reachable K ts st -> uwf st.
Proof.
  induction 1 as [n H|st s c R IH H|n st s1 t1 s2 t2 st' R IH H Hc|n st s t t' st' R IH H].
  - assert (E : forall s, umap (unifier_new n) s = []).
    { intros s. unfold umap, unifier_new. cbn [u_maps]. destruct (nth_in_or_default s (repeat (@nil (option term)) n) []) as [Hi|Hi]; auto.
      apply repeat_spec in Hi. auto. }
    constructor; simpl; rewrite ?repeat_length; auto.
    + intros s i r v Hr. rewrite E in Hr. destruct i; discriminate.
    + intros s i r Hr. rewrite E in Hr. destruct i; discriminate.
  - destruct IH as [A B C D]. constructor; auto. simpl. rewrite length_upd. auto.
  - destruct s1, s2; try discriminate. simpl in H. apply (unify_spec K ts n) in H; auto. apply H.
  - destruct (uapply_fresh _ _ _ _ _ _ IH H) as (F & _ & _). apply (ufresh_wf _ _ IH F).
Qed.

(** Applying to a term whose variables are mapped only needs fuel for the term. *)
Lemma uapply_total t : forall n st s, tsize t < n -> cov st s t -> uapply n st s t = Some (sigma st s t, st).
Proof.
  induction t as [[i|i|x]|f IHf a IHa|k A IHA b IHb]; intros n st s Hn C; destruct n as [|n]; try (cbn [tsize] in Hn; lia); cbn [uapply].
  - unfold sigma. cbn [apply_to_term]. destruct (vget (umap st s) i) as [r|] eqn:E; [rewrite E; auto|].
    destruct s as [|s]; [rewrite E; auto|]. exfalso. apply (C (Nat.neq_succ_0 s) i); auto. unfold vars; simpl; auto.
  - auto.
  - auto.
  - cbn [tsize] in Hn. apply cov_app in C. destruct C as [C1 C2]. rewrite IHf, IHa by (auto; lia). reflexivity.
  - cbn [tsize] in Hn. apply cov_bind in C. destruct C as [C1 C2]. rewrite IHA, IHb by (auto; lia). reflexivity.
Qed.

(** For every reachable state, every pair of terms and every amount of fuel: after a successful [unify]
    the two applications succeed without changing the state again, and give terms that are [ueq]: equal
    up to the two sides of equations and up to a typeclass standing where the other has [Type0].
    Without kinds they are equal up to the two sides of equations.
    Partial: [u_clash] must be false.  It is set when a variable got a value while its own type was
    being unified with that of the term it is about to be mapped to. *)
Theorem unify_unifies_partial : forall K ts st, reachable K ts st ->
  forall n s1 t1 s2 t2 st', unify K ts n st s1 t1 s2 t2 = Some (Some st') -> u_clash st' = false ->
  exists a b, ueq a b /\ (nokind a = true \/ nokind b = true -> swapeq a b) /\
    forall m, tsize t1 < m -> tsize t2 < m ->
      uapply m st' s1 t1 = Some (a, st') /\ uapply m st' s2 t2 = Some (b, st').
Proof.
  intros K ts st R n s1 t1 s2 t2 st' H Hc. pose proof (reachable_wf _ _ _ R) as W.
  destruct s1 as [|s1], s2 as [|s2]; try discriminate. simpl in H.
  destruct (proj1 (unify_spec K ts n) _ _ _ _ _ _ W H Hc) as [W' R' C1 C2 Q].
  exists (sigma st' (S s1) t1), (sigma st' (S s2) t2). split; auto. split; [apply ueq_swapeq; auto|].
  intros m H1 H2. split; apply uapply_total; auto.
Qed.
Print Assumptions unify_unifies_partial.

(** Earlier results survive: two terms that were equal under the maps before a further successful
    [unify] still are. *)
Theorem unify_keeps_partial : forall K ts st, reachable K ts st ->
  forall n s1 t1 s2 t2 st', unify K ts n st s1 t1 s2 t2 = Some (Some st') -> u_clash st' = false ->
  forall m sa a sb b a' b', uapply m st sa a = Some (a', st) -> uapply m st sb b = Some (b', st) -> ueq a' b' ->
  exists a'' b'', ueq a'' b'' /\
    forall m, tsize a < m -> tsize b < m -> uapply m st' sa a = Some (a'', st') /\ uapply m st' sb b = Some (b'', st').
Proof.
  intros K ts st R n s1 t1 s2 t2 st' H Hc m sa a sb b a' b' Ha Hb Q. pose proof (reachable_wf _ _ _ R) as W.
  destruct s1 as [|s1], s2 as [|s2]; try discriminate. simpl in H.
  destruct (proj1 (unify_spec K ts n) _ _ _ _ _ _ W H Hc) as [W' R' _ _ _].
  destruct (uapply_fresh _ _ _ _ _ _ W Ha) as (_ & -> & Ca). destruct (uapply_fresh _ _ _ _ _ _ W Hb) as (_ & -> & Cb).
  exists (sigma st' sa a), (sigma st' sb b). split; [apply (ueq_ref st st'); auto|].
  intros k H1 H2. split; apply uapply_total; auto; eapply cov_ref; eauto.
Qed.
Print Assumptions unify_keeps_partial.

(** [f(x0 = g, x1)] on the left and [f(g = h, f(x0, x1))] on the right: the two sides of the equation have
    to be swapped, and the right variables become new output variables. *)
Definition un_K : kctx :=
  {| k_type := fun _ _ => type0; k_global := fun _ i => if N.eqb i 0 then tarrow tbool (tarrow tbool tbool) else tbool;
     k_scoped := fun _ => tbool; k_instance := fun _ _ _ => false; k_extends := fun _ _ => false; k_value_params := fun _ => false |}.
Definition un_ts : tstore := {| ts_arity := fun _ _ => 0; ts_kinds := fun _ _ => [] |}.
Definition un_f a b := TApp (TApp (TSym (SGlobal 0 0)) a) b.
Definition un_g := TSym (SGlobal 0 1).
Definition un_h := TSym (SGlobal 0 2).
Definition un_start := set_input_context (inference_start [Some tbool; Some tbool]) 2 [Some tbool; Some tbool].
Definition un_left := un_f (teq tbool (TVar 0) un_g) (TVar 1).
Definition un_right := un_f (teq tbool un_g un_h) (un_f (TVar 0) (TVar 1)).
Example unify_unifies_partial_case : reachable un_K un_ts un_start /\
  exists st', unify un_K un_ts 30 un_start 1 un_left 2 un_right = Some (Some st') /\ u_clash st' = false /\
    option_map fst (uapply 30 st' 1 un_left) = Some (un_f (teq tbool un_h un_g) (un_f (TVar 0) (TVar 1))) /\
    option_map fst (uapply 30 st' 2 un_right) = Some (un_f (teq tbool un_g un_h) (un_f (TVar 0) (TVar 1))).
Proof.
  split.
  - apply re_input; [|simpl; lia]. apply re_input; [|simpl; lia]. apply re_new. lia.
  - eexists. split; [vm_compute; reflexivity|]. repeat split.
Qed.
(** [x0] of the left is mapped to the right [x0]; mapping it further keeps the two equal *)
Example unify_keeps_partial_case : exists st st',
  unify un_K un_ts 30 un_start 1 (TVar 0) 2 (TVar 0) = Some (Some st) /\
  unify un_K un_ts 30 st 1 (TVar 0) 2 un_g = Some (Some st') /\ u_clash st' = false /\
  uapply 5 st 1 (TVar 0) = Some (TVar 0, st) /\ uapply 5 st 2 (TVar 0) = Some (TVar 0, st) /\
  uapply 5 st' 1 (TVar 0) = Some (un_g, st') /\ uapply 5 st' 2 (TVar 0) = Some (un_g, st').
Proof.
  eexists. eexists. split; [vm_compute; reflexivity|]. split; [vm_compute; reflexivity|]. repeat split.
Qed.

(** A variable and a term containing it are not unified, also when the cycle goes through two variables. *)
Example occurs_case :
  unify un_K un_ts 30 un_start 1 (TVar 0) 1 (un_f (TVar 0) un_g) = Some None /\
  unify un_K un_ts 30 un_start 1 (un_f (TVar 0) (TVar 1)) 1 (un_f (un_f (TVar 1) un_g) (un_f (TVar 0) un_g)) = Some None.
Proof. split; vm_compute; reflexivity. Qed.

(** Without the flag the statement is false.  With a global [c : F(c)], [x0 : F(c)] and [x1 : F(x0)], unifying
    [x0] and [x1] unifies their types first, which maps [x0] to [c]; [remap] then overwrites that with [x1],
    but the left map keeps [c]. *)
Definition uc_F (t : term) := TApp (TSym (SType 0 2)) t.
Definition uc_c := TSym (SGlobal 0 0).
Definition uc_K : kctx :=
  {| k_type := fun _ _ => tarrow tbool type0; k_global := fun _ _ => uc_F uc_c; k_scoped := fun _ => tbool;
     k_instance := fun _ _ _ => false; k_extends := fun _ _ => false; k_value_params := fun _ => false |}.
Theorem unify_unifies_refuted : exists K ts st t1 t2 st' a b, reachable K ts st /\
  unify K ts 20 st 1 t1 1 t2 = Some (Some st') /\
  uapply 20 st' 1 t1 = Some (a, st') /\ uapply 20 st' 1 t2 = Some (b, st') /\ ~ ueq a b.
Proof.
  exists uc_K, un_ts, (inference_start [Some (uc_F uc_c); Some (uc_F (TVar 0))]), (TVar 0), (TVar 1).
  eexists. exists uc_c, (TVar 0).
  split; [apply re_input; [apply re_new|simpl]; lia|].
  split; [vm_compute; reflexivity|]. split; [reflexivity|]. split; [reflexivity|].
  intros H. inversion H.
Qed.
Print Assumptions unify_unifies_refuted.
