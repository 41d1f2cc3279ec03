(** C18 (the extended ordering is a total order) and C19 (the strict ordering is stable under
    instantiation), for the orderings of src/kernel/term.rs:1115-1314. *)
From Coq Require Import List Arith NArith Bool Lia.
Import ListNotations.
From Verif Require Import Term TermProofs Kbo KboProofs.

Local Definition g (i : N) : term := TSym (SGlobal 1 i).

(** C18, full statement: [extended_kbo_cmp] is antisymmetric, transitive and returns Equal only on
    identical terms, for all terms.  It fails: distinct binders tie, because the tie-breaks never
    look inside a binder.  Two different lambdas (or quantified formulas) of one type, so both can
    occur as the two sides of one literal: *)
Theorem extended_order_identifies_only_identical_refuted :
  exists s t, s <> t /\ extended_kbo_cmp s t = Eq.
Proof.
  exists (TBind KLam tbool (TApp (g 0) (TBound 0))), (TBind KAll tbool (TApp (TBound 0) (g 0))).
  split; [discriminate|reflexivity].
Qed.
Print Assumptions extended_order_identifies_only_identical_refuted.

(** the same for two well-formed predicates: [function(x: Bool) { f(x, a) }] against
    [function(x: Bool) { f(a, x) }] *)
Example extended_order_ties_same_type_case :
  let s := TBind KLam tbool (TApp (TApp (g 7) (TBound 0)) (g 8)) in
  let t := TBind KLam tbool (TApp (TApp (g 7) (g 8)) (TBound 0)) in
  s <> t /\ extended_kbo_cmp s t = Eq.
Proof. split; [discriminate|reflexivity]. Qed.

(** Antisymmetry holds for all terms. *)
Theorem extended_order_antisymmetric s t :
  extended_kbo_cmp s t = CompOpp (extended_kbo_cmp t s).
Proof. unfold extended_kbo_cmp. rewrite extended_opp. reflexivity. Qed.
Print Assumptions extended_order_antisymmetric.

(** Missing from the full statement: terms with binders. *)
Theorem extended_order_identifies_only_identical_partial s t :
  binder_free s = true -> binder_free t = true ->
  (extended_kbo_cmp s t = Eq <-> s = t).
Proof.
  intros Hs Ht. split; [|intros ->; apply extended_refl].
  intros E. apply extended_eq in E; auto using view_vwf.
  apply view_inj; auto; rewrite E; auto.
Qed.
Print Assumptions extended_order_identifies_only_identical_partial.

Theorem extended_order_transitive_partial s t u :
  binder_free s = true -> binder_free t = true -> binder_free u = true ->
  extended_kbo_cmp s t = Gt -> extended_kbo_cmp t u = Gt -> extended_kbo_cmp s u = Gt.
Proof.
  intros Hs Ht Hu H1 H2.
  destruct (extended_tri (view_of s) (view_of t) (view_of u)) as (_ & _ & _ & H); auto using view_vwf.
Qed.
Print Assumptions extended_order_transitive_partial.

Example extended_order_case :
  let s := TApp (TApp (g 3) (TVar 0)) (TApp (g 2) (g 1)) in
  let t := TApp (TApp (g 3) (TVar 1)) (TApp (g 2) (g 1)) in
  let u := TApp (TApp (g 3) (TVar 1)) (g 1) in
  binder_free s = true /\ extended_kbo_cmp s t = Gt /\ extended_kbo_cmp t u = Gt
  /\ extended_kbo_cmp s u = Gt /\ extended_kbo_cmp t s = Lt.
Proof. repeat split. Qed.

(** C19, full statement: [kbo_cmp s t = Gt] implies [kbo_cmp (s sigma) (t sigma) = Gt] for all
    substitutions.  It fails because the symbol weight is a wrapping u32 and the variable counters
    are wrapping u8. *)
Fixpoint iter_app (n : nat) (f x : term) : term :=
  match n with O => x | S m => TApp f (iter_app m f x) end.

(** 32 applications of a unary function of module 500 against one of module 499; substituting a
    constant of module 400 makes only the left weight wrap. *)
Theorem strict_order_stable_refuted :
  exists s t sigma, binder_free s = true /\ binder_free t = true
    /\ counts_fit s /\ counts_fit t
    /\ kbo_cmp s t = Gt /\ kbo_cmp (subst sigma s) (subst sigma t) = Lt.
Proof.
  exists (iter_app 32 (TSym (SGlobal 500 0)) (TVar 0)), (iter_app 32 (TSym (SGlobal 499 0)) (TVar 0)),
    (fun _ => TSym (SGlobal 400 0)).
  repeat split; try reflexivity.
  - intros x. cbn [iter_app occurrences]. destruct (0 =? x); reflexivity.
  - intros x. cbn [iter_app occurrences]. destruct (0 =? x); reflexivity.
Qed.
Print Assumptions strict_order_stable_refuted.

(** The counters: [x] occurs 256 times on the right and once on the left. *)
Theorem strict_order_counts_wrap_refuted :
  exists s t, kbo_cmp s t = Gt /\ (occurrences 0 s < occurrences 0 t)%N
    /\ exists sigma, kbo_cmp (subst sigma s) (subst sigma t) = Lt.
Proof.
  set (h := g 1). set (f := g 0).
  exists (iter_app 256 h (TVar 0)), (iter_app 255 (TApp f (TVar 0)) (TVar 0)).
  split; [vm_compute; reflexivity|split; [vm_compute; reflexivity|]].
  exists (fun _ => TApp h (g 2)). vm_compute; reflexivity.
Qed.
Print Assumptions strict_order_counts_wrap_refuted.

Definition w2_fits (t : term) : Prop := (weight2_exact t < w32)%N.

(** Missing from the full statement: terms whose counters or weights overflow. *)
Theorem strict_order_stable_partial s t sigma :
  counts_fit s -> counts_fit t -> counts_fit (subst sigma s) -> counts_fit (subst sigma t) ->
  w2_fits s -> w2_fits t -> w2_fits (subst sigma s) -> w2_fits (subst sigma t) ->
  kbo_cmp s t = Gt -> kbo_cmp (subst sigma s) (subst sigma t) = Gt.
Proof.
  intros Cs Ct Css Cts Ws Wt Wss Wts. unfold kbo_cmp, kbo_helper.
  assert (F : forall u, w2_fits u -> weight2 u = weight2_exact u)
    by (intros; rewrite weight2_mod; apply N.mod_small; auto).
  rewrite !F by auto.
  set (n := Nat.max (least_unused s) (least_unused t)).
  rewrite (weight1_subst sigma s n), (weight1_subst sigma t n) by lia.
  rewrite (weight2_subst sigma s n), (weight2_subst sigma t n) by lia.
  destruct (lexc _ _) eqn:E; try discriminate.
  { simpl. destruct (dominates (refcounts t) (refcounts s)); discriminate. }
  simpl. destruct (dominates (refcounts s) (refcounts t)) eqn:D; [|discriminate]. intros _.
  pose proof (proj1 (dominates_occurrences s t Cs Ct) D) as O.
  assert (S1 : (nsum n (fun i => occurrences i t * weight1 (sigma i))
             <= nsum n (fun i => occurrences i s * weight1 (sigma i)))%N)
    by (apply nsum_le; intros; apply N.mul_le_mono_r; auto).
  assert (S2 : (nsum n (fun i => occurrences i t * weight2_exact (sigma i))
             <= nsum n (fun i => occurrences i s * weight2_exact (sigma i)))%N)
    by (apply nsum_le; intros; apply N.mul_le_mono_r; auto).
  assert (D' : dominates (refcounts (subst sigma s)) (refcounts (subst sigma t)) = true).
  { apply dominates_occurrences; auto. intros x.
    rewrite (occurrences_subst x sigma s n), (occurrences_subst x sigma t n) by lia.
    apply nsum_le; intros; apply N.mul_le_mono_r; auto. }
  rewrite D'.
  assert (E' : forall a b c d, lexc (N.compare a b) (N.compare c d) = Gt <->
                (b < a \/ a = b /\ d < c)%N).
  { intros a b c d. unfold lexc.
    destruct (N.compare_spec a b), (N.compare_spec c d); split; intros; try discriminate; auto; try lia. }
  rewrite E' in E.
  match goal with |- (match ?X with _ => _ end) = _ => assert (X = Gt) as ->; [apply E'; lia|reflexivity] end.
Qed.
Print Assumptions strict_order_stable_partial.

Example strict_order_stable_case :
  let s := TApp (TApp (g 3) (TVar 0)) (TApp (g 4) (TVar 1)) in
  let t := TApp (g 9) (TVar 1) in
  let sigma := fun i => TApp (g 4) (TVar i) in
  kbo_cmp s t = Gt /\ kbo_cmp (subst sigma s) (subst sigma t) = Gt /\
  w2_fits s /\ w2_fits t /\ w2_fits (subst sigma s) /\ w2_fits (subst sigma t) /\
  counts_fit s /\ counts_fit t /\ counts_fit (subst sigma s) /\ counts_fit (subst sigma t).
Proof.
  intros s t sigma. subst s t sigma. unfold w2_fits, counts_fit, N.lt. repeat apply conj; try reflexivity; intros x; cbn [subst occurrences g];
    destruct (0 =? x), (1 =? x); reflexivity.
Qed.

(** The strict ordering is a strict order: irreflexive, and transitive without overflow. *)
Theorem strict_order_irreflexive t : kbo_cmp t t = Eq.
Proof. unfold kbo_cmp, kbo_helper. rewrite !N.compare_refl. reflexivity. Qed.
Print Assumptions strict_order_irreflexive.

(** [stable_cmp] does not see variable names: renaming variables on either side changes nothing. *)
Theorem stable_cmp_ignores_names s t rho rho' :
  stable_cmp (subst (fun i => TVar (rho i)) s) (subst (fun i => TVar (rho' i)) t) = stable_cmp s t.
Proof.
  assert (W1 : forall r u, weight1 (subst (fun i => TVar (r i)) u) = weight1 u).
  { intros r u; induction u as [[]|? IH1 ? IH2|? ? IH1 ? IH2]; cbn [subst weight1]; auto; rewrite IH1, IH2; auto. }
  assert (W2 : forall r u, weight2 (subst (fun i => TVar (r i)) u) = weight2 u).
  { intros r u; induction u as [[]|? IH1 ? IH2|? ? IH1 ? IH2]; cbn [subst weight2]; auto; rewrite IH1, IH2; auto. }
  unfold stable_cmp, kbo_helper. rewrite !W1, !W2. simpl negb. cbn [orb].
  f_equal.
  (* the views agree up to the names of head variables *)
  set (same := fix same (v w : view) {struct v} : Prop :=
     match v, w with View _ _ h n l, View _ _ h' n' l' =>
       stable_key h = stable_key h' /\ n = n' /\
       (fix all2 (l m : list view) {struct l} := match l, m with
          | [], [] => True | x :: l', y :: m' => same x y /\ all2 l' m' | _, _ => False end) l l' end).
  assert (Sp : forall v w, same v w -> forall u, partial_tiebreak v u = partial_tiebreak w u).
  { intros v. induction v as [a b h n l IH] using view_ind'. intros [a' b' h' n' l'] (Hh & -> & Hl) [a'' b'' h'' n'' l''].
    simpl.
    assert (stable_partial_order h h'' = stable_partial_order h' h'') as ->.
    { rewrite !stable_is_rank. rewrite Hh.
      assert (stable_rank h = stable_rank h') as -> by
        (destruct h, h'; simpl in *; try congruence; auto; injection Hh as ->; auto). auto. }
    do 2 f_equal. revert l' Hl l''. clear -IH.
    induction IH as [|x l Hx Hl IHl]; intros [|y l'] H l''; simpl in *; try tauto; auto.
    destruct H. destruct l''; auto. simpl. rewrite (Hx y); auto. rewrite (IHl l'); auto. }
  assert (Sa : forall l m x y,
    (fix all2 (l m : list view) {struct l} := match l, m with
          | [], [] => True | x :: l', y :: m' => same x y /\ all2 l' m' | _, _ => False end) l m ->
    same x y ->
    (fix all2 (l m : list view) {struct l} := match l, m with
          | [], [] => True | x :: l', y :: m' => same x y /\ all2 l' m' | _, _ => False end) (l ++ [x]) (m ++ [y])).
  { induction l as [|c l IH]; intros [|d m] x y H Hxy; try contradiction.
    - split; [exact Hxy|exact I].
    - destruct H as [H1 H2]; split; [exact H1|]. apply IH; auto. }
  assert (Sh : forall r u, stable_key (head_atom (subst (fun i => TVar (r i)) u)) = stable_key (head_atom u)).
  { intros r u; induction u as [[]| |]; simpl; auto. }
  assert (Sv : forall r u, same (view_of (subst (fun i => TVar (r i)) u)) (view_of u)).
  { intros r u; induction u as [a|f IHf a IHa|k A IHA b IHb].
    - destruct a; simpl; auto.
    - cbn [subst view_of]. 
      destruct (view_of (subst (fun i => TVar (r i)) f)) as [? ? h n l], (view_of f) as [? ? h' n' l'].
      destruct IHf as (H1 & H2 & H3). cbn. repeat split; auto.
      apply Sa; auto.
    - cbn. repeat split; auto; apply Sh. }
  rewrite (Sp _ _ (Sv rho s)).
  rewrite <- (CompOpp_involutive (partial_tiebreak (view_of s) _)), partial_opp.
  rewrite (Sp _ _ (Sv rho' t)), partial_opp. reflexivity.
Qed.
Print Assumptions stable_cmp_ignores_names.

Example stable_cmp_case :
  stable_cmp (TApp (TApp (g 3) (TVar 0)) (TVar 1)) (TApp (TApp (g 3) (TVar 4)) (TVar 2)) = Eq
  /\ stable_cmp (TApp (g 3) (TVar 0)) (TApp (g 2) (TVar 4)) = Gt.
Proof. split; reflexivity. Qed.
