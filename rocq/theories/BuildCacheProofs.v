(** Lemmas about maps, paths and merging for the build cache. *)
From Coq Require Import String Ascii List Arith Bool Lia.
Import ListNotations.
From Verif Require Import BuildCache.
Local Open Scope string_scope.

Definition keys {A B} (m : list (A * B)) : list A := map fst m.
Section Map.
Context {A B : Type} (eqb : A -> A -> bool) (eqb_spec : forall a b, eqb a b = true <-> a = b).
Lemma eqb_refl' a : eqb a a = true.
Proof. apply eqb_spec; auto. Qed.
Lemma eqb_neq a b : a <> b -> eqb a b = false.
Proof. intros H. destruct (eqb a b) eqn:E; auto. apply eqb_spec in E. contradiction. Qed.
Lemma mget_put (m : list (A * B)) k v j : mget eqb j (mput eqb k v m) = if eqb k j then Some v else mget eqb j m.
Proof.
  induction m as [|[a b] m IH]; simpl; auto. destruct (eqb a k) eqn:E; simpl.
  - apply eqb_spec in E. subst a. destruct (eqb k j); auto.
  - rewrite IH. destruct (eqb a j) eqn:E2; auto. apply eqb_spec in E2. subst a. rewrite eqb_neq; auto. intros ->. rewrite eqb_refl' in E. discriminate.
Qed.
Lemma mput_same (m : list (A * B)) k v : mget eqb k m = Some v -> mput eqb k v m = m.
Proof.
  induction m as [|[a b] m IH]; simpl; [discriminate|]. destruct (eqb a k) eqn:E; [intros H; congruence|intros H; rewrite IH; auto].
Qed.
Lemma mget_put_new (m : list (A * B)) k v j : mget eqb j (mput_new eqb k v m) = or_else (mget eqb j m) (if eqb k j then Some v else None).
Proof.
  unfold mput_new. destruct (mget eqb k m) eqn:E.
  - destruct (eqb k j) eqn:E2; [apply eqb_spec in E2; subst; rewrite E; auto|destruct (mget eqb j m); auto].
  - rewrite mget_put. destruct (eqb k j) eqn:E2; [apply eqb_spec in E2; subst; rewrite E; auto|destruct (mget eqb j m); auto].
Qed.
Lemma mget_remove (m : list (A * B)) k j : mget eqb j (mremove eqb k m) = if eqb k j then None else mget eqb j m.
Proof.
  induction m as [|[a b] m IH]; simpl; [destruct (eqb k j); auto|]. destruct (eqb a k) eqn:E; simpl.
  - rewrite IH. apply eqb_spec in E. subst a. destruct (eqb k j); auto.
  - rewrite IH. destruct (eqb a j) eqn:E2; auto. apply eqb_spec in E2. subst a. rewrite eqb_neq; auto. intros ->. rewrite eqb_refl' in E. discriminate.
Qed.
Lemma mget_notin (m : list (A * B)) k : ~ In k (keys m) -> mget eqb k m = None.
Proof.
  induction m as [|[a b] m IH]; simpl; auto. intros H. rewrite eqb_neq by tauto. apply IH. tauto.
Qed.
Lemma mget_in (m : list (A * B)) k v : mget eqb k m = Some v -> In (k, v) m.
Proof.
  induction m as [|[a b] m IH]; simpl; [discriminate|]. destruct (eqb a k) eqn:E; [|auto]. apply eqb_spec in E. intros H. left. congruence.
Qed.
Lemma in_mget (m : list (A * B)) k v : NoDup (keys m) -> In (k, v) m -> mget eqb k m = Some v.
Proof.
  induction m as [|[a b] m IH]; simpl; [intros _ []|]. intros N [H|H].
  - injection H as -> ->. rewrite eqb_refl'. auto.
  - inversion N; subst. rewrite eqb_neq; [auto|]. intros ->. apply H2. apply (in_map fst) in H. exact H.
Qed.
(** later entries win *)
Lemma mget_put_all (upd : list (A * B)) : NoDup (keys upd) -> forall m j, mget eqb j (put_all eqb m upd) = or_else (mget eqb j upd) (mget eqb j m).
Proof.
  unfold put_all. induction upd as [|[a b] upd IH]; intros N m j; [reflexivity|]. inversion N; subst. cbn [fold_left fst snd]. rewrite IH by auto. cbn [mget].
  rewrite mget_put. destruct (eqb a j) eqn:E; [|destruct (mget eqb j upd); auto]. apply eqb_spec in E. subst j. rewrite mget_notin; auto.
Qed.
Lemma mget_fold_new (old : list (A * B)) : forall m j, mget eqb j (fold_left (fun m e => mput_new eqb (fst e) (snd e) m) old m) = or_else (mget eqb j m) (mget eqb j old).
Proof.
  induction old as [|[a b] old IH]; intros m j; cbn [fold_left fst snd]; [destruct (mget eqb j m); auto|]. rewrite IH, mget_put_new. cbn [mget].
  destruct (mget eqb j m); auto. destruct (eqb a j); auto.
Qed.
Lemma fold_new_id (old : list (A * B)) : forall m, (forall k v, In (k, v) old -> mget eqb k m <> None) -> fold_left (fun m e => mput_new eqb (fst e) (snd e) m) old m = m.
Proof.
  induction old as [|[a b] old IH]; intros m H; auto. cbn [fold_left fst snd]. assert (E : mput_new eqb a b m = m).
  { unfold mput_new. destruct (mget eqb a m) eqn:E; auto. destruct (H a b (or_introl eq_refl) E). }
  rewrite E. apply IH. intros k v Hk. apply (H k v). right; auto.
Qed.
Lemma keys_put (m : list (A * B)) k v : forall j, In j (keys (mput eqb k v m)) <-> In j (keys m) \/ j = k.
Proof.
  induction m as [|[a b] m IH]; intros j; simpl; [intuition|]. destruct (eqb a k) eqn:E; simpl.
  - apply eqb_spec in E. subst. intuition.
  - rewrite IH. tauto.
Qed.
Lemma nodup_put (m : list (A * B)) k v : NoDup (keys m) -> NoDup (keys (mput eqb k v m)).
Proof.
  induction m as [|[a b] m IH]; simpl; intros N; [constructor; [intros []|constructor]|]. inversion N; subst. destruct (eqb a k) eqn:E; simpl; constructor; auto.
  intros H. apply keys_put in H. destruct H as [H| ->]; auto. rewrite eqb_refl' in E. discriminate.
Qed.
End Map.
(** a map updated key by key *)
Section Fold.
Context {A B C : Type} (eqb : A -> A -> bool) (eqb_spec : forall a b, eqb a b = true <-> a = b) (f : option B -> C -> B).
Lemma mget_fold_update (l : list (A * C)) : NoDup (keys l) -> forall m j,
  mget eqb j (fold_left (fun m e => mput eqb (fst e) (f (mget eqb (fst e) m) (snd e)) m) l m) =
  match mget eqb j l with Some c => Some (f (mget eqb j m) c) | None => mget eqb j m end.
Proof.
  induction l as [|[a c] l IH]; intros N m j; [reflexivity|]. inversion N; subst. cbn [fold_left fst snd]. rewrite IH by auto. cbn [mget]. rewrite (mget_put eqb eqb_spec).
  destruct (eqb a j) eqn:E; auto. apply eqb_spec in E. subst j. rewrite (mget_notin eqb eqb_spec) by auto. auto.
Qed.
Lemma fold_update_id (l : list (A * C)) : forall m, (forall k c, In (k, c) l -> exists b, mget eqb k m = Some b /\ f (Some b) c = b) ->
  fold_left (fun m e => mput eqb (fst e) (f (mget eqb (fst e) m) (snd e)) m) l m = m.
Proof.
  induction l as [|[a c] l IH]; intros m H; auto. cbn [fold_left fst snd]. destruct (H a c (or_introl eq_refl)) as (b & E1 & E2).
  rewrite E1, E2, mput_same by auto. apply IH. intros k c' Hk. apply H. right; auto.
Qed.
End Fold.
Lemma path_eqb_eq p : forall q, path_eqb p q = true <-> p = q.
Proof.
  induction p as [|a p IH]; intros [|b q]; simpl; try (split; congruence). rewrite andb_true_iff, String.eqb_eq, IH. split; [intros []; congruence|intros H; injection H; auto].
Qed.
Lemma strs_eqb_eq p : forall q, strs_eqb p q = true <-> p = q.
Proof.
  induction p as [|a p IH]; intros [|b q]; simpl; try (split; congruence). rewrite andb_true_iff, String.eqb_eq, IH. split; [intros []; congruence|intros H; injection H; auto].
Qed.
Lemma desc_eqb_eq d e : desc_eqb d e = true <-> d = e.
Proof. destruct d, e; simpl; try (split; congruence); rewrite strs_eqb_eq; split; congruence. Qed.
Lemma opt_eqb_eq a b : opt_eqb a b = true <-> a = b.
Proof. destruct a, b; simpl; try (split; congruence). rewrite String.eqb_eq. split; congruence. Qed.
Lemma path_eqb_refl p : path_eqb p p = true. Proof. apply path_eqb_eq; auto. Qed.
Lemma seqb_eq a b : String.eqb a b = true <-> a = b. Proof. apply String.eqb_eq. Qed.
