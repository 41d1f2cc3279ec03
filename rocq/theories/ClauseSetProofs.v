From Coq Require Import List Arith NArith Bool Lia Permutation Sorted.
Import ListNotations.
From Verif Require Import Kbo KboProofs Literal ClauseProofs ClauseSet.

Lemma litid_eqb_eq a b : litid_eqb a b = true <-> a = b.
Proof. unfold litid_eqb. destruct litid_eq_dec; split; congruence. Qed.

(** ** Identifiers *)
Definition llt (a b : litid) : Prop := litid_cmp a b = Lt.

Lemma bool_cmp_eq a b : bool_cmp a b = Eq -> a = b.
Proof. destruct a, b; simpl; congruence. Qed.
Lemma litid_cmp_eq a b : litid_cmp a b = Eq -> a = b.
Proof.
  unfold litid_cmp, lexc. destruct a as [l r p], b as [l' r' p']; simpl.
  destruct (N.compare_spec l l'); try discriminate. destruct (N.compare_spec r r'); try discriminate.
  intros Hb. apply bool_cmp_eq in Hb. congruence.
Qed.
Lemma litid_cmp_refl a : litid_cmp a a = Eq.
Proof. unfold litid_cmp, lexc. rewrite !N.compare_refl. destruct (lpos a); auto. Qed.
Lemma litid_cmp_flip a b : litid_cmp a b = Gt -> llt b a.
Proof.
  unfold llt, litid_cmp, lexc. destruct a as [l r p], b as [l' r' p']; simpl.
  rewrite (N.compare_antisym l l'), (N.compare_antisym r r').
  destruct (l ?= l')%N; simpl; try congruence. destruct (r ?= r')%N; simpl; try congruence.
  destruct p, p'; simpl; congruence.
Qed.
Lemma llt_trans a b c : llt a b -> llt b c -> llt a c.
Proof.
  unfold llt, litid_cmp, lexc. destruct a as [l r p], b as [l' r' p'], c as [l'' r'' p'']; simpl.
  destruct (N.compare_spec l l'), (N.compare_spec l' l''); subst; try discriminate; intros H1 H2;
    try (rewrite (proj2 (N.compare_lt_iff _ _)) by lia; reflexivity).
  - rewrite N.compare_refl.
    destruct (N.compare_spec r r'), (N.compare_spec r' r''); subst; try discriminate;
      try (rewrite (proj2 (N.compare_lt_iff _ _)) by lia; reflexivity).
    rewrite N.compare_refl. destruct p, p', p''; simpl in *; congruence.
Qed.
Lemma llt_irrefl a : ~ llt a a.
Proof. unfold llt. rewrite litid_cmp_refl. discriminate. Qed.

Definition lle (a b : litid) : Prop := a = b \/ llt a b.
Lemma lle_trans a b c : lle a b -> lle b c -> lle a c.
Proof. intros [->|H1] [->|H2]; unfold lle; auto. right. eapply llt_trans; eauto. Qed.

Lemma insert_sorted x l : StronglySorted lle l -> StronglySorted lle (insert litid_cmp x l).
Proof.
  induction l as [|y l IH]; simpl; intros H; [repeat constructor|].
  apply StronglySorted_inv in H. destruct H as [Hl Hy].
  destruct (litid_cmp x y) eqn:E.
  - apply litid_cmp_eq in E. subst y. constructor; [constructor; auto|]. constructor; [left; auto|auto].
  - constructor; [constructor; auto|]. constructor; [right; auto|].
    rewrite Forall_forall in *. intros z Hz. eapply lle_trans; [right; exact E|auto].
  - constructor; auto. rewrite Forall_forall in *. intros z Hz.
    assert (Hz' : In z (x :: l)) by (eapply Permutation_in; [apply Permutation_sym, insert_perm|exact Hz]).
    destruct Hz' as [<-|Hz']; auto. right. apply litid_cmp_flip; auto.
Qed.
Lemma sort_sorted l : StronglySorted lle (sort litid_cmp l).
Proof. induction l; simpl; [constructor|apply insert_sorted; auto]. Qed.

Lemma dedup_from_sorted l : forall y, StronglySorted lle (y :: l) -> StronglySorted llt (y :: dedup_from litid_eqb y l).
Proof.
  induction l as [|z l IH]; intros y H; simpl; [repeat constructor|].
  apply StronglySorted_inv in H. destruct H as [Hl Hy]. pose proof (Forall_inv Hy) as Hz. apply Forall_inv_tail in Hy.
  destruct (litid_eqb z y) eqn:E.
  - apply IH. apply StronglySorted_inv in Hl. destruct Hl as [Hl _]. constructor; auto.
  - assert (L : llt y z).
    { destruct Hz as [->|]; auto. exfalso. rewrite (proj2 (litid_eqb_eq z z)) in E; congruence. }
    specialize (IH z Hl). constructor; auto. constructor; auto.
    apply StronglySorted_inv in IH. destruct IH as [_ IH]. rewrite Forall_forall in *. intros w Hw.
    eapply llt_trans; eauto.
Qed.
Lemma dedup_sorted l : StronglySorted lle l -> StronglySorted llt (dedup litid_eqb l).
Proof. destruct l as [|y l]; simpl; intros H; [constructor|apply dedup_from_sorted; auto]. Qed.
Lemma dedup_lits_in l x : In x (dedup litid_eqb l) <-> In x l.
Proof.
  destruct l as [|y l]; simpl; [tauto|].
  assert (H : forall l y, In x (y :: dedup_from litid_eqb y l) <-> In x (y :: l)).
  { clear. induction l as [|z l IH]; intros y; simpl; [tauto|].
    destruct (litid_eqb z y) eqn:E.
    - apply litid_eqb_eq in E. subst z. specialize (IH y). simpl in IH. tauto.
    - specialize (IH z). simpl in *. tauto. }
  apply (H l y).
Qed.

Lemma sorted_unique l : forall l', StronglySorted llt l -> StronglySorted llt l' ->
  (forall x, In x l <-> In x l') -> l = l'.
Proof.
  induction l as [|x l IH]; intros [|y l'] H1 H2 E; auto.
  - exfalso. apply (E y). left; auto.
  - exfalso. apply (E x). left; auto.
  - apply StronglySorted_inv in H1, H2. destruct H1 as [S1 F1], H2 as [S2 F2]. rewrite Forall_forall in F1, F2.
    assert (Exy : x = y).
    { destruct (proj1 (E x) (or_introl eq_refl)) as [|H]; auto.
      destruct (proj2 (E y) (or_introl eq_refl)) as [|H']; auto.
      exfalso. apply (llt_irrefl x). eapply llt_trans; eauto. }
    subst y. f_equal. apply IH; auto. intros z. split; intros Hz.
    + destruct (proj1 (E z) (or_intror Hz)) as [->|]; auto. exfalso. apply (llt_irrefl z); auto.
    + destruct (proj2 (E z) (or_intror Hz)) as [->|]; auto. exfalso. apply (llt_irrefl z); auto.
Qed.

Definition canon (l : list litid) : list litid := dedup litid_eqb (sort litid_cmp l).
Lemma canon_in l x : In x (canon l) <-> In x l.
Proof. unfold canon. rewrite dedup_lits_in. apply sort_in. Qed.
Lemma canon_set l l' : (forall x, In x l <-> In x l') -> canon l = canon l'.
Proof.
  intros H. apply sorted_unique; try (apply dedup_sorted, sort_sorted). intros x. rewrite !canon_in. auto.
Qed.

Section Sem.
Context {X : Type} (dec : forall x y : X, x = y \/ x <> y).

Lemma filter_spec (holds : litid -> Prop) l :
  (forall x, lleft x = lright x -> (lpos x = true -> holds x) /\ (lpos x = false -> ~ holds x)) ->
  match filter_reflexive l with
  | None => exists x, In x l /\ holds x
  | Some l' => (exists x, In x l /\ holds x) <-> (exists x, In x l' /\ holds x)
  end.
Proof.
  intros H. induction l as [|x l IH]; simpl; [split; intros (x & [] & _)|].
  destruct (N.eqb_spec (lleft x) (lright x)) as [E|E].
  - destruct (H x E) as [H1 H2]. destruct (lpos x); [exists x; split; auto|].
    destruct (filter_reflexive l) as [l'|].
    + rewrite <- IH. split; intros (y & Hy & Hh); [|exists y; split; auto]. destruct Hy as [<-|Hy]; [exfalso; apply H2; auto|eauto].
    + destruct IH as (y & Hy & Hh). eauto.
  - destruct (filter_reflexive l) as [l'|]; simpl.
    + split; intros (y & [<-|Hy] & Hh); eauto.
      * destruct (proj1 IH (ex_intro _ y (conj Hy Hh))) as (z & Hz & Hh'). eauto.
      * destruct (proj2 IH (ex_intro _ y (conj Hy Hh))) as (z & Hz & Hh'). eauto.
    + destruct IH as (y & Hy & Hh). eauto.
Qed.
End Sem.

Lemma filter_in l : forall l', filter_reflexive l = Some l' -> forall x, In x l' <-> In x l /\ lleft x <> lright x.
Proof.
  induction l as [|y l IH]; intros l' H x; simpl in H; [injection H as <-; simpl; tauto|].
  destruct (N.eqb_spec (lleft y) (lright y)) as [E|E].
  - destruct (lpos y); [discriminate|]. rewrite (IH _ H). simpl. split; [tauto|]. intros [[<-|H1] H2]; tauto.
  - destruct (filter_reflexive l) as [l1|] eqn:E1; [|discriminate]. injection H as <-. simpl. rewrite (IH l1 eq_refl).
    split; [intros [<-|[H1 H2]]; tauto|]. intros [[<-|H1] H2]; tauto.
Qed.

Lemma has_opposites_spec l : has_opposites l = true -> exists a b, In a l /\ In b l /\
  lleft a = lleft b /\ lright a = lright b /\ lpos a = negb (lpos b).
Proof.
  induction l as [|x l IH]; simpl; [discriminate|]. rewrite orb_true_iff, existsb_exists. intros [(y & Hy & H)|H].
  - unfold opposite in H. rewrite !andb_true_iff, !N.eqb_eq, negb_true_iff in H. destruct H as [[H1 H2] H3].
    exists x, y. repeat split; auto. destruct (lpos x), (lpos y); simpl in *; congruence.
  - destruct (IH H) as (a & b & Ha & Hb & R). exists a, b. auto.
Qed.

(** ** The index *)
Lemma set_mem_in c s : set_mem c s = true <-> In c s.
Proof. unfold set_mem. destruct (in_dec clauseid_eq_dec c s); split; auto; discriminate. Qed.
Lemma set_insert_in c d s : In d (set_insert c s) <-> d = c \/ In d s.
Proof.
  unfold set_insert. destruct (set_mem c s) eqn:E; simpl.
  - apply set_mem_in in E. split; auto. intros [->|]; auto.
  - split; intros [|]; auto.
Qed.
Lemma set_remove_in c d s : In d (set_remove c s) <-> d <> c /\ In d s.
Proof.
  unfold set_remove. rewrite filter_In. destruct (clauseid_eq_dec c d) as [->|N].
  - split; [intros [_ H]; discriminate|tauto].
  - split; [|tauto]. intros [H _]. split; auto.
Qed.

Section Index.
Context {K : Type} (keqb : K -> K -> bool) (keqb_eq : forall a b, keqb a b = true <-> a = b).
Notation get := (map_get keqb).

Lemma keqb_refl k : keqb k k = true. Proof. apply keqb_eq; auto. Qed.
Lemma get_remove {X} (m : list (K * X)) k k' : get (map_remove keqb m k) k' = if keqb k k' then None else get m k'.
Proof.
  induction m as [|[k0 x] m IH]; simpl; [destruct (keqb k k'); auto|].
  destruct (keqb k k0) eqn:E.
  - apply keqb_eq in E. subst k0. rewrite IH. destruct (keqb k k') eqn:E'; auto.
    destruct (keqb k' k) eqn:E2; auto. apply keqb_eq in E2. subst. rewrite keqb_refl in E'. discriminate.
  - simpl. rewrite IH. destruct (keqb k' k0) eqn:E1; auto. apply keqb_eq in E1. subst. rewrite E. auto.
Qed.
Lemma get_set {X} (m : list (K * X)) k x k' : get (map_set keqb m k x) k' = if keqb k k' then Some x else get m k'.
Proof.
  unfold map_set. simpl. rewrite get_remove. destruct (keqb k' k) eqn:E.
  - apply keqb_eq in E. subst. rewrite keqb_refl. auto.
  - destruct (keqb k k') eqn:E'; auto. apply keqb_eq in E'. subst. rewrite keqb_refl in E. discriminate.
Qed.

Definition entry (m : list (K * set)) (k : K) : set := match get m k with Some s => s | None => [] end.
(** no key occurs twice, no set is empty *)
Definition wfm (m : list (K * set)) : Prop := NoDup (map fst m) /\ forall k s, In (k, s) m -> s <> [].

Lemma map_remove_keys (m : list (K * set)) k x : In x (map_remove keqb m k) <-> In x m /\ fst x <> k.
Proof.
  induction m as [|[k0 s] m IH]; simpl; [tauto|]. destruct (keqb k k0) eqn:E.
  - apply keqb_eq in E. subst. rewrite IH. split; [tauto|]. intros [[<-|H] N]; [simpl in N; tauto|tauto].
  - simpl. rewrite IH. split.
    + intros [<-|[H N]]; auto. split; auto. simpl. intros ->. rewrite keqb_refl in E. discriminate.
    + tauto.
Qed.
Lemma wfm_remove m k : wfm m -> wfm (map_remove keqb m k).
Proof.
  intros [N E]. split.
  - clear E. induction m as [|[k0 s] m IH]; simpl; [constructor|]. inversion N as [|? ? N1 N2]; subst.
    destruct (keqb k k0); auto. simpl. constructor; auto. intros H. apply N1. apply in_map_iff in H.
    destruct H as (x & <- & Hx). apply map_remove_keys in Hx. apply in_map. tauto.
  - intros k' s H. apply map_remove_keys in H. apply (E k'). tauto.
Qed.
Lemma wfm_set m k s : s <> [] -> wfm m -> wfm (map_set keqb m k s).
Proof.
  intros Hs W. pose proof (wfm_remove m k W) as [N E]. split.
  - simpl. constructor; auto. intros H. apply in_map_iff in H. destruct H as (x & Hk & Hx). apply map_remove_keys in Hx. tauto.
  - intros k' s' [H|H]; [injection H as <- <-; auto|]. eapply E; eauto.
Qed.
Lemma get_in {X} (m : list (K * X)) k s : NoDup (map fst m) -> In (k, s) m -> get m k = Some s.
Proof.
  induction m as [|[k0 s0] m IH]; simpl; [tauto|]. intros N [H|H]; inversion N as [|? ? N1 N2]; subst.
  - injection H as -> ->. rewrite keqb_refl. auto.
  - destruct (keqb k k0) eqn:E; auto. apply keqb_eq in E. subst. exfalso. apply N1. apply in_map_iff. exists (k0, s). auto.
Qed.
Lemma in_get {X} (m : list (K * X)) k s : get m k = Some s -> In (k, s) m.
Proof.
  induction m as [|[k0 s0] m IH]; simpl; [discriminate|]. destruct (keqb k k0) eqn:E; auto.
  apply keqb_eq in E. subst. intros H; injection H as ->. auto.
Qed.

Lemma index_add_entry m k c k' d : In d (entry (index_add keqb m k c) k') <-> (k = k' /\ d = c) \/ In d (entry m k').
Proof.
  unfold entry, index_add. rewrite get_set. destruct (keqb k k') eqn:E.
  - apply keqb_eq in E. subst k'. rewrite set_insert_in. tauto.
  - split; auto. intros [[-> _]|H]; auto. rewrite keqb_refl in E. discriminate.
Qed.
Lemma index_add_wf m k c : wfm m -> wfm (index_add keqb m k c).
Proof.
  intros W. apply wfm_set; auto. intros E.
  assert (H : In c (set_insert c (match get m k with Some s => s | None => [] end))) by (apply set_insert_in; auto).
  rewrite E in H. contradiction.
Qed.
Lemma index_del_entry m k c k' d : In d (entry (index_del keqb m k c) k') <-> In d (entry m k') /\ ~ (k = k' /\ d = c).
Proof.
  unfold index_del. destruct (get m k) as [s|] eqn:G.
  - assert (E : In d (entry (match set_remove c s with [] => map_remove keqb m k | s' => map_set keqb m k s' end) k') <->
       if keqb k k' then In d (set_remove c s) else In d (entry m k')).
    { unfold entry. destruct (set_remove c s) eqn:Es; [rewrite get_remove|rewrite get_set]; destruct (keqb k k'); tauto. }
    rewrite E. clear E. destruct (keqb k k') eqn:E.
    + apply keqb_eq in E. subst k'. rewrite set_remove_in. unfold entry. rewrite G. tauto.
    + split; [|tauto]. intros H. split; auto. intros [-> _]. rewrite keqb_refl in E. discriminate.
  - split; [|tauto]. intros H. split; auto. intros [-> _]. unfold entry in H. rewrite G in H. contradiction.
Qed.
Lemma index_del_wf m k c : wfm m -> wfm (index_del keqb m k c).
Proof.
  intros W. unfold index_del. destruct (get m k) as [s|]; auto.
  destruct (set_remove c s) as [|d s'] eqn:E; [apply wfm_remove; auto|]. apply wfm_set; auto. discriminate.
Qed.
End Index.

Lemma Neqb_eq a b : N.eqb a b = true <-> a = b. Proof. apply N.eqb_eq. Qed.

Definition has_group (g : N) (c : clauseid) : Prop := exists l, In l c /\ (lleft l = g \/ lright l = g).

Lemma fold_group_add c0 c : forall m, (wfm m -> wfm (fold_left (fun m l => index_add N.eqb (index_add N.eqb m (lleft l) c0) (lright l) c0) c m)) /\
  forall g d, In d (entry N.eqb (fold_left (fun m l => index_add N.eqb (index_add N.eqb m (lleft l) c0) (lright l) c0) c m) g) <->
    (d = c0 /\ has_group g c) \/ In d (entry N.eqb m g).
Proof.
  induction c as [|l c IH]; intros m; simpl.
  - split; auto. intros g d. unfold has_group. split; auto. intros [(_ & x & [] & _)|]; auto.
  - destruct (IH (index_add N.eqb (index_add N.eqb m (lleft l) c0) (lright l) c0)) as [W E]. split.
    + intros H. apply W. apply index_add_wf, index_add_wf; auto; apply Neqb_eq.
    + intros g d. rewrite E, !(index_add_entry N.eqb Neqb_eq). unfold has_group. simpl. split.
      * intros [(-> & x & Hx & H)|[[<- ->]|[[<- ->]|H]]]; auto; left; split; auto; eauto.
      * intros [(-> & x & [<-|Hx] & [<-|<-])|H]; auto; left; split; auto; eauto.
Qed.
Lemma fold_group_del c0 c : forall m, (wfm m -> wfm (fold_left (fun m l => index_del N.eqb (index_del N.eqb m (lleft l) c0) (lright l) c0) c m)) /\
  forall g d, In d (entry N.eqb (fold_left (fun m l => index_del N.eqb (index_del N.eqb m (lleft l) c0) (lright l) c0) c m) g) <->
    In d (entry N.eqb m g) /\ ~ (d = c0 /\ has_group g c).
Proof.
  induction c as [|l c IH]; intros m; simpl.
  - split; auto. intros g d. unfold has_group. split; [|tauto]. intros H. split; auto. intros (_ & x & [] & _).
  - destruct (IH (index_del N.eqb (index_del N.eqb m (lleft l) c0) (lright l) c0)) as [W E]. split.
    + intros H. apply W. apply index_del_wf, index_del_wf; auto; apply Neqb_eq.
    + intros g d. rewrite E, !(index_del_entry N.eqb Neqb_eq). unfold has_group. simpl. split.
      * intros (((H & H1) & H2) & H3). split; auto. intros (-> & x & [<-|Hx] & [<-|<-]); auto; apply H3; split; eauto.
      * intros (H & H1). repeat split; auto.
        -- intros [<- ->]. apply H1. split; eauto.
        -- intros [<- ->]. apply H1. split; eauto.
        -- intros (-> & x & Hx & H2). apply H1. split; eauto.
Qed.
Lemma fold_lit_add c0 c : forall m, (wfm m -> wfm (fold_left (fun m l => index_add litid_eqb m l c0) c m)) /\
  forall g d, In d (entry litid_eqb (fold_left (fun m l => index_add litid_eqb m l c0) c m) g) <->
    (d = c0 /\ In g c) \/ In d (entry litid_eqb m g).
Proof.
  induction c as [|l c IH]; intros m; simpl.
  - split; auto. tauto.
  - destruct (IH (index_add litid_eqb m l c0)) as [W E]. split.
    + intros H. apply W. apply index_add_wf; auto; apply litid_eqb_eq.
    + intros g d. rewrite E, (index_add_entry litid_eqb litid_eqb_eq). intuition; subst; auto.
Qed.
Lemma fold_lit_del c0 c : forall m, (wfm m -> wfm (fold_left (fun m l => index_del litid_eqb m l c0) c m)) /\
  forall g d, In d (entry litid_eqb (fold_left (fun m l => index_del litid_eqb m l c0) c m) g) <->
    In d (entry litid_eqb m g) /\ ~ (d = c0 /\ In g c).
Proof.
  induction c as [|l c IH]; intros m; simpl.
  - split; auto. tauto.
  - destruct (IH (index_del litid_eqb m l c0)) as [W E]. split.
    + intros H. apply W. apply index_del_wf; auto; apply litid_eqb_eq.
    + intros g d. rewrite E, (index_del_entry litid_eqb litid_eqb_eq). intuition; subst; auto.
Qed.

(** The indexes list exactly the stored clauses. *)
Record consistent (s : clauseset) : Prop := {
  co_nodup : NoDup (cs_clauses s);
  co_gwf : wfm (cs_group s);
  co_lwf : wfm (cs_literal s);
  co_group : forall g c, In c (group_entry s g) <-> In c (cs_clauses s) /\ has_group g c;
  co_lit : forall l c, In c (literal_entry s l) <-> In c (cs_clauses s) /\ In l c
}.

Lemma consistent_new : consistent cs_new.
Proof.
  constructor; simpl; try (split; [constructor|intros ? ? []]); try constructor; try tauto; intros; unfold group_entry, literal_entry; simpl; tauto.
Qed.

Lemma consistent_insert s c : consistent s -> consistent (cs_insert s c) /\
  forall d, In d (cs_clauses (cs_insert s c)) <-> d = c \/ In d (cs_clauses s).
Proof.
  intros [C1 C2 C3 C4 C5]. unfold cs_insert. destruct (set_mem c (cs_clauses s)) eqn:E.
  - apply set_mem_in in E. split; [constructor; auto|]. intros d. split; auto. intros [->|]; auto.
  - assert (Nc : ~ In c (cs_clauses s)) by (intros H; apply set_mem_in in H; congruence).
    split; [|simpl; intros d; split; intros [|]; auto]. constructor; simpl.
    + constructor; auto.
    + apply (proj1 (fold_group_add c c (cs_group s))); auto.
    + apply (proj1 (fold_lit_add c c (cs_literal s))); auto.
    + intros g d. change (In d (entry N.eqb (fold_left (fun m l => index_add N.eqb (index_add N.eqb m (lleft l) c) (lright l) c) c (cs_group s)) g) <-> (c = d \/ In d (cs_clauses s)) /\ has_group g d).
      rewrite (proj2 (fold_group_add c c (cs_group s))). change (entry N.eqb (cs_group s) g) with (group_entry s g). rewrite C4.
      intuition; subst; auto.
    + intros l d. change (In d (entry litid_eqb (fold_left (fun m l => index_add litid_eqb m l c) c (cs_literal s)) l) <-> (c = d \/ In d (cs_clauses s)) /\ In l d).
      rewrite (proj2 (fold_lit_add c c (cs_literal s))). change (entry litid_eqb (cs_literal s) l) with (literal_entry s l). rewrite C5.
      intuition; subst; auto.
Qed.

Lemma consistent_remove s c : consistent s -> consistent (fst (cs_remove s c)) /\
  (forall d, In d (cs_clauses (fst (cs_remove s c))) <-> d <> c /\ In d (cs_clauses s)) /\
  (snd (cs_remove s c) = true <-> In c (cs_clauses s)).
Proof.
  intros [C1 C2 C3 C4 C5]. unfold cs_remove. destruct (set_mem c (cs_clauses s)) eqn:E; cbn [fst snd].
  - apply set_mem_in in E. split; [|split; [intros d; apply set_remove_in|tauto]]. constructor; simpl.
    + apply NoDup_filter; auto.
    + apply (proj1 (fold_group_del c c (cs_group s))); auto.
    + apply (proj1 (fold_lit_del c c (cs_literal s))); auto.
    + intros g d. change (In d (entry N.eqb (fold_left (fun m l => index_del N.eqb (index_del N.eqb m (lleft l) c) (lright l) c) c (cs_group s)) g) <-> In d (set_remove c (cs_clauses s)) /\ has_group g d).
      rewrite (proj2 (fold_group_del c c (cs_group s))), set_remove_in. change (entry N.eqb (cs_group s) g) with (group_entry s g). rewrite C4.
      split.
      * intros [[H1 H2] H3]. repeat split; auto. intros ->. tauto.
      * intros [[H1 H2] H3]. repeat split; auto. tauto.
    + intros l d. change (In d (entry litid_eqb (fold_left (fun m l => index_del litid_eqb m l c) c (cs_literal s)) l) <-> In d (set_remove c (cs_clauses s)) /\ In l d).
      rewrite (proj2 (fold_lit_del c c (cs_literal s))), set_remove_in. change (entry litid_eqb (cs_literal s) l) with (literal_entry s l). rewrite C5.
      split.
      * intros [[H1 H2] H3]. repeat split; auto. intros ->. tauto.
      * intros [[H1 H2] H3]. repeat split; auto. tauto.
  - assert (Nc : ~ In c (cs_clauses s)) by (intros H; apply set_mem_in in H; congruence).
    split; [constructor; auto|]. split.
    + intros d. split; [|tauto]. intros H. split; auto. intros ->; tauto.
    + split; [discriminate|tauto].
Qed.

Lemma consistent_remove_all order : forall s, consistent s -> consistent (cs_remove_all s order) /\
  forall d, In d (cs_clauses (cs_remove_all s order)) <-> ~ In d order /\ In d (cs_clauses s).
Proof.
  induction order as [|c order IH]; intros s C; simpl; [split; auto; tauto|].
  destruct (consistent_remove s c C) as (C' & E & _). destruct (IH _ C') as [C'' E'].
  split; auto. intros d. fold (cs_remove_all (fst (cs_remove s c)) order). rewrite E', E. intuition.
Qed.

Lemma consistent_validate s : consistent s -> cs_validate s = true.
Proof.
  intros [C1 C2 C3 C4 C5]. unfold cs_validate. rewrite !andb_true_iff. split; [split|].
  - apply forallb_forall. intros c Hc. apply forallb_forall. intros l Hl. rewrite !andb_true_iff, !set_mem_in, !C4, C5.
    repeat split; auto; exists l; auto.
  - apply forallb_forall. intros [g s0] He. simpl. apply forallb_forall. intros c Hc. rewrite andb_true_iff.
    assert (H : In c (group_entry s g)). { unfold group_entry. rewrite (get_in N.eqb Neqb_eq _ g s0); auto. apply C2. }
    apply C4 in H. destruct H as [H1 (l & Hl & H2)]. split; [apply set_mem_in; auto|]. apply existsb_exists. exists l. split; auto.
    rewrite orb_true_iff, !N.eqb_eq. auto.
  - apply forallb_forall. intros [g s0] He. simpl. apply forallb_forall. intros c Hc. rewrite andb_true_iff.
    assert (H : In c (literal_entry s g)). { unfold literal_entry. rewrite (get_in litid_eqb litid_eqb_eq _ g s0); auto. apply C3. }
    apply C5 in H. destruct H as [H1 H2]. split; [apply set_mem_in; auto|]. apply existsb_exists. exists g. split; auto. apply litid_eqb_eq; auto.
Qed.
