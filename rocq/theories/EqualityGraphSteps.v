(** Each pending operation of the equality graph keeps the invariant and decreases the measure; [process_pending] returns. *)
From Coq Require Import List Arith NArith Bool Lia Permutation Wf_nat.
Import ListNotations.
From Verif Require Import Term Literal Clause SemFacts ClauseSet ClauseSetProofs P_ClauseSet EqualityGraph EqualityGraphProofs EqualityGraphClosure EqualityGraphRemap.

Definition apart (s : egraph) (i j : nat) : Prop :=
  exists ti tj, nth_error (eg_terms s) i = Some ti /\ nth_error (eg_terms s) j = Some tj /\ rel (eg_groups s) (ti_group ti) (ti_group tj).
Lemma evolves_same s s' i j : evolves s s' -> same_group s i j -> same_group s' i j.
Proof.
  intros [_ _ _ _ _ (f & F1 & _)] (ti & tj & Hi & Hj & E). destruct (F1 _ _ Hi) as (ti' & Hi' & Ei), (F1 _ _ Hj) as (tj' & Hj' & Ej).
  exists ti', tj'. repeat split; auto. congruence.
Qed.
Lemma evolves_apart s s' i j : evolves s s' -> apart s i j -> eg_contra s' = true \/ apart s' i j.
Proof.
  intros [_ _ _ _ _ (f & F1 & _ & F3)] (ti & tj & Hi & Hj & E). destruct (F1 _ _ Hi) as (ti' & Hi' & Ei), (F1 _ _ Hj) as (tj' & Hj' & Ej).
  destruct (F3 _ _ E) as [C|R]; auto. right. exists ti', tj'. repeat split; auto. congruence.
Qed.
Lemma same_apart s i j : jwf s -> same_group s i j -> apart s i j -> False.
Proof.
  intros J (ti & tj & Hi & Hj & E) (ui & uj & Hi' & Hj' & R). rewrite Hi in Hi'. rewrite Hj in Hj'. injection Hi' as <-. injection Hj' as <-.
  rewrite E in R. apply (i_irr _ (j_i _ J) _ R).
Qed.

Lemma moved_evolves s s' : clauses_moved s s' -> evolves s s'.
Proof.
  intros [M1 M2 M3 M4 M5 M6 M7 (l & M8)]. apply evolves_frame; auto.
  - rewrite M2. apply same_live_refl.
  - rewrite M8. apply incl_appr, incl_refl.
Qed.
Lemma moved_jwf s s' : clauses_moved s s' -> cwf (length (eg_groups s)) s' -> jwf s -> jwf s'.
Proof.
  intros [M1 M2 M3 M4 M5 M6 M7 (l & M8)] C J. apply (jwf_frame s); auto.
  - rewrite M2. apply same_live_refl.
  - rewrite M2. apply (j_r _ J).
Qed.
Lemma clauseid_length c c' : clauseid_new c = NClause c' -> length c' <= length c.
Proof.
  intros H. destruct (clause_id_exact c) as (_ & _ & X). destruct (X _ H) as (ND & I & _). apply NoDup_incl_length; auto.
  intros l Hl. apply I. auto.
Qed.
Lemma without_in c : forall i l, In l (without c i) -> In l c.
Proof. induction c as [|x c IH]; intros [|i] l H; simpl in *; auto. destruct H; eauto. Qed.
Lemma without_length c : forall i, i < length c -> S (length (without c i)) = length c.
Proof. induction c as [|x c IH]; intros [|i] H; simpl in *; auto; try lia. rewrite IH; lia. Qed.
Lemma nodup_bounded l n : NoDup l -> (forall x, In x l -> x < n) -> length l <= n.
Proof. intros N B. rewrite <- (seq_length n 0). apply NoDup_incl_length; auto. intros x H. apply in_seq. specialize (B _ H). lia. Qed.
Lemma jwf_len s : jwf s -> length (eg_groups s) = length (eg_terms s). Proof. intros J. apply (g_len _ _ (j_g _ J)). Qed.
Lemma jwf_term s i : jwf s -> i < length (eg_groups s) -> exists ti gi, nth_error (eg_terms s) i = Some ti /\ nth_error (eg_groups s) (ti_group ti) = Some (Info gi) /\ In i (gi_terms gi).
Proof.
  intros J H. rewrite (jwf_len _ J) in H. destruct (nth_error (eg_terms s) i) as [ti|] eqn:E; [|apply nth_error_None in E; lia].
  destruct (g_grp _ _ (j_g _ J) _ _ E) as (gi & L & I). eauto.
Qed.

(** a step with [w] more weight at its start *)
Record stepped (s s' : egraph) (w : nat) : Prop := {
  st_j : jwf s'; st_e : evolves s s';
  st_b : below (livec (eg_groups s)) (unrelated (eg_groups s)) (w + weight (eg_pending s)) s'
}.
Lemma stepped_refl s w : 0 < w -> jwf s -> stepped s s w.
Proof. intros H J. constructor; auto using evolves_refl. right. split; auto. right. split; auto. lia. Qed.
(** a step that changes no live group *)
Lemma stepped_calm s s' w p : jwf s -> eg_terms s' = eg_terms s -> eg_amap s' = eg_amap s -> eg_apps s' = eg_apps s -> eg_decomps s' = eg_decomps s ->
  eg_opaque s' = eg_opaque s -> calm (eg_groups s) (eg_groups s') -> rwf (eg_groups s') -> cwf (length (eg_groups s)) s' ->
  eg_pending s' = p ++ eg_pending s -> (eg_contra s = true -> eg_contra s' = true) -> weight p < w -> stepped s s' w.
Proof.
  intros J H1 H2 H3 H4 H5 (L & R & U) H6 H7 H8 H9 H10. constructor.
  - apply (jwf_frame s); auto.
  - apply evolves_frame; auto. rewrite H8. apply incl_appr, incl_refl.
  - right. split; [unfold livec; rewrite R, (proj1 L); auto|]. right. split; auto. rewrite H8, weight_app. lia.
Qed.

Section Steps.
Context (ordk : nat -> list nat -> list nat) (ordc : nat -> list clauseid -> list clauseid).
Context (ordk_perm : forall n l, Permutation (ordk n l) l) (ordc_perm : forall n l, Permutation (ordc n l) l).

Lemma set_terms_equal_once_wp s a b : jwf s -> a < length (eg_groups s) -> b < length (eg_groups s) ->
  wp (set_terms_equal_once ordk ordc s a b) (fun s' => stepped s s' 1 /\ same_group s' a b).
Proof.
  intros J Ha Hb. destruct (jwf_term s a J Ha) as (ta & ga & A1 & A2 & A3), (jwf_term s b J Hb) as (tb & gb & B1 & B2 & B3).
  unfold set_terms_equal_once, get_group_id. rewrite A1, B1. cbn [rbind unwrap].
  destruct (Nat.eqb_spec (ti_group ta) (ti_group tb)) as [E|N].
  - split; [apply stepped_refl; auto|]. exists ta, tb. auto.
  - unfold get_group_info. rewrite A2, B2. cbn [rbind]. cbv zeta.
    assert (X : forall old new oi ni, old <> new -> nth_error (eg_groups s) old = Some (Info oi) -> nth_error (eg_groups s) new = Some (Info ni) ->
      rmap old new (ti_group ta) = rmap old new (ti_group tb) ->
      wp (remap_group ordk ordc s old new) (fun s' => stepped s s' 1 /\ same_group s' a b)).
    { intros old new oi ni Hon Ho Hn E. eapply wp_mono; [|exact (remap_group_wp ordk ordc ordk_perm ordc_perm s old new oi ni J Hon Ho Hn)].
      intros s' (J' & E' & T & L). split.
      - constructor; auto. left. lia.
      - destruct (T _ _ A1) as (ta' & Ha' & Ea), (T _ _ B1) as (tb' & Hb' & Eb). exists ta', tb'. repeat split; auto. congruence. }
    destruct (_ || _); eapply X; eauto; unfold rmap; rewrite Nat.eqb_refl;
      [destruct (Nat.eqb_spec (ti_group tb) (ti_group ta))|destruct (Nat.eqb_spec (ti_group ta) (ti_group tb))]; congruence.
Qed.

Lemma rel_range s g h : jwf s -> rel (eg_groups s) g h -> h < length (eg_groups s).
Proof. intros J R. apply (i_sym _ (j_i _ J)) in R. destruct R as (i & H & _). eapply nth_lt; eauto. Qed.

(** the groups after a new inequality *)
Lemma relate_groups gs g1 g2 i1 i2 : g1 <> g2 -> nth_error gs g1 = Some (Info i1) -> nth_error gs g2 = Some (Info i2) ->
  let gs' := upd (upd gs g1 (Info (GI (gi_terms i1) (gi_apps i1) (g2 :: gi_ineq i1)))) g2 (Info (GI (gi_terms i2) (gi_apps i2) (g1 :: gi_ineq i2))) in
  (forall g i, nth_error gs g = Some (Info i) -> exists i', nth_error gs' g = Some (Info i') /\ gi_terms i' = gi_terms i /\ gi_apps i' = gi_apps i /\
     gi_ineq i' = (if Nat.eqb g g1 then [g2] else if Nat.eqb g g2 then [g1] else []) ++ gi_ineq i) /\
  (forall g i', nth_error gs' g = Some (Info i') -> exists i, nth_error gs g = Some (Info i) /\ gi_terms i' = gi_terms i /\ gi_apps i' = gi_apps i /\
     gi_ineq i' = (if Nat.eqb g g1 then [g2] else if Nat.eqb g g2 then [g1] else []) ++ gi_ineq i) /\
  (forall g h, nth_error gs' g = Some (Remapped h) <-> nth_error gs g = Some (Remapped h)) /\
  (forall g h, rel gs' g h <-> rel gs g h \/ (g = g1 /\ h = g2) \/ (g = g2 /\ h = g1)).
Proof.
  intros N H1 H2 gs'.
  assert (P : forall g, nth_error gs' g = if Nat.eqb g g1 then Some (Info (GI (gi_terms i1) (gi_apps i1) (g2 :: gi_ineq i1))) else
     if Nat.eqb g g2 then Some (Info (GI (gi_terms i2) (gi_apps i2) (g1 :: gi_ineq i2))) else nth_error gs g).
  { intros g. unfold gs'. rewrite !nth_upd, (Nat.eqb_sym g1 g), (Nat.eqb_sym g2 g). destruct (Nat.eqb_spec g g1) as [->|N1].
    - destruct (Nat.eqb_spec g1 g2); [congruence|]. rewrite H1. auto.
    - destruct (Nat.eqb_spec g g2) as [->|]; auto. rewrite H2. auto. }
  clearbody gs'.
  assert (Q1 : forall g i, nth_error gs g = Some (Info i) -> exists i', nth_error gs' g = Some (Info i') /\ gi_terms i' = gi_terms i /\ gi_apps i' = gi_apps i /\
     gi_ineq i' = (if Nat.eqb g g1 then [g2] else if Nat.eqb g g2 then [g1] else []) ++ gi_ineq i).
  { intros g i H. rewrite P. destruct (Nat.eqb_spec g g1) as [->|N1].
    - rewrite H1 in H. injection H as <-. eexists. split; [reflexivity|]. auto.
    - destruct (Nat.eqb_spec g g2) as [->|]; [|eauto]. rewrite H2 in H. injection H as <-. eexists. split; [reflexivity|]. auto. }
  assert (Q2 : forall g i', nth_error gs' g = Some (Info i') -> exists i, nth_error gs g = Some (Info i)).
  { intros g i' H. rewrite P in H. destruct (Nat.eqb_spec g g1) as [->|]; eauto. destruct (Nat.eqb_spec g g2) as [->|]; eauto. }
  assert (Q3 : forall g i', nth_error gs' g = Some (Info i') -> exists i, nth_error gs g = Some (Info i) /\ gi_terms i' = gi_terms i /\ gi_apps i' = gi_apps i /\
     gi_ineq i' = (if Nat.eqb g g1 then [g2] else if Nat.eqb g g2 then [g1] else []) ++ gi_ineq i).
  { intros g i' H. destruct (Q2 _ _ H) as (i & Hi). exists i. split; auto. destruct (Q1 _ _ Hi) as (j & Hj & X). rewrite H in Hj. injection Hj as <-. auto. }
  split; auto. split; auto. split.
  - intros g h. rewrite P. destruct (Nat.eqb_spec g g1) as [->|]; [rewrite H1; split; discriminate|].
    destruct (Nat.eqb_spec g g2) as [->|]; [rewrite H2; split; discriminate|tauto].
  - intros g h. split.
    + intros (i' & H & I). destruct (Q3 _ _ H) as (i & Hi & _ & _ & X). rewrite X in I. apply in_app_iff in I. destruct I as [I|I]; [|left; exists i; auto].
      destruct (Nat.eqb_spec g g1) as [->|]; [destruct I as [<-|[]]; auto|]. destruct (Nat.eqb_spec g g2) as [->|]; [destruct I as [<-|[]]; auto|destruct I].
    + intros [(i & Hi & I)|[[-> ->]|[-> ->]]].
      * destruct (Q1 _ _ Hi) as (i' & H' & _ & _ & X). exists i'. split; auto. rewrite X. apply in_app_iff. auto.
      * destruct (Q1 _ _ H1) as (i' & H' & _ & _ & X). exists i'. split; auto. rewrite X, Nat.eqb_refl. simpl; auto.
      * destruct (Q1 _ _ H2) as (i' & H' & _ & _ & X). exists i'. split; auto. rewrite X, Nat.eqb_refl.
        destruct (Nat.eqb g2 g1) eqn:E; [apply Nat.eqb_eq in E; congruence|]. simpl; auto.
Qed.

Lemma set_terms_not_equal_once_wp s a b : jwf s -> a < length (eg_groups s) -> b < length (eg_groups s) ->
  wp (set_terms_not_equal_once ordc s a b) (fun s' => stepped s s' 1 /\ (eg_contra s' = true \/ apart s' a b)).
Proof.
  intros J Ha Hb. destruct (jwf_term s a J Ha) as (ta & i1 & A1 & A2 & A3), (jwf_term s b J Hb) as (tb & i2 & B1 & B2 & B3).
  unfold set_terms_not_equal_once, get_group_id. rewrite A1, B1. cbn [rbind unwrap].
  set (g1 := ti_group ta) in *. set (g2 := ti_group tb) in *.
  destruct (Nat.eqb_spec g1 g2) as [E|N].
  { simpl. split; auto. apply (stepped_calm s (set_contra s) 1 []); auto using calm_refl; [apply (j_r _ J)|].
    destruct (j_c _ J). constructor; auto. }
  unfold get_group_info. rewrite A2. cbn [rbind]. destruct (memb g2 (gi_ineq i1)) eqn:M.
  { rewrite B2. cbn [rbind wp]. split; [apply stepped_refl; auto|]. right. exists ta, tb. split; auto. split; auto. exists i1. split; auto. apply memb_in; auto. }
  cbv zeta. cbn [set_groups eg_groups]. rewrite nth_upd. destruct (Nat.eqb_spec g1 g2) as [|_]; [congruence|]. rewrite B2. cbn [rbind].
  assert (Nr : ~ rel (eg_groups s) g1 g2). { intros (i & H & I). rewrite A2 in H. injection H as <-. apply memb_in in I. congruence. }
  assert (Nr' : ~ rel (eg_groups s) g2 g1) by (intros R; apply Nr, (i_sym _ (j_i _ J)); auto).
  destruct (memb g1 (gi_ineq i2)) eqn:M2. { exfalso. apply Nr'. exists i2. split; auto. apply memb_in; auto. }
  cbn [wp]. set (gs1 := upd (eg_groups s) g1 _). set (gs' := upd gs1 g2 _). set (s1 := set_groups _ gs').
  destruct (relate_groups (eg_groups s) g1 g2 i1 i2 N A2 B2) as (Q1 & Q2 & Q3 & Q4). fold gs1 in Q1, Q2, Q3, Q4. fold gs' in Q1, Q2, Q3, Q4.
  assert (L : length gs' = length (eg_groups s)) by (unfold gs', gs1; rewrite !upd_length; auto).
  assert (H2 : nth_error gs1 g2 = Some (Info i2)) by (unfold gs1; rewrite nth_upd; destruct (Nat.eqb_spec g1 g2); [congruence|auto]).
  assert (Rm : remapped gs' = remapped (eg_groups s)).
  { pose proof (remapped_upd _ g1 _ (Info (GI (gi_terms i1) (gi_apps i1) (g2 :: gi_ineq i1))) A2) as X1.
    pose proof (remapped_upd _ g2 _ (Info (GI (gi_terms i2) (gi_apps i2) (g1 :: gi_ineq i2))) H2) as X2. simpl in X1, X2. fold gs1 in X1. fold gs' in X2. lia. }
  assert (I' : iwf gs').
  { destruct (j_i _ J) as [I1 I2 I3]. constructor.
    - intros g i' H. destruct (Q2 _ _ H) as (i & Hi & _ & _ & ->). pose proof (I1 _ _ Hi) as ND.
      destruct (Nat.eqb_spec g g1) as [->|]; simpl; [constructor; auto; intros I; apply Nr; exists i; auto|].
      destruct (Nat.eqb_spec g g2) as [->|]; simpl; auto. constructor; auto. intros I; apply Nr'; exists i; auto.
    - intros g R. apply Q4 in R. destruct R as [R|[[-> R]|[-> R]]]; try congruence. apply (I2 _ R).
    - intros g h R. apply Q4 in R. apply Q4. destruct R as [R|[[-> ->]|[-> ->]]]; auto. }
  assert (U : unrelated gs' < unrelated (eg_groups s)).
  { pose proof (unrelated_upd _ g1 _ (GI (gi_terms i1) (gi_apps i1) (g2 :: gi_ineq i1)) A2) as X1.
    pose proof (unrelated_upd _ g2 _ (GI (gi_terms i2) (gi_apps i2) (g1 :: gi_ineq i2)) H2) as X2. simpl gi_ineq in X1, X2. fold gs1 in X1. fold gs' in X2.
    assert (L1 : length gs1 = length (eg_groups s)) by (unfold gs1; rewrite upd_length; auto). rewrite L1 in X2.
    assert (B : length (g2 :: gi_ineq i1) <= length (eg_groups s)).
    { apply nodup_bounded; [constructor; [intros I; apply Nr; exists i1; auto|eapply (i_nodup _ (j_i _ J)); eauto]|].
      intros x [<-|Hx]; [eapply nth_lt; eauto|]. apply (rel_range s g1); auto. exists i1. auto. }
    simpl length in *. lia. }
  assert (C1 : cwf (length (eg_groups s)) s1) by (destruct (j_c _ J); constructor; auto).
  destruct (handle_inequality_moved ordc ordc_perm (length (eg_groups s)) s1 g1 g2 C1) as [M3 C3].
  set (s2 := handle_inequality ordc s1 g1 g2) in *. clearbody s2.
  assert (J1 : jwf s1).
  { destruct J as [JG JI JR JA JD JC]. constructor; auto; cbn [s1 set_groups eg_groups eg_terms eg_apps eg_amap].
    - destruct JG as [K1 K2 K3 K4]. constructor; [congruence| | |].
      + intros i ti H. destruct (K2 _ _ H) as (gi & L0 & I0). destruct (Q1 _ _ L0) as (gi' & L' & T & _). exists gi'. split; auto. congruence.
      + intros g gi t H I0. destruct (Q2 _ _ H) as (i & Hi & T & _). rewrite T in I0. eauto.
      + intros g gi H. destruct (Q2 _ _ H) as (i & Hi & T & _). rewrite T. eauto.
    - destruct JR as (rk & R). exists rk. intros g h H. rewrite L, Rm. apply Q3 in H. auto.
    - destruct JA as [K1 K2 K3 K4 K5]. constructor; auto.
      + intros g gi k H I0. destruct (Q2 _ _ H) as (i & Hi & _ & T & _). rewrite T in I0. eauto.
      + rewrite L. exact K2.
      + intros k x g H E. destruct (K3 _ _ _ H E) as (gi & L0 & I0). destruct (Q1 _ _ L0) as (gi' & L' & _ & T & _). exists gi'. split; auto. congruence.
    - rewrite L. auto. }
  assert (E1 : evolves s s1).
  { constructor; auto using incl_refl. exists (fun g => g). split; [eauto|]. split.
    - intros x y r H. exists r. split; auto using conn_refl.
    - intros g h H. right. cbn [s1 set_groups eg_groups]. apply Q4. auto. }
  split; [constructor|].
  - apply (moved_jwf s1); auto. cbn [s1 set_groups eg_groups]. rewrite L. auto.
  - eapply evolves_trans; [exact E1|]. apply moved_evolves; auto.
  - right. rewrite (m_g _ _ M3). cbn [s1 set_groups eg_groups]. split; [unfold livec; rewrite L, Rm; auto|]. auto.
  - right. exists ta, tb. rewrite (m_t _ _ M3), (m_g _ _ M3). cbn [s1 set_groups eg_groups eg_terms]. split; auto. split; auto. apply Q4. auto.
Qed.

Lemma cwf_groups n s gs : cwf n s -> cwf n (set_groups s gs). Proof. intros []; constructor; auto. Qed.
Lemma calm_len a b : calm a b -> length b = length a. Proof. intros ([L _] & _). auto. Qed.
Lemma set_groups_same s : set_groups s (eg_groups s) = s. Proof. destruct s; reflexivity. Qed.

Lemma evaluate_literals_wp s c : forall gs acc, calm (eg_groups s) gs -> rwf gs -> (forall l, In l c -> litn (length (eg_groups s)) l) ->
  (forall l, In l acc -> litn (length (eg_groups s)) l) ->
  wp (evaluate_literals (set_groups s gs) c acc) (fun r => exists gs', fst r = set_groups s gs' /\ calm (eg_groups s) gs' /\ rwf gs' /\
    forall ls, snd r = Some ls -> length ls <= length acc + length c /\ forall l, In l ls -> litn (length (eg_groups s)) l).
Proof.
  induction c as [|l c IH]; intros gs acc Hc Hr Hl Ha; cbn [evaluate_literals].
  - simpl. exists gs. split; auto. split; auto. split; auto. intros ls E; injection E as <-. split; [lia|auto].
  - destruct (Hl l (or_introl eq_refl)) as [R1 R2]. apply wp_bind.
    eapply wp_mono; [|apply update_group_id_wp; [exact Hr|cbn [set_groups eg_groups]; rewrite (calm_len _ _ Hc); auto]].
    intros [s1 left] (gs1 & E1 & C1 & W1 & (i1 & L1)). cbn [fst snd] in *. subst s1. cbn [set_groups eg_groups] in C1. apply wp_bind.
    pose proof (calm_trans _ _ _ Hc C1) as Hc1.
    eapply wp_mono; [|apply update_group_id_wp; [exact W1|cbn [set_groups eg_groups]; rewrite (calm_len _ _ Hc1); auto]].
    intros [s2 right] (gs2 & E2 & C2 & W2 & (i2 & L2)). cbn [fst snd] in *. subst s2. cbn [set_groups eg_groups] in C2.
    pose proof (calm_trans _ _ _ Hc1 C2) as Hc2. change (set_groups (set_groups (set_groups s gs) gs1) gs2) with (set_groups s gs2).
    assert (K : forall acc', length acc' <= S (length acc) -> (forall l, In l acc' -> litn (length (eg_groups s)) l) ->
      wp (evaluate_literals (set_groups s gs2) c acc') (fun r => exists gs', fst r = set_groups s gs' /\ calm (eg_groups s) gs' /\ rwf gs' /\
        forall ls, snd r = Some ls -> length ls <= length acc + length (l :: c) /\ forall l, In l ls -> litn (length (eg_groups s)) l)).
    { intros acc' La Ha'. eapply wp_mono; [|apply (IH gs2 acc' Hc2 W2)]; auto; [|intros; apply Hl; simpl; auto].
      intros r (gs' & X1 & X2 & X3 & X4). exists gs'. split; auto. split; auto. split; auto. intros ls E. destruct (X4 _ E) as [Y1 Y2]. split; auto. simpl. lia. }
    assert (T : wp (Ok (set_groups s gs2, None : option (list litid))) (fun r => exists gs', fst r = set_groups s gs' /\ calm (eg_groups s) gs' /\ rwf gs' /\
        forall ls, snd r = Some ls -> length ls <= length acc + length (l :: c) /\ forall l, In l ls -> litn (length (eg_groups s)) l)).
    { simpl. exists gs2. split; auto. split; auto. split; auto. discriminate. }
    destruct (Nat.eqb left right); [destruct (lpos l); [exact T|apply K; auto]|].
    unfold get_group_info. cbn [set_groups eg_groups]. assert (L1' : nth_error gs2 left = Some (Info i1)) by (apply C2; auto). rewrite L1'. cbn [rbind].
    destruct (memb right (gi_ineq i1)); [destruct (negb (lpos l)); [exact T|apply K; auto]|].
    apply K; [rewrite app_length; simpl; lia|]. intros m Hm. apply in_app_iff in Hm. destruct Hm as [Hm|[<-|[]]]; auto.
    apply litid_new_litn; rewrite Nnat.Nat2N.id; rewrite <- (calm_len _ _ Hc2); eapply nth_lt; eauto.
Qed.

(** pushing clauses of bounded length *)
Lemma resolve_all n c : forall ks s, cwf n s -> (forall l, In l c -> litn n l) -> (forall k, In k ks -> k < length c) ->
  exists ps, let s' := fold_left (resolve_literal c) ks s in
    eg_pending s' = ps ++ eg_pending s /\ weight ps <= length ks * cweight (length c - 1) /\ cwf n s' /\
    eg_terms s' = eg_terms s /\ eg_groups s' = eg_groups s /\ eg_apps s' = eg_apps s /\ eg_amap s' = eg_amap s /\ eg_decomps s' = eg_decomps s /\
    eg_opaque s' = eg_opaque s /\ (eg_contra s = true -> eg_contra s' = true).
Proof.
  induction ks as [|k ks IH]; intros s C Hc Hk; simpl.
  - exists []. split; auto. split; [unfold weight; simpl; lia|]. auto 10.
  - assert (X : exists ps, let s' := resolve_literal c s k in
      eg_pending s' = ps ++ eg_pending s /\ weight ps <= cweight (length c - 1) /\ cwf n s' /\
      eg_terms s' = eg_terms s /\ eg_groups s' = eg_groups s /\ eg_apps s' = eg_apps s /\ eg_amap s' = eg_amap s /\ eg_decomps s' = eg_decomps s /\
      eg_opaque s' = eg_opaque s /\ (eg_contra s = true -> eg_contra s' = true)).
    { assert (Z : forall s', eg_pending s' = eg_pending s -> cwf n s' -> eg_terms s' = eg_terms s -> eg_groups s' = eg_groups s -> eg_apps s' = eg_apps s ->
        eg_amap s' = eg_amap s -> eg_decomps s' = eg_decomps s -> eg_opaque s' = eg_opaque s -> (eg_contra s = true -> eg_contra s' = true) ->
        exists ps, eg_pending s' = ps ++ eg_pending s /\ weight ps <= cweight (length c - 1) /\ cwf n s' /\
        eg_terms s' = eg_terms s /\ eg_groups s' = eg_groups s /\ eg_apps s' = eg_apps s /\ eg_amap s' = eg_amap s /\ eg_decomps s' = eg_decomps s /\
        eg_opaque s' = eg_opaque s /\ (eg_contra s = true -> eg_contra s' = true)).
      { intros. exists []. split; auto. split; [unfold weight; simpl; lia|]. auto 10. }
      cbv zeta. unfold resolve_literal. destruct (set_mem _ _); [|apply Z; auto].
      assert (O : forall l, In l (without c k) -> litn n l) by (intros l Hl; apply Hc; eapply without_in; eauto).
      apply clauseid_litn in O. destruct (clauseid_new (without c k)) as [| |r] eqn:E; [apply Z; auto|apply Z; auto; destruct C; constructor; auto|].
      destruct (set_mem r _); [apply Z; auto|]. exists [OClause r]. split; auto. split.
      - unfold weight. simpl. apply clauseid_length in E. pose proof (without_length c k (Hk k (or_introl eq_refl))).
        assert (cweight (length r) <= cweight (length c - 1)) by (apply cweight_mono; lia). lia.
      - split; [apply cwf_push; auto|]. auto 10. }
    destruct X as (p1 & P1 & P2 & P3 & P4 & P5 & P6 & P7 & P8 & P9 & P10).
    destruct (IH _ P3 Hc (fun j Hj => Hk j (or_intror Hj))) as (p2 & R1 & R2 & R3 & R4 & R5 & R6 & R7 & R8 & R9 & R10).
    exists (p2 ++ p1). split; [rewrite R1, P1, app_assoc; auto|]. split; [rewrite weight_app; lia|]. split; auto.
    repeat split; try congruence. auto.
Qed.

Lemma insert_clause_normalized_wp s c : jwf s -> (forall l, In l c -> litn (length (eg_groups s)) l) ->
  wp (insert_clause_normalized s c) (fun s' => stepped s s' (cweight (length c))).
Proof.
  intros J Hc. unfold insert_clause_normalized. apply wp_bind. rewrite <- (set_groups_same s).
  eapply wp_mono; [|apply (evaluate_literals_wp s c (eg_groups s) []); auto using calm_refl; [apply (j_r _ J)|intros l []]].
  intros [s1 o] (gs & E & C & R & Ls). cbn [fst snd] in *. subst s1. rewrite (set_groups_same s).
  pose proof (cweight_ge (length c)) as W.
  assert (Cw : cwf (length (eg_groups s)) (set_groups s gs)) by (apply cwf_groups, (j_c _ J)).
  assert (NC : forall lits, (forall l, In l lits -> litn (length (eg_groups s)) l) -> length lits <= length c ->
     stepped s (insert_new_clause (set_groups s gs) lits) (cweight (length c))).
  { intros lits Hl Ll. unfold insert_new_clause. apply clauseid_litn in Hl. destruct (clauseid_new lits) as [| |d] eqn:Ed.
    - apply (stepped_calm s _ _ []); auto. unfold weight; simpl; lia.
    - apply (stepped_calm s _ _ []); auto; [destruct Cw; constructor; auto|unfold weight; simpl; lia].
    - destruct (set_mem d _); [apply (stepped_calm s _ _ []); auto; unfold weight; simpl; lia|].
      set (s2 := set_clauses _ _).
      assert (C2 : cwf (length (eg_groups s)) s2).
      { destruct Cw as [D1 D2 D3]. destruct (consistent_insert _ d D1) as [D4 D5]. constructor; [exact D4| |exact D3]. intros x Hx. apply D5 in Hx. destruct Hx as [->|Hx]; [exact Hl|exact (D2 x Hx)]. }
      destruct (resolve_all _ d (seq 0 (length d)) s2 C2 Hl) as (ps & P1 & P2 & P3 & P4 & P5 & P6 & P7 & P8 & P9 & P10).
      { intros k Hk. apply in_seq in Hk. lia. }
      apply (stepped_calm s _ _ ps); auto.
      + rewrite P5. auto.
      + rewrite P5. auto.
      + rewrite seq_length in P2. apply clauseid_length in Ed. assert (cweight (length d) <= cweight (length c)) by (apply cweight_mono; lia).
        destruct (length d) as [|k]; [simpl in P2; lia|]. replace (S k - 1) with k in P2 by lia. cbn [cweight] in *. lia. }
  destruct o as [ls|]; [|simpl; apply (stepped_calm s _ _ []); auto; unfold weight; simpl; lia].
  destruct (Ls _ eq_refl) as [L1 L2]. simpl in L1. destruct ls as [|l [|l' ls]]; cbn [wp].
  - apply (stepped_calm s _ _ []); auto; [destruct Cw; constructor; auto|unfold weight; simpl; lia].
  - destruct (L2 l (or_introl eq_refl)) as [R1 R2]. apply wp_bind.
    eapply wp_mono; [|apply update_group_id_wp; [exact R|cbn [set_groups eg_groups]; rewrite (calm_len _ _ C); auto]].
    intros [s1 lg] (gs1 & E1 & C1 & W1 & (i1 & G1)). cbn [fst snd] in *. subst s1. cbn [set_groups eg_groups] in C1. apply wp_bind.
    pose proof (calm_trans _ _ _ C C1) as Hc1.
    eapply wp_mono; [|apply update_group_id_wp; [exact W1|cbn [set_groups eg_groups]; rewrite (calm_len _ _ Hc1); auto]].
    intros [s2 rg] (gs2 & E2 & C2 & W2 & (i2 & G2)). cbn [fst snd] in *. subst s2. cbn [set_groups eg_groups] in C2.
    pose proof (calm_trans _ _ _ Hc1 C2) as Hc2. change (set_groups (set_groups (set_groups s gs) gs1) gs2) with (set_groups s gs2).
    unfold get_group_info. cbn [set_groups eg_groups]. assert (G1' : nth_error gs2 lg = Some (Info i1)) by (apply C2; auto). rewrite G1', G2. cbn [rbind].
    assert (G1s : nth_error (eg_groups s) lg = Some (Info i1)) by (apply Hc2; auto).
    assert (G2s : nth_error (eg_groups s) rg = Some (Info i2)) by (apply Hc2; auto).
    destruct (gi_terms i1) as [|lt lts] eqn:T1. { exfalso. apply (g_ne _ _ (j_g _ J) _ _ G1s T1). }
    destruct (gi_terms i2) as [|rt rts] eqn:T2. { exfalso. apply (g_ne _ _ (j_g _ J) _ _ G2s T2). }
    cbn [wp]. apply (stepped_calm s _ _ [if lpos l then OEq lt rt else ONeq lt rt]); auto.
    + apply cwf_push; [apply cwf_groups, (j_c _ J)|].
      destruct (g_gt _ _ (j_g _ J) lg i1 lt G1s) as (x & X & _); [rewrite T1; simpl; auto|]. destruct (g_gt _ _ (j_g _ J) rg i2 rt G2s) as (y & Y & _); [rewrite T2; simpl; auto|].
      apply nth_lt in X, Y. rewrite (jwf_len _ J). destruct (lpos l); simpl; auto.
    + unfold weight. simpl. destruct (lpos l); simpl; lia.
  - apply NC; auto. 
Qed.
End Steps.
