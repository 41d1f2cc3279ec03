(** C24: the certificate worklist (certificate.rs:2292-2360). *)
From Coq Require Import String List Arith Bool Lia Permutation Sorted.
Import ListNotations.
From Verif Require Import Worklist.
Open Scope list_scope.

Section W.
Context {proof : Type}.
Notation cert := (cert proof).
Notation store := (store proof).
Notation worklist := (worklist proof).

(** A worklist after any sequence of removals; lookups do not change it. *)
Inductive removals (s : store) : list (string * nat) -> worklist -> Prop :=
| rm_new : removals s [] (wl_new s)
| rm_step l w g i : removals s l w -> removals s ((g, i) :: l) (remove w g i).

(** ** the map *)
Definition keys (m : gmap) := map fst m.
Lemma find_push g i m h : find_goal h (push_index g i m) =
  if String.eqb g h then Some (match find_goal g m with Some l => l ++ [i] | None => [i] end) else find_goal h m.
Proof.
  induction m as [|[k l] m IH]; simpl.
  - destruct (String.eqb g h); auto.
  - destruct (String.eqb_spec k g) as [->|N]; simpl.
    + destruct (String.eqb g h); auto.
    + rewrite IH. destruct (String.eqb_spec k h) as [->|N']; auto.
      destruct (String.eqb_spec g h) as [->|]; [congruence|auto].
Qed.
Lemma keys_push g i m : NoDup (keys m) -> NoDup (keys (push_index g i m)) /\ forall k, In k (keys (push_index g i m)) <-> k = g \/ In k (keys m).
Proof.
  induction m as [|[k l] m IH]; simpl; intros N.
  - split; [repeat constructor; simpl; tauto|firstorder congruence].
  - inversion N as [|? ? N1 N2]; subst. destruct (String.eqb_spec k g) as [->|Hn]; simpl.
    + split; [constructor; auto|]. intros k; split; intros H; [tauto|]. destruct H as [->|[H|H]]; auto.
    + destruct (IH N2) as [A B]. split.
      * constructor; auto. rewrite B. tauto.
      * intros x. rewrite B. firstorder.
Qed.
Lemma find_keys g m : In g (keys m) <-> exists l, find_goal g m = Some l.
Proof.
  induction m as [|[k l] m IH]; simpl.
  - split; [tauto|intros [l H]; discriminate].
  - destruct (String.eqb_spec k g) as [->|N]; [split; eauto|]. rewrite <- IH. split; [intros [H|H]; congruence|auto].
Qed.
Lemma find_drop g m h : NoDup (keys m) -> find_goal h (drop_goal g m) = if String.eqb g h then None else find_goal h m.
Proof.
  induction m as [|[k l] m IH]; simpl; intros N; [destruct (String.eqb g h); auto|]. inversion N as [|? ? N1 N2]; subst.
  destruct (String.eqb_spec k g) as [->|Hn]; simpl.
  - destruct (String.eqb_spec g h) as [->|]; auto. destruct (find_goal h m) eqn:E; auto. exfalso. apply N1, find_keys. eauto.
  - rewrite IH by auto. destruct (String.eqb_spec k h) as [->|]; auto. destruct (String.eqb_spec g h); congruence.
Qed.
Lemma find_set g l m h : In g (keys m) -> find_goal h (set_goal g l m) = if String.eqb g h then Some l else find_goal h m.
Proof.
  induction m as [|[k l0] m IH]; simpl; intros H; [tauto|]. destruct (String.eqb_spec k g) as [->|Hn]; simpl.
  - destruct (String.eqb g h); auto.
  - rewrite IH by (destruct H; [congruence|auto]). destruct (String.eqb_spec k h) as [->|]; auto. destruct (String.eqb_spec g h); congruence.
Qed.
Lemma keys_set g l m : keys (set_goal g l m) = keys m.
Proof. induction m as [|[k l0] m IH]; simpl; auto. destruct (String.eqb k g); simpl; congruence. Qed.
Lemma keys_drop g m : NoDup (keys m) -> NoDup (keys (drop_goal g m)).
Proof.
  assert (I : forall x m, In x (keys (drop_goal g m)) -> In x (keys m)).
  { clear. induction m as [|[k l] m IH]; simpl; auto. destruct (String.eqb k g); simpl; tauto. }
  induction m as [|[k l] m IH]; simpl; intros N; auto. inversion N; subst. destruct (String.eqb k g); simpl; auto. constructor; auto.
Qed.

(** ** what the map holds *)
(** indexes of the certificates of goal [g], from index [i] on *)
Fixpoint of_goal (g : string) (i : nat) (s : store) : list nat :=
  match s with [] => [] | c :: r => (if String.eqb (goal c) g then [i] else []) ++ of_goal g (S i) r end.
Definition values (m : gmap) (g : string) : list nat := match find_goal g m with Some l => l | None => [] end.
Record holds (w : worklist) (f : string -> list nat) : Prop := {
  h_keys : NoDup (keys (indexes_for_goal w));
  h_values : forall g, values (indexes_for_goal w) g = f g;
  h_nonempty : forall g l, find_goal g (indexes_for_goal w) = Some l -> l <> []
}.
Lemma index_from_holds s : forall i m, NoDup (keys m) -> (forall g l, find_goal g m = Some l -> l <> []) ->
  NoDup (keys (index_from i s m)) /\ (forall g, values (index_from i s m) g = values m g ++ of_goal g i s) /\
  (forall g l, find_goal g (index_from i s m) = Some l -> l <> []).
Proof.
  induction s as [|c s IH]; simpl; intros i m N E.
  - split; auto. split; auto. intros g. rewrite app_nil_r. reflexivity.
  - destruct (IH (S i) (push_index (goal c) i m)) as (A & B & C).
    + apply keys_push, N.
    + intros g l. rewrite find_push. destruct (String.eqb_spec (goal c) g) as [<-|].
      * intros H; injection H as <-. destruct (find_goal (goal c) m); [destruct l|]; discriminate.
      * apply E.
    + split; auto. split; auto. intros g. rewrite B, app_assoc. f_equal. unfold values. rewrite find_push.
      destruct (String.eqb_spec (goal c) g) as [<-|]; [destruct (find_goal (goal c) m); auto|]. rewrite app_nil_r. reflexivity.
Qed.
(** the removals of a goal leave these indexes *)
Definition left_over (s : store) (l : list (string * nat)) (g : string) : list nat :=
  filter (fun i => negb (existsb (fun r => String.eqb (fst r) g && Nat.eqb (snd r) i) l)) (of_goal g 0 s).
Lemma filter_filter {A} (f g : A -> bool) l : filter f (filter g l) = filter (fun x => g x && f x) l.
Proof. induction l as [|a l IH]; simpl; auto. destruct (g a); simpl; [destruct (f a)|]; rewrite IH; auto. Qed.
Lemma removals_hold s l w : removals s l w -> certs w = s /\ holds w (left_over s l).
Proof.
  induction 1 as [|l w g i H [Hc IH]].
  - split; auto. destruct (index_from_holds s 0 [] (NoDup_nil _)) as (A & B & C); [discriminate|].
    constructor; auto. intros g. unfold wl_new; simpl. rewrite B. unfold left_over. simpl.
    induction (of_goal g 0 s); simpl; congruence.
  - assert (L : forall h, left_over s ((g, i) :: l) h = filter (fun j => negb (String.eqb g h && Nat.eqb i j)) (left_over s l h)).
    { intros h. unfold left_over. rewrite filter_filter. apply filter_ext. intros j. simpl.
      rewrite negb_orb. apply andb_comm. }
    unfold remove. destruct (find_goal g (indexes_for_goal w)) as [v|] eqn:E.
    + simpl. split; auto.
      assert (V : left_over s ((g, i) :: l) g = filter (fun j => negb (Nat.eqb j i)) v).
      { rewrite L, <- (h_values _ _ IH). unfold values. rewrite E. apply filter_ext. intros j. rewrite String.eqb_refl, Nat.eqb_sym. reflexivity. }
      assert (O : forall h, g <> h -> left_over s ((g, i) :: l) h = left_over s l h).
      { intros h Hn. rewrite L. rewrite (proj2 (String.eqb_neq g h) Hn). simpl. clear. induction (left_over s l h); simpl; congruence. }
      destruct (filter (fun j => negb (Nat.eqb j i)) v) as [|x r] eqn:F.
      * constructor; simpl.
        -- apply keys_drop, IH.
        -- intros h. unfold values. rewrite find_drop by apply IH. destruct (String.eqb_spec g h) as [<-|N]; auto.
           rewrite O by auto. apply (h_values _ _ IH).
        -- intros h v'. rewrite find_drop by apply IH. destruct (String.eqb g h); [discriminate|]. apply (h_nonempty _ _ IH).
      * constructor; simpl.
        -- rewrite keys_set. apply IH.
        -- intros h. unfold values. rewrite find_set by (apply find_keys; eauto). destruct (String.eqb_spec g h) as [<-|N]; auto.
           rewrite O by auto. apply (h_values _ _ IH).
        -- intros h v'. rewrite find_set by (apply find_keys; eauto). destruct (String.eqb g h); [|apply (h_nonempty _ _ IH)]. intros Q; injection Q as <-. discriminate.
    + split; auto. constructor; try apply IH. intros h. rewrite (h_values _ _ IH h), L.
      destruct (String.eqb_spec g h) as [<-|N].
      * rewrite <- (h_values _ _ IH g). unfold values. rewrite E. reflexivity.
      * simpl. clear. induction (left_over s l h); simpl; congruence.
Qed.
Lemma of_goal_spec g s : forall i j, In j (of_goal g i s) <-> i <= j /\ exists c, nth_error s (j - i) = Some c /\ goal c = g.
Proof.
  induction s as [|c s IH]; simpl; intros i j.
  - split; [tauto|]. intros (_ & c & H & _). destruct (j - i); discriminate.
  - rewrite in_app_iff, IH. split.
    + intros [H|(H & d & H1 & H2)].
      * destruct (String.eqb_spec (goal c) g) as [<-|]; simpl in H; [|tauto]. destruct H as [<-|[]]. rewrite Nat.sub_diag. split; [lia|]. exists c. auto.
      * split; [lia|]. exists d. replace (j - i) with (S (j - S i)) by lia. auto.
    + intros (H & d & H1 & H2). destruct (Nat.eq_dec i j) as [->|N].
      * rewrite Nat.sub_diag in H1. injection H1 as ->. left. rewrite (proj2 (String.eqb_eq (goal d) g) H2). simpl; auto.
      * right. split; [lia|]. exists d. replace (j - i) with (S (j - S i)) in H1 by lia. auto.
Qed.
Lemma of_goal_sorted g s : forall i, StronglySorted lt (of_goal g i s).
Proof.
  induction s as [|c s IH]; simpl; intros i; [constructor|]. destruct (String.eqb (goal c) g); simpl; auto.
  constructor; auto. apply Forall_forall. intros j Hj. apply of_goal_spec in Hj. lia.
Qed.
Lemma sorted_filter f l : StronglySorted lt l -> StronglySorted lt (filter f l).
Proof.
  induction 1 as [|a l H IH F]; simpl; [constructor|]. destruct (f a); auto. constructor; auto.
  rewrite Forall_forall in *. intros x Hx. apply filter_In in Hx. apply F, Hx.
Qed.
End W.

(** The lookup of a goal returns exactly the certificates of this goal that were not removed under its name,
    each once and in the original order. *)
Theorem lookup_returns_unconsumed : forall (proof : Type) (s : store proof) l w, removals s l w -> forall g,
  StronglySorted lt (get_indexes w g) /\
  forall i, In i (get_indexes w g) <-> (exists c, nth_error s i = Some c /\ goal c = g) /\ ~ In (g, i) l.
Proof.
  intros proof s l w H g. destruct (removals_hold s l w H) as [_ Hw].
  assert (E : get_indexes w g = left_over s l g) by apply (h_values _ _ Hw). rewrite E. split.
  - apply sorted_filter, of_goal_sorted.
  - intros i. unfold left_over. rewrite filter_In, of_goal_spec, Nat.sub_0_r, negb_true_iff.
    assert (Q : existsb (fun r => String.eqb (fst r) g && Nat.eqb (snd r) i) l = false <-> ~ In (g, i) l).
    { rewrite <- not_true_iff_false, existsb_exists. split; intros N K; apply N.
      - exists (g, i). simpl. rewrite String.eqb_refl, Nat.eqb_refl. auto.
      - destruct K as ([h j] & K1 & K2). simpl in K2. apply andb_prop in K2. destruct K2 as [K2 K3].
        apply String.eqb_eq in K2. apply Nat.eqb_eq in K3. subst. auto. }
    rewrite Q. split; [intros ((_ & A) & B)|intros (A & B)]; split; auto. split; [lia|auto].
Qed.
Print Assumptions lookup_returns_unconsumed.

(** Whatever the lookup returns is a certificate of the goal asked for. *)
Theorem lookup_finds_goal : forall (proof : Type) (s : store proof) l w, removals s l w -> forall g i, In i (get_indexes w g) ->
  exists c, get_cert w i = Some c /\ goal c = g.
Proof.
  intros proof s l w H g i Hi. apply (lookup_returns_unconsumed _ _ _ _ H) in Hi. destruct Hi as [(c & E & G) _].
  exists c. unfold get_cert. rewrite (proj1 (removals_hold s l w H)). auto.
Qed.
Print Assumptions lookup_finds_goal.

(** ** the leftovers *)
Section L.
Context {proof : Type}.
Notation cert := (cert proof).
Notation store := (store proof).
(** the certificates that were not consumed, in the original order: index [i] was not removed under the
    goal of the certificate there *)
Fixpoint unconsumed_from (i : nat) (l : list (string * nat)) (s : store) : list cert :=
  match s with
  | [] => []
  | c :: r => (if existsb (fun x => String.eqb (fst x) (goal c) && Nat.eqb (snd x) i) l then [] else [c]) ++ unconsumed_from (S i) l r
  end.
Lemma present_app (s : store) a b : present s (a ++ b) = present s a ++ present s b.
Proof. induction a as [|i a IH]; simpl; auto. destruct (nth_error s i); simpl; rewrite IH; auto. Qed.
Lemma present_goal (s : store) g f : forall t i, (forall j c, nth_error t j = Some c -> nth_error s (i + j) = Some c) ->
  present s (filter f (of_goal g i t)) = filter (fun c => String.eqb (goal c) g)
    ((fix go (i : nat) (t : store) := match t with [] => [] | c :: r => (if f i then [c] else []) ++ go (S i) r end) i t).
Proof.
  induction t as [|c t IH]; intros i H; [reflexivity|]. cbn [of_goal].
  assert (H0 : nth_error s i = Some c) by (rewrite <- (Nat.add_0_r i); apply (H 0 c eq_refl)).
  assert (H1 : forall j d, nth_error t j = Some d -> nth_error s (S i + j) = Some d).
  { intros j d Hd. replace (S i + j) with (i + S j) by lia. apply H. exact Hd. }
  rewrite filter_app, present_app, (IH (S i) H1), filter_app. f_equal.
  destruct (String.eqb (goal c) g) eqn:E; cbn [filter]; destruct (f i) eqn:F; cbn [filter present]; rewrite ?H0, ?E; reflexivity.
Qed.
Lemma unconsumed_goal (s : store) l g :
  present s (left_over s l g) = filter (fun c => String.eqb (goal c) g) (unconsumed_from 0 l s).
Proof.
  unfold left_over. rewrite (present_goal s g _ s 0) by auto.
  assert (E : forall t i, filter (fun c => String.eqb (goal c) g)
    ((fix go (i : nat) (t : store) := match t with [] => [] | c :: r =>
       (if negb (existsb (fun r0 => String.eqb (fst r0) g && Nat.eqb (snd r0) i) l) then [c] else []) ++ go (S i) r end) i t) =
    filter (fun c => String.eqb (goal c) g) (unconsumed_from i l t)).
  { induction t as [|c t IH]; intros i; [reflexivity|]. cbn [unconsumed_from]. rewrite !filter_app, IH. f_equal.
    destruct (String.eqb_spec (goal c) g) as [<-|N].
    - destruct (existsb _ l); reflexivity.
    - apply String.eqb_neq in N. destruct (negb _), (existsb _ l); simpl; rewrite ?N; reflexivity. }
  apply E.
Qed.
Lemma flat_groups (s : store) (f : string -> list nat) : forall m : gmap, (forall g l, In (g, l) m -> l = f g) ->
  present s (flat_map snd m) = flat_map (fun g => present s (f g)) (keys m).
Proof.
  induction m as [|[g l] m IH]; simpl; intros H; auto. rewrite present_app, IH by (intros; apply H; auto). f_equal. f_equal. apply H. auto.
Qed.
Lemma filter_all_false {A} (f : A -> bool) l : (forall x, In x l -> f x = false) -> filter f l = [].
Proof. induction l as [|a l IH]; simpl; intros H; auto. rewrite H, IH by auto. reflexivity. Qed.
Lemma perm_groups (ks : list string) : NoDup ks -> forall u : list cert, (forall c, In c u -> In (goal c) ks) ->
  Permutation (flat_map (fun g => filter (fun c => String.eqb (goal c) g) u) ks) u.
Proof.
  intros N u. induction u as [|c u IH]; intros H.
  - induction ks; simpl; auto. apply IHks; [inversion N; auto|simpl; tauto].
  - assert (Hc : In (goal c) ks) by (apply H; simpl; auto).
    apply in_split in Hc. destruct Hc as (k1 & k2 & Ek). subst ks.
    specialize (IH (fun d Hd => H d (or_intror Hd))).
    assert (Z : forall k, (forall g, In g k -> g <> goal c) ->
      flat_map (fun g => filter (fun d => String.eqb (goal d) g) (c :: u)) k = flat_map (fun g => filter (fun d => String.eqb (goal d) g) u) k).
    { intros k Hk. apply flat_map_ext_in || idtac. clear - Hk. induction k as [|g k IHk]; auto. cbn [flat_map]. rewrite IHk by (intros; apply Hk; simpl; auto).
      f_equal. cbn [filter]. destruct (String.eqb_spec (goal c) g) as [E|]; auto. exfalso. apply (Hk g); simpl; auto. }
    rewrite flat_map_app in *. cbn [flat_map] in *. apply NoDup_remove_2 in N.
    rewrite (Z k1), (Z k2); try (intros g Hg E; subst; apply N, in_or_app; auto).
    cbn [filter]. rewrite String.eqb_refl. simpl.
    apply Permutation_sym, Permutation_cons_app, Permutation_sym, IH.
Qed.
Lemma filter_groups (ks : list string) g (u : list cert) : NoDup ks ->
  filter (fun c => String.eqb (goal c) g) (flat_map (fun h => filter (fun c => String.eqb (goal c) h) u) ks) =
  if in_dec string_dec g ks then filter (fun c => String.eqb (goal c) g) u else [].
Proof.
  induction ks as [|k ks IH]; intros N; [reflexivity|]. inversion N as [|? ? N1 N2]; subst. cbn [flat_map]. rewrite filter_app, (IH N2), filter_filter.
  destruct (string_dec k g) as [->|Hn].
  - destruct (in_dec string_dec g ks); [tauto|]. destruct (in_dec string_dec g (g :: ks)) as [|K]; [|simpl in K; tauto].
    rewrite app_nil_r. apply filter_ext. intros c. destruct (String.eqb (goal c) g); auto.
  - rewrite (filter_all_false (fun x => String.eqb (goal x) k && String.eqb (goal x) g)).
    + simpl. destruct (in_dec string_dec g ks) as [i|i], (string_dec k g); try congruence; destruct (in_dec string_dec g (k :: ks)) as [j|j]; simpl in j; try tauto; auto.
    + intros c _. destruct (String.eqb_spec (goal c) k); auto. simpl. apply String.eqb_neq. congruence.
Qed.
End L.

(** In whatever order the map is iterated: the leftovers are the certificates never consumed, each as often as
    it was stored; those of one goal are in the original order; [unused] counts them. *)
Theorem leftovers_are_unconsumed_partial : forall (proof : Type) (s : store proof) l w, removals s l w ->
  forall ord, (forall m, Permutation (ord m) m) ->
  Permutation (iter_unused ord w) (unconsumed_from 0 l s) /\
  (forall g, filter (fun c => String.eqb (goal c) g) (iter_unused ord w) = filter (fun c => String.eqb (goal c) g) (unconsumed_from 0 l s)) /\
  unused w = length (iter_unused ord w).
Proof.
  intros proof s l w H ord Ho. destruct (removals_hold s l w H) as [Hs Hw].
  pose (m := ord (indexes_for_goal w)). assert (P : Permutation m (indexes_for_goal w)) by apply Ho.
  assert (N : NoDup (keys m)) by (eapply Permutation_NoDup; [apply Permutation_sym, (Permutation_map fst), P|apply Hw]).
  assert (F : forall g v, In (g, v) (indexes_for_goal w) -> find_goal g (indexes_for_goal w) = Some v).
  { generalize (h_keys _ _ Hw). generalize (indexes_for_goal w). induction g as [|[k v] r IH]; simpl; intros Nk h u Hu; [tauto|].
    inversion Nk as [|? ? N1 N2]; subst. destruct Hu as [E|Hu].
    - injection E as <- <-. rewrite String.eqb_refl. auto.
    - destruct (String.eqb_spec k h) as [->|]; auto. exfalso. apply N1. apply (in_map fst) in Hu. exact Hu. }
  assert (V : forall g v, In (g, v) m -> v = left_over s l g).
  { intros g v Hv. apply (Permutation_in _ P) in Hv. apply F in Hv. rewrite <- (h_values _ _ Hw g). unfold values. rewrite Hv. reflexivity. }
  assert (E : iter_unused ord w = flat_map (fun g => filter (fun c => String.eqb (goal c) g) (unconsumed_from 0 l s)) (keys m)).
  { unfold iter_unused. fold m. rewrite Hs, (flat_groups s (left_over s l) m V). clear. induction (keys m) as [|k ks IH]; simpl; auto. rewrite IH, unconsumed_goal. reflexivity. }
  assert (K : forall c, In c (unconsumed_from 0 l s) -> In (goal c) (keys m)).
  { intros c Hc. assert (I : In c (present s (left_over s l (goal c)))) by (rewrite unconsumed_goal; apply filter_In; rewrite String.eqb_refl; auto).
    destruct (find_goal (goal c) (indexes_for_goal w)) as [v|] eqn:Ef.
    - eapply Permutation_in; [apply Permutation_sym, (Permutation_map fst), P|]. apply find_keys. eauto.
    - rewrite <- (h_values _ _ Hw) in I. unfold values in I. rewrite Ef in I. destruct I. }
  rewrite E. split; [apply perm_groups; auto|]. split.
  - intros g. rewrite filter_groups by auto. destruct (in_dec string_dec g (keys m)) as [i|i]; auto.
    symmetry. apply filter_all_false. intros c Hc. apply String.eqb_neq. intros <-. auto.
  - rewrite <- E. unfold unused, iter_unused. fold m. rewrite Hs.
    transitivity (list_sum (map (fun e : string * list nat => length (snd e)) m)).
    { clear - P. induction P; simpl; lia. }
    assert (B : forall g v i, In (g, v) m -> In i v -> nth_error s i <> None).
    { intros g v i Hv Hi. rewrite (V _ _ Hv) in Hi. apply filter_In in Hi. destruct Hi as [Hi _]. apply of_goal_spec in Hi.
      destruct Hi as (_ & c & Hc & _). rewrite Nat.sub_0_r in Hc. congruence. }
    revert B. clear. induction m as [|[g v] m IH]; simpl; intros B; auto. rewrite present_app, app_length, IH by (intros; eapply B; eauto). f_equal.
    assert (B' : forall i, In i v -> nth_error s i <> None) by (intros; eapply B; eauto). clear - B'. induction v as [|i v IH]; simpl; auto.
    destruct (nth_error s i) as [c|] eqn:E; [|exfalso; apply (B' i); simpl; auto]. simpl. rewrite <- IH; auto. intros j Hj. apply B'. simpl; auto.
Qed.
Print Assumptions leftovers_are_unconsumed_partial.

(** Not the original order: nothing is consumed and in every iteration order the leftovers are in another order
    than stored. *)
Open Scope string_scope.
Definition wl_s : store nat := [Cert "a" 0; Cert "b" 1; Cert "a" 2].
Theorem leftovers_in_order_refuted : exists s : store nat, forall ord, (forall m, Permutation (ord m) m) ->
  iter_unused ord (wl_new s) <> s /\ append ord [] (wl_new s) <> s.
Proof.
  exists wl_s. intros ord H. assert (D : iter_unused ord (wl_new wl_s) <> wl_s).
  { intros E. specialize (H (indexes_for_goal (wl_new wl_s))).
    change (indexes_for_goal (wl_new wl_s)) with [("a", [0; 2]); ("b", [1])] in H.
    unfold iter_unused in E. change (indexes_for_goal (wl_new wl_s)) with [("a", [0; 2]); ("b", [1])] in E.
    apply Permutation_sym, Permutation_length_2_inv in H. destruct H as [H|H]; rewrite H in E; discriminate E. }
  split; auto.
Qed.
Print Assumptions leftovers_in_order_refuted.

(** A certificate removed for its goal is never returned again; one removed for another goal stays. *)
Example worklist_case : exists w, removals wl_s [("a", 0); ("b", 2)] w /\
  get_indexes w "a" = [2] /\ get_indexes w "b" = [1] /\ get_indexes w "c" = [] /\ unused w = 2 /\
  iter_unused (fun m => m) w = [Cert "a" 2; Cert "b" 1] /\ unconsumed_from 0 [("a", 0); ("b", 2)] wl_s = [Cert "b" 1; Cert "a" 2] /\
  indexes_for_goal (remove w "b" 1) = [("a", [2])].
Proof. eexists. split; [apply rm_step, rm_step, rm_new|]. repeat split; reflexivity. Qed.
