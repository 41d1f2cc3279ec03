From Coq Require Import List Arith Lia Bool Permutation Sorted.
Import ListNotations.
From Verif Require Import ProofOrder.

Section OrderP.
Context {A : Type} (eqb : A -> A -> bool).
Hypothesis eqb_spec : forall x y, eqb x y = true <-> x = y.

Lemma lit_eqb_spec (x y : @lit A) : lit_eqb eqb x y = true <-> x = y.
Proof.
  unfold lit_eqb. rewrite andb_true_iff, eqb_true_iff, eqb_spec.
  destruct x, y; simpl. split; [intros [-> ->]; auto|intros H; inversion H; auto].
Qed.

(** The specification: a clause listed at [s] is a late support of the clause at [d]. *)
Definition late_support (cs : list (@clause A)) (s d : nat) : Prop :=
  d < s /\ exists cd csup, nth_error cs d = Some cd /\ nth_error cs s = Some csup /\
  ((2 <= length cd /\ exists l, In l cd /\ positive l = false /\ csup = [Lit true (body l)]) \/
   (exists u, cd = [u] /\ 2 <= length csup /\ In u csup)).

Lemma fold_in {X} (g : list (nat * nat) -> X -> list (nat * nat)) (C : X -> nat * nat -> Prop) xs :
  (forall seen x e, In e (g seen x) <-> In e seen \/ C x e) ->
  forall seen e, In e (fold_left g xs seen) <-> In e seen \/ exists x, In x xs /\ C x e.
Proof.
  intros H. induction xs as [|x xs IH]; intros seen e; simpl.
  - split; auto. intros [?|[x [[] _]]]; auto.
  - rewrite IH, H. firstorder (subst; auto).
Qed.

Lemma fold_nodup {X} (g : list (nat * nat) -> X -> list (nat * nat)) xs :
  (forall seen x, NoDup seen -> NoDup (g seen x)) ->
  forall seen, NoDup seen -> NoDup (fold_left g xs seen).
Proof. intros H. induction xs; simpl; auto. Qed.

Lemma pair_existsb seen (e : nat * nat) :
  existsb (fun x => Nat.eqb (fst x) (fst e) && Nat.eqb (snd x) (snd e)) seen = true <-> In e seen.
Proof.
  rewrite existsb_exists. split.
  - intros [x [H1 H2]]. apply andb_true_iff in H2. rewrite !Nat.eqb_eq in H2.
    destruct x, e; simpl in *. destruct H2; subst; auto.
  - intros H. exists e. split; auto. rewrite !Nat.eqb_refl. auto.
Qed.

Lemma add_edge_in seen e x : In x (add_edge seen e) <-> In x seen \/ x = e.
Proof.
  unfold add_edge. destruct existsb eqn:E.
  - apply pair_existsb in E. split; auto. intros [H| ->]; auto.
  - rewrite in_app_iff. simpl. intuition.
Qed.

Lemma NoDup_snoc {B} (l : list B) x : NoDup l -> ~ In x l -> NoDup (l ++ [x]).
Proof.
  intros H1 H2. apply (Permutation_NoDup (l := x :: l)).
  - apply Permutation_cons_append.
  - constructor; auto.
Qed.

Lemma add_edge_nodup seen e : NoDup seen -> NoDup (add_edge seen e).
Proof.
  intros H. unfold add_edge. destruct existsb eqn:E; auto.
  apply NoDup_snoc; auto. rewrite <- pair_existsb. congruence.
Qed.

Lemma indexed_in {B} (l : list B) i x : In (i, x) (indexed l) <-> nth_error l i = Some x.
Proof.
  unfold indexed.
  enough (H : forall k, In (i, x) (combine (seq k (length l)) l) <->
                        k <= i /\ nth_error l (i - k) = Some x).
  { rewrite H, Nat.sub_0_r. split; [tauto|]. intros; split; auto; lia. }
  induction l as [|y l IH]; intros k; simpl.
  - split; [tauto|]. intros [_ H]. destruct (i - k); discriminate.
  - rewrite IH. split.
    + intros [H|[H1 H2]].
      * inversion H; subst. rewrite Nat.sub_diag. auto.
      * split; [lia|]. replace (i - k) with (S (i - S k)) by lia. auto.
    + intros [H1 H2]. destruct (Nat.eq_dec i k).
      * subst. rewrite Nat.sub_diag in H2. simpl in H2. inversion H2; auto.
      * right. split; [lia|]. replace (i - k) with (S (i - S k)) in H2 by lia. auto.
Qed.

Lemma positive_units_in cs l i :
  In i (positive_units eqb cs l) <-> positive l = true /\ nth_error cs i = Some [l].
Proof.
  unfold positive_units. rewrite in_map_iff. split.
  - intros [[j c] [H1 H2]]. simpl in H1. subst j. apply filter_In in H2. destruct H2 as [H2 H3].
    apply indexed_in in H2. simpl in H3. destruct c as [|u [|]]; try discriminate.
    apply andb_true_iff in H3. rewrite lit_eqb_spec in H3. destruct H3. subst. auto.
  - intros [H1 H2]. exists (i, [l]). split; auto. apply filter_In. split.
    + apply indexed_in; auto.
    + simpl. rewrite H1. simpl. apply lit_eqb_spec. auto.
Qed.

Definition case1 (cs : list (@clause A)) (s d : nat) : Prop :=
  d < s /\ exists cd, nth_error cs d = Some cd /\ 2 <= length cd /\
  exists l, In l cd /\ positive l = false /\ nth_error cs s = Some [Lit true (body l)].
Definition case2 (cs : list (@clause A)) (s d : nat) : Prop :=
  d < s /\ exists csup u, nth_error cs d = Some [u] /\ nth_error cs s = Some csup /\
  2 <= length csup /\ In u csup.

Lemma edges_to_long_in cs seen e :
  In e (edges_to_long eqb cs seen) <-> In e seen \/ case1 cs (fst e) (snd e).
Proof.
  unfold edges_to_long.
  rewrite (fold_in _ (fun ic e => exists l, 2 <= length (snd ic) /\ In l (snd ic) /\
     positive l = false /\ fst ic < fst e /\ snd e = fst ic /\
     nth_error cs (fst e) = Some [Lit true (body l)])).
  - split.
    + intros [H|[[i c] [H1 [l (H2&H3&H4&H5&H6&H7)]]]]; auto. right. simpl in *.
      apply indexed_in in H1. unfold case1. rewrite H6. split; auto. exists c. eauto 10.
    + intros [H|[H1 [c (H2&H3&l&H4&H5&H6)]]]; auto. right. exists (snd e, c). simpl.
      rewrite indexed_in. split; auto. exists l. auto 10.
  - clear seen e. intros seen [i c] e. simpl.
    destruct (Nat.leb_spec (length c) 1).
    { split; auto. intros [?|[l [? _]]]; auto. lia. }
    rewrite (fold_in _ (fun l e => positive l = false /\ i < fst e /\ snd e = i /\
       nth_error cs (fst e) = Some [Lit true (body l)])).
    + split; [intros [?|[l ?]]|intros [?|[l ?]]]; auto; right; exists l; intuition lia.
    + clear seen e. intros seen l e. destruct (positive l) eqn:Hp.
      { split; auto. intros [?|[? _]]; auto. discriminate. }
      rewrite (fold_in _ (fun sup e => i < sup /\ e = (sup, i))).
      * split.
        -- intros [?|[sup (H1&H2&->)]]; auto. right. simpl. apply positive_units_in in H1.
           destruct H1 as [_ H1]. unfold negate in H1. rewrite Hp in H1. auto.
        -- intros [?|(H1&H2&H3&H4)]; auto. right. exists (fst e). split.
           ++ apply positive_units_in. unfold negate. rewrite Hp. simpl. auto.
           ++ destruct e; simpl in *; subst; auto.
      * clear seen e. intros seen sup e. destruct (Nat.leb_spec sup i).
        -- split; auto. intros [?|[? _]]; auto; lia.
        -- rewrite add_edge_in. intuition.
Qed.

Lemma edges_to_units_in cs seen e :
  In e (edges_to_units eqb cs seen) <-> In e seen \/ case2 cs (fst e) (snd e).
Proof.
  unfold edges_to_units.
  rewrite (fold_in _ (fun ic e => exists u csup, snd ic = [u] /\ snd e = fst ic /\ fst ic < fst e /\
     nth_error cs (fst e) = Some csup /\ 2 <= length csup /\ In u csup)).
  - split.
    + intros [H|[[i c] [H1 [u [csup (H2&H3&H4&H5&H6&H7)]]]]]; auto. right. simpl in *.
      apply indexed_in in H1. subst c. unfold case2. rewrite H3. split; auto. exists csup, u. auto.
    + intros [H|[H1 [csup [u (H2&H3&H4&H5)]]]]; auto. right. exists (snd e, [u]). simpl.
      rewrite indexed_in. split; auto. exists u, csup. auto 10.
  - clear seen e. intros seen [i c] e. simpl.
    destruct c as [|u [|v c]].
    { split; auto. intros [?|[w [csup [? _]]]]; auto. discriminate. }
    2:{ split; auto. intros [?|[w [csup [? _]]]]; auto. discriminate. }
    rewrite (fold_in _ (fun jc e => i < fst jc /\ 2 <= length (snd jc) /\ In u (snd jc) /\ e = (fst jc, i))).
    + split.
      * intros [?|[[j sc] (H1&H2&H3&H4&->)]]; auto. simpl in *. apply indexed_in in H1. eauto 10.
      * intros [?|[w [csup (H1&H2&H3&H4&H5&H6)]]]; auto. inversion H1; subst w. right.
        exists (fst e, csup). simpl. rewrite indexed_in. destruct e; simpl in *; subst. auto.
    + clear seen e. intros seen [j sc] e. simpl.
      destruct (Nat.leb_spec j i); simpl.
      { split; auto. intros [?|[? _]]; auto; lia. }
      destruct (Nat.leb_spec (length sc) 1).
      { split; auto. intros [?|(?&?&_)]; auto; lia. }
      destruct existsb eqn:E.
      * rewrite add_edge_in. apply existsb_exists in E. destruct E as [l [H1 H2]].
        apply lit_eqb_spec in H2. subst. intuition.
      * split; auto. intros [?|(_&_&H1&_)]; auto. exfalso.
        assert (existsb (fun l => lit_eqb eqb l u) sc = true).
        { apply existsb_exists. exists u. split; auto. apply lit_eqb_spec. auto. }
        congruence.
Qed.

Lemma all_edges_in cs s d : In (s, d) (all_edges eqb cs) <-> late_support cs s d.
Proof.
  unfold all_edges. rewrite edges_to_units_in, edges_to_long_in. simpl. split.
  - intros [[[]|[H1 [cd (H2&H3&l&H4&H5&H6)]]]|[H1 [csup [u (H2&H3&H4&H5)]]]].
    + split; auto. exists cd, [Lit true (body l)]. repeat split; auto. left. eauto 10.
    + split; auto. exists [u], csup. repeat split; auto. right. eauto.
  - intros [H1 (cd&csup&H2&H3&[[H4 (l&H5&H6&->)]|(u&->&H4&H5)])].
    + left. right. split; auto. exists cd. eauto 10.
    + right. split; auto. exists csup, u. auto.
Qed.

Lemma all_edges_nodup cs : NoDup (all_edges eqb cs).
Proof.
  unfold all_edges, edges_to_units. apply fold_nodup.
  - intros seen [i c] H. destruct c as [|u [|]]; auto. apply fold_nodup; auto.
    intros seen' [j sc] H'. destruct (_ || _); auto. destruct existsb; auto using add_edge_nodup.
  - unfold edges_to_long. apply fold_nodup; [|constructor].
    intros seen [i c] H. destruct Nat.leb; auto. apply fold_nodup; auto.
    intros seen' l H'. destruct (positive l); auto. apply fold_nodup; auto.
    intros seen'' s H''. destruct Nat.leb; auto using add_edge_nodup.
Qed.

(** ** Kahn's algorithm on an abstract edge list with edges from larger to smaller indices *)

Section Kahn.
Variable es : list (nat * nat).
Variable n : nat.
Hypothesis es_nodup : NoDup es.
Hypothesis es_down : forall s d, In (s, d) es -> d < s /\ s < n.

Definition remaining (out : list nat) (d : nat) : nat :=
  length (filter (fun e => Nat.eqb (snd e) d && negb (existsb (Nat.eqb (fst e)) out)) es).

Record kinv (indeg ready out : list nat) : Prop := KInv {
  k_len : length indeg = n;
  k_out : NoDup out /\ forall i, In i out -> i < n;
  k_deg : forall d, d < n -> nth d indeg 1 = remaining out d;
  k_ready : forall d, In d ready <-> d < n /\ ~ In d out /\ remaining out d = 0;
  k_sorted : StronglySorted lt ready;
  k_resp : forall i s, In i out -> In (s, i) es -> In s out
}.

Lemma existsb_nat x l : existsb (Nat.eqb x) l = true <-> In x l.
Proof.
  rewrite existsb_exists. split.
  - intros [y [H1 H2]]. apply Nat.eqb_eq in H2. subst. auto.
  - intros H. exists x. rewrite Nat.eqb_refl. auto.
Qed.

Lemma remaining_zero out d :
  remaining out d = 0 <-> forall s, In (s, d) es -> In s out.
Proof.
  unfold remaining. split.
  - intros H s Hs. apply length_zero_iff_nil in H.
    destruct (existsb (Nat.eqb s) out) eqn:E; [apply existsb_nat; auto|].
    assert (In (s, d) (filter (fun e => Nat.eqb (snd e) d && negb (existsb (Nat.eqb (fst e)) out)) es)).
    { apply filter_In. split; auto. simpl. rewrite Nat.eqb_refl, E. auto. }
    rewrite H in H0. destruct H0.
  - intros H. apply length_zero_iff_nil.
    destruct (filter _ es) as [|[s x] l] eqn:E; auto.
    assert (Hi : In (s, x) (filter (fun e => Nat.eqb (snd e) d && negb (existsb (Nat.eqb (fst e)) out)) es))
      by (rewrite E; left; auto).
    apply filter_In in Hi. destruct Hi as [H1 H2]. simpl in H2. apply andb_true_iff in H2.
    rewrite Nat.eqb_eq in H2. destruct H2 as [-> H2]. apply H in H1. apply existsb_nat in H1.
    rewrite H1 in H2. discriminate.
Qed.

Lemma update_length {B} (l : list B) i f : length (update l i f) = length l.
Proof. revert i. induction l; intros [|i]; simpl; auto. Qed.

Lemma update_nth {B} (l : list B) i f j d :
  i < length l -> nth j (update l i f) d = if Nat.eqb j i then f (nth i l d) else nth j l d.
Proof.
  revert i j. induction l as [|x l IH]; intros [|i] [|j] H; simpl in *; auto; try lia.
  apply IH. lia.
Qed.

Lemma set_insert_in x l y : In y (set_insert x l) <-> y = x \/ In y l.
Proof.
  induction l as [|z l IH]; simpl; [intuition|].
  destruct (Nat.ltb_spec x z); [simpl; intuition|].
  destruct (Nat.eqb_spec x z); [subst; simpl; intuition|]. simpl. rewrite IH. intuition.
Qed.

Lemma set_insert_sorted x l : StronglySorted lt l -> StronglySorted lt (set_insert x l).
Proof.
  induction 1 as [|z l Hs IH Hf]; simpl; [repeat constructor|].
  destruct (Nat.ltb_spec x z).
  - constructor; [constructor; auto|]. constructor; auto.
    eapply Forall_impl; [|exact Hf]. simpl. lia.
  - destruct (Nat.eqb_spec x z); [constructor; auto|].
    constructor; auto. apply Forall_forall. intros y Hy. apply set_insert_in in Hy.
    destruct Hy as [->|Hy]; [lia|]. rewrite Forall_forall in Hf. auto.
Qed.

(** Relaxing a duplicate-free list of dependents. *)
Lemma relax_fold ds : forall indeg ready,
  NoDup ds -> (forall d, In d ds -> d < length indeg /\ nth d indeg 1 >= 1) ->
  StronglySorted lt ready ->
  let '(indeg', ready') := fold_left relax ds (indeg, ready) in
  length indeg' = length indeg /\
  (forall d, nth d indeg' 1 = if existsb (Nat.eqb d) ds then pred (nth d indeg 1) else nth d indeg 1) /\
  (forall d, In d ready' <-> In d ready \/ In d ds /\ nth d indeg 1 = 1) /\
  StronglySorted lt ready'.
Proof.
  induction ds as [|x ds IH]; intros indeg ready Hnd Hd Hs; simpl.
  { repeat split; auto. intros [H|[[] _]]; auto. }
  inversion Hnd as [|? ? Hx Hnd']; subst.
  destruct (Hd x (or_introl eq_refl)) as [Hx1 Hx2].
  set (indeg1 := update indeg x pred).
  set (ready1 := if Nat.eqb (nth x indeg1 1) 0 then set_insert x ready else ready).
  assert (Hn1 : forall j, nth j indeg1 1 = if Nat.eqb j x then pred (nth x indeg 1) else nth j indeg 1).
  { intros j. unfold indeg1. apply update_nth. auto. }
  specialize (IH indeg1 ready1 Hnd').
  destruct (fold_left relax ds (indeg1, ready1)) as [indeg' ready'].
  destruct IH as (I1&I2&I3&I4).
  - intros d Hd'. unfold indeg1 at 1. rewrite update_length. rewrite Hn1.
    assert (d <> x) by (intros ->; auto).
    apply Nat.eqb_neq in H. rewrite H. apply Hd. right; auto.
  - unfold ready1. destruct Nat.eqb; auto using set_insert_sorted.
  - split; [unfold indeg1 in I1; rewrite update_length in I1; auto|].
    split; [|split; auto].
    + intros d. rewrite I2, Hn1. simpl.
      destruct (Nat.eqb_spec d x); simpl; auto. subst.
      destruct (existsb (Nat.eqb x) ds) eqn:E; auto. apply existsb_nat in E. contradiction.
    + intros d. rewrite I3, Hn1. unfold ready1. rewrite Hn1, Nat.eqb_refl.
      destruct (Nat.eqb_spec (pred (nth x indeg 1)) 0) as [E|E].
      * rewrite set_insert_in. destruct (Nat.eqb_spec d x).
        -- subst. split; auto. intros _. right. split; [left; auto|lia].
        -- simpl. split; [intros [[?|?]|[? ?]]|intros [?|[[?|?] ?]]]; auto; try congruence.
      * destruct (Nat.eqb_spec d x).
        -- subst. split; [intros [?|[? ?]]|intros [?|[? ?]]]; auto; try lia; try contradiction.
        -- simpl. split; [intros [?|[? ?]]|intros [?|[[?|?] ?]]]; auto; congruence.
Qed.

Lemma edges_of_in i d : In d (edges_of es i) <-> In (i, d) es.
Proof.
  unfold edges_of. rewrite in_map_iff. split.
  - intros [[a b] [H1 H2]]. apply filter_In in H2. destruct H2 as [H2 H3].
    apply Nat.eqb_eq in H3. simpl in *. subst. auto.
  - intros H. exists (i, d). split; auto. apply filter_In. simpl. rewrite Nat.eqb_refl. auto.
Qed.

Lemma edges_of_nodup i : NoDup (edges_of es i).
Proof.
  unfold edges_of. clear es_down. induction es_nodup as [|[a b] l Hn Hl IH]; simpl; [constructor|].
  destruct (Nat.eqb_spec a i); simpl; auto. constructor; auto.
  intros H. apply in_map_iff in H. destruct H as [[a' b'] [H1 H2]]. apply filter_In in H2.
  destruct H2 as [H2 H3]. apply Nat.eqb_eq in H3. simpl in *. subst. auto.
Qed.

Lemma remaining_snoc out i d :
  ~ In i out ->
  remaining (out ++ [i]) d = if existsb (Nat.eqb d) (edges_of es i) then pred (remaining out d) else remaining out d.
Proof.
  intros Hi. unfold remaining.
  assert (G : forall l, NoDup l ->
     length (filter (fun e => Nat.eqb (snd e) d && negb (existsb (Nat.eqb (fst e)) out)) l) =
     length (filter (fun e => Nat.eqb (snd e) d && negb (existsb (Nat.eqb (fst e)) (out ++ [i]))) l)
     + if existsb (fun e => Nat.eqb (fst e) i && Nat.eqb (snd e) d) l then 1 else 0).
  { induction 1 as [|[a b] l Hn Hl IH]; simpl; auto.
    rewrite existsb_app. simpl. rewrite orb_false_r.
    destruct (Nat.eqb_spec b d); simpl; [|rewrite andb_false_r; simpl; auto].
    destruct (Nat.eqb_spec a i).
    - subst. assert (E : existsb (Nat.eqb i) out = false).
      { apply not_true_is_false. rewrite existsb_nat. auto. }
      rewrite E. simpl.
      assert (E2 : existsb (fun e : nat * nat => Nat.eqb (fst e) i && Nat.eqb (snd e) d) l = false).
      { apply not_true_is_false. intros E2. apply existsb_exists in E2.
        destruct E2 as [[x y] [H1 H2]]. apply andb_true_iff in H2. rewrite !Nat.eqb_eq in H2.
        simpl in H2. destruct H2; subst. contradiction. }
      rewrite E2 in IH. lia.
    - rewrite orb_false_r. simpl. destruct (existsb (Nat.eqb a) out); simpl; lia. }
  rewrite (G es es_nodup).
  assert (Eq : existsb (fun e => Nat.eqb (fst e) i && Nat.eqb (snd e) d) es = existsb (Nat.eqb d) (edges_of es i)).
  { apply eq_true_iff_eq. rewrite existsb_nat, edges_of_in, existsb_exists. split.
    - intros [[x y] [H1 H2]]. apply andb_true_iff in H2. rewrite !Nat.eqb_eq in H2.
      simpl in H2. destruct H2; subst. auto.
    - intros H. exists (i, d). simpl. rewrite !Nat.eqb_refl. auto. }
  rewrite Eq. destruct (existsb (Nat.eqb d) (edges_of es i)); simpl; lia.
Qed.

Lemma remaining_pos out i d : ~ In i out -> In (i, d) es -> remaining out d >= 1.
Proof.
  intros H1 H2. destruct (remaining out d) eqn:E; [|lia].
  exfalso. apply H1. eapply (proj1 (remaining_zero out d)); eauto.
Qed.

(** The [k]-th output is the least index, not yet output, all of whose supports are output. *)
Definition greedy (out : list nat) : Prop :=
  forall k i, nth_error out k = Some i ->
    (forall s, In (s, i) es -> In s (firstn k out)) /\
    (forall j, j < i -> ~ In j (firstn k out) -> exists s, In (s, j) es /\ ~ In s (firstn k out)).

Lemma greedy_snoc out i :
  greedy out -> (forall s, In (s, i) es -> In s out) ->
  (forall j, j < i -> ~ In j out -> exists s, In (s, j) es /\ ~ In s out) ->
  greedy (out ++ [i]).
Proof.
  intros G H1 H2 k x Hk.
  destruct (Nat.lt_ge_cases k (length out)).
  - rewrite nth_error_app1 in Hk by auto. rewrite firstn_app.
    replace (k - length out) with 0 by lia. simpl. rewrite app_nil_r. apply G; auto.
  - rewrite nth_error_app2 in Hk by auto.
    destruct (k - length out) as [|m] eqn:E; simpl in Hk; [|destruct m; discriminate].
    inversion Hk; subst x. assert (k = length out) by lia. subst k.
    rewrite firstn_app, Nat.sub_diag, firstn_all. simpl. rewrite app_nil_r. auto.
Qed.

Lemma kahn_step indeg i rest out :
  kinv indeg (i :: rest) out ->
  let '(indeg', ready') := fold_left relax (edges_of es i) (indeg, rest) in
  kinv indeg' ready' (out ++ [i]).
Proof.
  intros [K1 [K2 K2'] K3 K4 K5 K6].
  destruct (proj1 (K4 i) (or_introl eq_refl)) as (Hi1&Hi2&Hi3).
  inversion K5 as [|? ? Hs Hf]; subst.
  pose proof (relax_fold (edges_of es i) indeg rest (edges_of_nodup i)) as R.
  destruct (fold_left relax (edges_of es i) (indeg, rest)) as [indeg' ready'].
  destruct R as (R1&R2&R3&R4); auto.
  { intros d Hd. apply edges_of_in in Hd. destruct (es_down _ _ Hd).
    split; [lia|]. rewrite K3 by lia. eapply remaining_pos; eauto. }
  assert (Hirest : ~ In i rest).
  { rewrite Forall_forall in Hf. intros H. specialize (Hf _ H). lia. }
  constructor; auto.
  - lia.
  - split; [apply NoDup_snoc; auto|]. intros j Hj. apply in_app_iff in Hj.
    destruct Hj as [?|[->|[]]]; auto.
  - intros d Hd. rewrite R2, remaining_snoc, K3; auto.
  - intros d. rewrite R3, in_app_iff. simpl. rewrite remaining_snoc by auto.
    split.
    + intros [H|[H H']].
      * destruct (proj1 (K4 d) (or_intror H)) as (?&?&E). split; auto. split.
        -- intros [?|[->|[]]]; auto.
        -- rewrite E. destruct existsb; auto.
      * pose proof H as He. apply edges_of_in in H. destruct (es_down _ _ H).
        split; [lia|]. split.
        -- intros [Ho|[->|[]]]; [|lia]. apply Hi2. eapply K6; eauto.
        -- apply existsb_nat in He. rewrite He, <- K3 by lia. rewrite H'. auto.
    + intros (H1&H2&H3).
      destruct (existsb (Nat.eqb d) (edges_of es i)) eqn:E.
      * apply existsb_nat in E. right. split; auto. rewrite K3 by auto.
        apply edges_of_in in E.
        assert (remaining out d >= 1) by (eapply remaining_pos; eauto). lia.
      * left. assert (In d (i :: rest)) by (apply K4; repeat split; auto). simpl in H. intuition.
  - intros j s Hj Hs'. apply in_app_iff in Hj. apply in_app_iff. left.
    destruct Hj as [Hj|[<-|[]]]; eauto. eapply (proj1 (remaining_zero out i)); eauto.
Qed.

Lemma nodup_bound (l : list nat) : NoDup l -> (forall i, In i l -> i < n) -> length l <= n.
Proof.
  intros H1 H2. rewrite <- (seq_length n 0). apply NoDup_incl_length; auto.
  intros i Hi. apply in_seq. specialize (H2 _ Hi). lia.
Qed.

Lemma kahn_spec fuel : forall indeg ready out,
  kinv indeg ready out -> greedy out -> n <= fuel + length out ->
  exists res, kahn fuel es indeg ready out = Some res /\ greedy res /\
    Permutation res (seq 0 n).
Proof.
  induction fuel as [|fuel IH]; intros indeg ready out K G F.
  - destruct ready as [|i rest]; simpl.
    + exists out. split; auto. split; auto.
      destruct K as [K1 [K2 K2'] K3 K4 K5 K6].
      apply NoDup_Permutation_bis; auto.
      * rewrite seq_length. lia.
      * intros i Hi. apply in_seq. specialize (K2' _ Hi). lia.
    + exfalso. destruct K as [K1 [K2 K2'] K3 K4 K5 K6].
      destruct (proj1 (K4 i) (or_introl eq_refl)) as (Hi1&Hi2&Hi3).
      assert (length (i :: out) <= n).
      { apply nodup_bound; [constructor; auto|]. intros j [<-|Hj]; auto. }
      simpl in H. lia.
  - destruct ready as [|i rest]; simpl.
    + exists out. split; auto. split; auto.
      destruct K as [K1 [K2 K2'] K3 K4 K5 K6].
      apply NoDup_Permutation; auto using seq_NoDup.
      intros i. rewrite in_seq. split; [intros H; specialize (K2' _ H); lia|].
      (* every index is eventually output: strong induction from above *)
      assert (All : forall m d, n - d <= m -> d < n -> In d out).
      { induction m as [|m IHm]; intros d Hm Hd; [lia|].
        destruct (in_dec Nat.eq_dec d out) as [?|Hn]; auto. exfalso.
        apply (proj2 (K4 d)). split; auto. split; auto.
        apply remaining_zero. intros s Hs. destruct (es_down _ _ Hs). apply IHm; lia. }
      intros [_ H]. apply (All n); lia.
    + pose proof (kahn_step _ _ _ _ K) as K'.
      destruct (fold_left relax (edges_of es i) (indeg, rest)) as [indeg' ready'].
      apply IH; auto.
      * apply greedy_snoc; auto.
        -- destruct K as [K1 [K2 K2'] K3 K4 K5 K6].
           destruct (proj1 (K4 i) (or_introl eq_refl)) as (Hi1&Hi2&Hi3).
           apply remaining_zero. auto.
        -- destruct K as [K1 [K2 K2'] K3 K4 K5 K6].
           destruct (proj1 (K4 i) (or_introl eq_refl)) as (Hi1&Hi2&Hi3).
           intros j Hj Hn.
           destruct (Nat.eq_dec (remaining out j) 0) as [E|E].
           ++ exfalso. assert (Hin : In j (i :: rest)) by (apply K4; repeat split; auto; lia).
              inversion K5 as [|? ? Hs Hf]; subst. destruct Hin as [->|Hin]; [lia|].
              rewrite Forall_forall in Hf. specialize (Hf _ Hin). lia.
           ++ unfold remaining in E.
              destruct (filter (fun e => Nat.eqb (snd e) j && negb (existsb (Nat.eqb (fst e)) out)) es)
                as [|[s x] l] eqn:Ef; [simpl in E; lia|].
              assert (Hin : In (s, x) (filter (fun e => Nat.eqb (snd e) j && negb (existsb (Nat.eqb (fst e)) out)) es))
                by (rewrite Ef; left; auto).
              apply filter_In in Hin. destruct Hin as [H1 H2]. simpl in H2.
              apply andb_true_iff in H2. rewrite Nat.eqb_eq in H2. destruct H2 as [-> H2].
              exists s. split; auto. intros Hs. apply existsb_nat in Hs. rewrite Hs in H2. discriminate.
      * rewrite app_length. simpl. lia.
Qed.

Lemma indegree0_nth d : d < n -> nth d (indegree0 es n) 1 = remaining [] d.
Proof.
  intros H. unfold indegree0.
  erewrite nth_error_nth; [|rewrite nth_error_map, nth_error_nth' with (d := 0) by (rewrite seq_length; auto);
    rewrite seq_nth by auto; reflexivity].
  unfold remaining. f_equal. simpl.
  apply filter_ext. intros e. rewrite andb_true_r. reflexivity.
Qed.

Lemma combine_sorted {B} (l : list B) f : forall k,
  StronglySorted lt (map fst (filter f (combine (seq k (length l)) l))).
Proof.
  induction l as [|x l IH]; intros k; simpl; [constructor|].
  destruct (f (k, x)); simpl; auto. constructor; auto.
  apply Forall_forall. intros y Hy. apply in_map_iff in Hy. destruct Hy as [[a b] [<- H]].
  apply filter_In in H. destruct H as [H _]. apply in_combine_l in H. apply in_seq in H. simpl. lia.
Qed.

Lemma kinv_init : kinv (indegree0 es n) (ready0 (indegree0 es n)) [].
Proof.
  assert (L : length (indegree0 es n) = n) by (unfold indegree0; rewrite map_length, seq_length; auto).
  constructor; auto.
  - split; [constructor|intros i []].
  - apply indegree0_nth.
  - intros d. unfold ready0. rewrite in_map_iff. split.
    + intros [[i x] [H1 H2]]. simpl in H1. subst i. apply filter_In in H2. destruct H2 as [H2 H3].
      simpl in H3. apply Nat.eqb_eq in H3. subst x. apply indexed_in in H2.
      assert (Hd : d < n) by (rewrite <- L; apply nth_error_Some; congruence).
      split; auto. split; [intros []|]. rewrite <- indegree0_nth by auto.
      apply nth_error_nth; auto.
    + intros (H1&_&H2). exists (d, 0). split; auto. apply filter_In. split; auto.
      apply indexed_in. rewrite <- H2, <- indegree0_nth by auto. apply nth_error_nth'. lia.
  - unfold ready0, indexed. apply combine_sorted.
Qed.

End Kahn.

Lemma unit_support_order_none cs :
  unit_support_order eqb cs = NoOrder <-> (forall s d, ~ late_support cs s d).
Proof.
  unfold unit_support_order.
  destruct (all_edges eqb cs) as [|[s0 d0] es] eqn:E.
  - split; auto. intros _ s d H. apply all_edges_in in H. rewrite E in H. destruct H.
  - assert (H0 : late_support cs s0 d0) by (apply all_edges_in; rewrite E; left; auto).
    rewrite <- E.
    assert (Hdown : forall s d, In (s, d) (all_edges eqb cs) -> d < s /\ s < length cs).
    { intros s d H. apply all_edges_in in H. destruct H as [H1 (cd&csup&H2&H3&_)].
      split; auto. apply nth_error_Some. congruence. }
    destruct (kahn_spec _ (length cs) (all_edges_nodup cs) Hdown (length cs) _ _ []
               (kinv_init _ _ )) as (res&R1&R2&R3).
    { intros k i H. destruct k; discriminate. }
    { simpl. lia. }
    rewrite R1. split; [|intros H; exfalso; eapply H; eauto].
    pose proof (Permutation_length R3) as L. rewrite seq_length in L.
    rewrite L, Nat.eqb_refl. simpl.
    destruct list_eq_dec as [->|]; [|discriminate]. intros _ s d H.
    exfalso. destruct (Hdown s d) as [D1 D2]; [apply all_edges_in; auto|].
    destruct (R2 d d) as [G _].
    { rewrite nth_error_nth' with (d := 0) by (rewrite seq_length; lia). rewrite seq_nth; auto. lia. }
    assert (In s (firstn d (seq 0 (length cs)))) by (apply G, all_edges_in; auto).
    apply In_nth with (d := 0) in H1. destruct H1 as [k [K1 K2]].
    rewrite firstn_length, seq_length in K1.
    assert (nth k (seq 0 (length cs)) 0 = s).
    { rewrite <- (firstn_skipn d (seq 0 (length cs))). rewrite app_nth1; auto.
      rewrite firstn_length, seq_length. auto. }
    rewrite seq_nth in H1 by lia. lia.
Qed.

Lemma unit_support_order_fuel cs : unit_support_order eqb cs <> OutOfFuel.
Proof.
  unfold unit_support_order.
  destruct (all_edges eqb cs) as [|[s0 d0] es] eqn:E; [discriminate|].
  rewrite <- E.
  assert (Hdown : forall s d, In (s, d) (all_edges eqb cs) -> d < s /\ s < length cs).
  { intros s d H. apply all_edges_in in H. destruct H as [H1 (cd&csup&H2&H3&_)].
    split; auto. apply nth_error_Some. congruence. }
  destruct (kahn_spec _ (length cs) (all_edges_nodup cs) Hdown (length cs) _ _ []
             (kinv_init _ _ )) as (res&R1&R2&R3).
  { intros k i H. destruct k; discriminate. }
  { simpl. lia. }
  rewrite R1. destruct negb; [discriminate|]. destruct list_eq_dec; discriminate.
Qed.

Lemma unit_support_order_some cs out :
  unit_support_order eqb cs = Order out ->
  Permutation out (seq 0 (length cs)) /\
  forall k i, nth_error out k = Some i ->
    (forall s, late_support cs s i -> In s (firstn k out)) /\
    (forall j, j < i -> ~ In j (firstn k out) ->
       exists s, late_support cs s j /\ ~ In s (firstn k out)).
Proof.
  unfold unit_support_order.
  destruct (all_edges eqb cs) as [|[s0 d0] es] eqn:E; [discriminate|].
  rewrite <- E.
  assert (Hdown : forall s d, In (s, d) (all_edges eqb cs) -> d < s /\ s < length cs).
  { intros s d H. apply all_edges_in in H. destruct H as [H1 (cd&csup&H2&H3&_)].
    split; auto. apply nth_error_Some. congruence. }
  destruct (kahn_spec _ (length cs) (all_edges_nodup cs) Hdown (length cs) _ _ []
             (kinv_init _ _ )) as (res&R1&R2&R3).
  { intros k i H. destruct k; discriminate. }
  { simpl. lia. }
  rewrite R1. destruct negb; [discriminate|]. destruct list_eq_dec; [discriminate|].
  intros H. inversion H; subst res. split; auto.
  intros k i Hk. destruct (R2 k i Hk) as [G1 G2]. split.
  - intros s Hs. apply G1. apply all_edges_in; auto.
  - intros j Hj Hn. destruct (G2 j Hj Hn) as (s&S1&S2). exists s. split; auto. apply all_edges_in; auto.
Qed.

End OrderP.
