(** C38: the order of the scores (prover/score.rs). *)
From Coq Require Import List Arith NArith ZArith Bool Lia.
Import ListNotations.
From Verif Require Import Score.

(** A comparison that is a total order up to what it calls equal. *)
Record total_order {A} (cmp : A -> A -> comparison) : Prop := {
  o_refl : forall a, cmp a a = Eq;
  o_anti : forall a b, cmp b a = CompOpp (cmp a b);
  o_trans : forall a b c r, cmp a b = r -> cmp b c = r -> cmp a c = r;
  o_eq_l : forall a b c, cmp a b = Eq -> cmp a c = cmp b c
}.
Lemma order_from_rank {A} (f : A -> Z) (cmp : A -> A -> comparison) : (forall a b, cmp a b = Z.compare (f a) (f b)) -> total_order cmp.
Proof.
  intros H. constructor; intros; rewrite !H in *.
  - apply Z.compare_refl.
  - apply Z.compare_antisym.
  - destruct r; rewrite ?Z.compare_eq_iff, ?Z.compare_lt_iff, ?Z.compare_gt_iff in *; lia.
  - rewrite Z.compare_eq_iff in H0. congruence.
Qed.
Lemma order_lex {A B C} (ca : A -> A -> comparison) (cb : B -> B -> comparison) (f : C -> A) (g : C -> B) :
  total_order ca -> total_order cb -> total_order (fun x y => then_cmp (ca (f x) (f y)) (cb (g x) (g y))).
Proof.
  intros HA HB. constructor.
  - intros a. rewrite (o_refl _ HA), (o_refl _ HB). reflexivity.
  - intros a b. rewrite (o_anti _ HA (f a) (f b)), (o_anti _ HB (g a) (g b)). destruct (ca (f a) (f b)); reflexivity.
  - intros a b c r H1 H2. destruct (ca (f a) (f b)) eqn:E1; simpl in H1.
    + rewrite (o_eq_l _ HA _ _ (f c) E1). destruct (ca (f b) (f c)) eqn:E2; simpl in *; auto. eapply (o_trans _ HB); eauto.
    + subst r. destruct (ca (f b) (f c)) eqn:E2; simpl in H2; try discriminate.
      * assert (Q : ca (f c) (f b) = Eq) by (rewrite (o_anti _ HA (f b) (f c)), E2; reflexivity).
        rewrite (o_anti _ HA (f c) (f a)), (o_eq_l _ HA _ _ (f a) Q), (o_anti _ HA (f a) (f b)), E1. reflexivity.
      * rewrite (o_trans _ HA _ _ _ _ E1 E2). reflexivity.
    + subst r. destruct (ca (f b) (f c)) eqn:E2; simpl in H2; try discriminate.
      * assert (Q : ca (f c) (f b) = Eq) by (rewrite (o_anti _ HA (f b) (f c)), E2; reflexivity).
        rewrite (o_anti _ HA (f c) (f a)), (o_eq_l _ HA _ _ (f a) Q), (o_anti _ HA (f a) (f b)), E1. reflexivity.
      * rewrite (o_trans _ HA _ _ _ _ E1 E2). reflexivity.
  - intros a b c H. destruct (ca (f a) (f b)) eqn:E; simpl in H; try discriminate.
    rewrite (o_eq_l _ HA _ _ (f c) E), (o_eq_l _ HB _ _ (g c) H). reflexivity.
Qed.
Lemma fvalue_bound b : (- 2147483647 <= fvalue b <= 2147483647)%Z.
Proof.
  unfold fvalue. assert (H : (N.land b 2147483647 < 2147483648)%N).
  { change 2147483647%N with (N.ones 31). rewrite N.land_ones. apply N.mod_lt. discriminate. }
  destruct (N.testbit b 31); lia.
Qed.
Lemma float_order : total_order float_cmp.
Proof.
  apply (order_from_rank (fun a => if is_nan a then 2147483648%Z else fvalue a)).
  intros a b. unfold float_cmp. pose proof (fvalue_bound a). pose proof (fvalue_bound b).
  destruct (is_nan a), (is_nan b); auto; symmetry; [apply Z.compare_gt_iff|apply Z.compare_lt_iff]; lia.
Qed.
Lemma status_order : total_order status_cmp.
Proof. apply (order_from_rank (fun a => Z.of_nat (status_rank a))). intros a b. unfold status_cmp. symmetry. apply Nat2Z.inj_compare. Qed.
Lemma bool_order : total_order bool_cmp.
Proof. apply (order_from_rank (fun a : bool => if a then 1%Z else 0%Z)). intros [] []; reflexivity. Qed.
Lemma key_order : total_order key_cmp.
Proof.
  unfold key_cmp. apply (order_lex bool_cmp (fun a b : score_key => then_cmp (status_cmp (k_status a) (k_status b)) (float_cmp (k_score a) (k_score b))) k_contradiction (fun k => k)).
  - exact bool_order.
  - apply (order_lex status_cmp float_cmp k_status k_score); [exact status_order|exact float_order].
Qed.

(** The order of scores is total, for every value of the float, NaN included. *)
Theorem score_order_total : total_order score_cmp.
Proof.
  destruct key_order as [A B C D]. constructor; unfold score_cmp; intros; eauto.
Qed.
Print Assumptions score_order_total.

(** The number that the bits stand for by IEEE 754, in units of the smallest subnormal times one half; infinity
    continues the sequence. *)
Definition ieee (b : f32) : Z :=
  let m := Z.of_N (N.land b 2147483647) in
  let e := (m / 8388608)%Z in
  let f := (m mod 8388608)%Z in
  let v := (if e =? 0 then f * 2 else (f + 8388608) * 2 ^ e)%Z in
  if N.testbit b 31 then Z.opp v else v.
Lemma ieee_mono m m' : (0 <= m < m')%Z ->
  ((if m / 8388608 =? 0 then m mod 8388608 * 2 else (m mod 8388608 + 8388608) * 2 ^ (m / 8388608)) <
   (if m' / 8388608 =? 0 then m' mod 8388608 * 2 else (m' mod 8388608 + 8388608) * 2 ^ (m' / 8388608)))%Z.
Proof.
  intros H. assert (P : (0 < 8388608)%Z) by reflexivity.
  pose proof (Z.div_mod m 8388608 ltac:(discriminate)) as D. pose proof (Z.div_mod m' 8388608 ltac:(discriminate)) as D'.
  pose proof (Z.mod_pos_bound m 8388608 P) as B. pose proof (Z.mod_pos_bound m' 8388608 P) as B'.
  pose proof (Z.div_pos m 8388608 ltac:(lia) P) as E. pose proof (Z.div_le_mono m m' 8388608 P ltac:(lia)) as L.
  set (e := (m / 8388608)%Z) in *. set (e' := (m' / 8388608)%Z) in *. set (f := (m mod 8388608)%Z) in *. set (f' := (m' mod 8388608)%Z) in *.
  destruct (Z.eq_dec e e') as [Q|Q].
  - rewrite <- Q in *. destruct (Z.eqb_spec e 0); [lia|]. apply Z.mul_lt_mono_pos_r; [apply Z.pow_pos_nonneg; lia|lia].
  - assert (Le : (e + 1 <= e')%Z) by lia. destruct (Z.eqb_spec e' 0); [lia|].
    assert (Pw : (2 * 2 ^ e <= 2 ^ e')%Z) by (rewrite <- Z.pow_succ_r by auto; apply Z.pow_le_mono_r; lia).
    assert (P0 : (0 < 2 ^ e)%Z) by (apply Z.pow_pos_nonneg; lia).
    assert (A : (8388608 * 2 ^ e' <= (f' + 8388608) * 2 ^ e')%Z) by (apply Z.mul_le_mono_nonneg_r; lia).
    destruct (Z.eqb_spec e 0) as [Z0|Z0].
    + rewrite Z0 in *. change (2 ^ 0)%Z with 1%Z in *. lia.
    + assert (A2 : ((f + 8388608) * 2 ^ e < (2 * 8388608) * 2 ^ e)%Z) by (apply Z.mul_lt_mono_pos_r; lia). lia.
Qed.
Lemma ieee_zero m : (0 <= m)%Z -> ((if m / 8388608 =? 0 then m mod 8388608 * 2 else (m mod 8388608 + 8388608) * 2 ^ (m / 8388608)) = 0 <-> m = 0)%Z.
Proof.
  intros H. split; [|intros ->; reflexivity]. intros E. destruct (Z.eq_dec m 0); auto. pose proof (ieee_mono 0 m ltac:(lia)) as L.
  rewrite E in L. change (0 / 8388608 =? 0)%Z with true in L. cbn iota in L. rewrite Z.mod_0_l in L by discriminate. lia.
Qed.
(** Numbers are ordered by their values, NaN is above them all. *)
Theorem float_order_is_numeric : forall a b,
  (is_nan a = false -> is_nan b = false -> float_cmp a b = Z.compare (ieee a) (ieee b)) /\
  (is_nan a = true -> is_nan b = false -> float_cmp a b = Gt).
Proof.
  intros a b. split; intros Ha Hb; unfold float_cmp; rewrite Ha, Hb; [|reflexivity].
  unfold fvalue, ieee. set (x := Z.of_N (N.land a 2147483647)). set (y := Z.of_N (N.land b 2147483647)).
  assert (Hx : (0 <= x)%Z) by (unfold x; lia). assert (Hy : (0 <= y)%Z) by (unfold y; lia).
  set (v := fun m : Z => (if m / 8388608 =? 0 then m mod 8388608 * 2 else (m mod 8388608 + 8388608) * 2 ^ (m / 8388608))%Z).
  change (Z.compare (if N.testbit a 31 then - x else x) (if N.testbit b 31 then - y else y) = Z.compare (if N.testbit a 31 then - v x else v x) (if N.testbit b 31 then - v y else v y))%Z.
  assert (M : forall m m', (0 <= m)%Z -> (0 <= m')%Z -> Z.compare m m' = Z.compare (v m) (v m')).
  { intros m m' H H'. destruct (Z.compare_spec m m') as [->|L|L]; symmetry; [apply Z.compare_refl|apply Z.compare_lt_iff, ieee_mono; lia|apply Z.compare_gt_iff, ieee_mono; lia]. }
  assert (P : forall m, (0 <= m)%Z -> (0 <= v m)%Z /\ (v m = 0 <-> m = 0)%Z).
  { intros m H. split; [|apply ieee_zero, H]. destruct (Z.eq_dec m 0) as [->|N]; [discriminate|]. pose proof (ieee_mono 0 m ltac:(lia)) as L. change (v 0 < v m)%Z in L. change (v 0)%Z with 0%Z in L. lia. }
  destruct (P x Hx) as [P1 P2], (P y Hy) as [P3 P4].
  destruct (N.testbit a 31), (N.testbit b 31).
  - rewrite !Z.compare_opp. apply M; auto.
  - destruct (Z.eq_dec x 0) as [X|X], (Z.eq_dec y 0) as [Y|Y].
    + rewrite (proj2 P2 X), (proj2 P4 Y), X, Y. reflexivity.
    + rewrite (proj2 (Z.compare_lt_iff _ _)) by lia. symmetry. apply Z.compare_lt_iff. assert (v y <> 0)%Z by tauto. lia.
    + rewrite (proj2 (Z.compare_lt_iff _ _)) by lia. symmetry. apply Z.compare_lt_iff. assert (v x <> 0)%Z by tauto. lia.
    + rewrite (proj2 (Z.compare_lt_iff _ _)) by lia. symmetry. apply Z.compare_lt_iff. assert (v x <> 0)%Z by tauto. lia.
  - destruct (Z.eq_dec x 0) as [X|X], (Z.eq_dec y 0) as [Y|Y].
    + rewrite (proj2 P2 X), (proj2 P4 Y), X, Y. reflexivity.
    + rewrite (proj2 (Z.compare_gt_iff _ _)) by lia. symmetry. apply Z.compare_gt_iff. assert (v y <> 0)%Z by tauto. lia.
    + rewrite (proj2 (Z.compare_gt_iff _ _)) by lia. symmetry. apply Z.compare_gt_iff. assert (v x <> 0)%Z by tauto. lia.
    + rewrite (proj2 (Z.compare_gt_iff _ _)) by lia. symmetry. apply Z.compare_gt_iff. assert (v x <> 0)%Z by tauto. lia.
  - apply M; auto.
Qed.
Print Assumptions float_order_is_numeric.

(** A step that is a contradiction outranks every step that is not, whatever the scoring model returns and
    however the two scores were computed. *)
Section R.
Context {other : Type}.
Inductive scored (fadd : f32 -> f32 -> f32) (jitter : features other -> f32) (p : policy) (f : features other) : score -> Prop :=
| sc_new model : scored fadd jitter p f (score_new fadd jitter model p f)
| sc_batch fs floats i s : nth_error fs i = Some f -> nth_error (score_batch fadd jitter p fs floats) i = Some s -> scored fadd jitter p f s.
Lemma batch_nth fadd jitter p : forall fs floats i f s, nth_error fs i = Some f -> nth_error (score_batch (other := other) fadd jitter p fs floats) i = Some s ->
  exists x, s = Score (Key (f_contradiction f) (shallow_order p f) x) (f_shallow f).
Proof.
  induction fs as [|g fs IH]; intros [|y floats] [|i] f s H H'; simpl in *; try discriminate.
  - injection H as ->. injection H' as <-. eauto.
  - eauto.
Qed.
Lemma scored_key fadd jitter p f s : scored fadd jitter p f s -> exists x, s = Score (Key (f_contradiction f) (shallow_order p f) x) (f_shallow f).
Proof. intros [m|fs fl i t H H']; [unfold score_new; destruct (f_contradiction f); eauto|eapply batch_nth; eauto]. Qed.
End R.
Theorem contradictions_outrank : forall (other : Type) fadd jitter p (f g : features other) a b,
  f_contradiction f = true -> f_contradiction g = false ->
  scored fadd jitter p f a -> scored fadd jitter p g b -> score_cmp a b = Gt.
Proof.
  intros other fadd jitter p f g a b Hf Hg Ha Hb. destruct (scored_key _ _ _ _ _ Ha) as [x ->]. destruct (scored_key _ _ _ _ _ Hb) as [y ->].
  rewrite Hf, Hg. reflexivity.
Qed.
Print Assumptions contradictions_outrank.
(** Otherwise the shallow status decides before the model does, unless the policy turns this off. *)
Theorem shallow_status_outranks : forall (other : Type) fadd jitter p (f g : features other) a b,
  p <> ModelNoShallow -> f_contradiction f = f_contradiction g -> status_rank (f_status g) < status_rank (f_status f) ->
  scored fadd jitter p f a -> scored fadd jitter p g b -> score_cmp a b = Gt.
Proof.
  intros other fadd jitter p f g a b Hp Hc Hs Ha Hb. destruct (scored_key _ _ _ _ _ Ha) as [x ->]. destruct (scored_key _ _ _ _ _ Hb) as [y ->].
  unfold score_cmp, key_cmp, shallow_order. cbn. rewrite Hc. replace (bool_cmp (f_contradiction g) (f_contradiction g)) with Eq by (destruct (f_contradiction g); auto).
  assert (U : uses_shallow_ordering p = true) by (destruct p; auto; congruence). rewrite U. simpl. unfold status_cmp.
  rewrite (proj2 (Nat.compare_gt_iff _ _) Hs). reflexivity.
Qed.
Print Assumptions shallow_status_outranks.
(** Every member of a batch gets its score if the model returns a number for each. *)
Theorem batch_scores_all : forall (other : Type) fadd jitter p (fs : list (features other)) floats,
  length floats = length fs -> length (score_batch fadd jitter p fs floats) = length fs.
Proof. intros other fadd jitter p. induction fs as [|f fs IH]; intros [|x fl] H; simpl in *; auto; discriminate. Qed.
Print Assumptions batch_scores_all.

(** one, minus one half, the smallest subnormal, minus zero *)
Example ieee_case : ieee 1065353216%N = (2 ^ 150)%Z /\ ieee 3204448256%N = (- 2 ^ 149)%Z /\ ieee 1%N = 2%Z /\ ieee 2147483648%N = 0%Z /\
  float_cmp 1065353216%N 3204448256%N = Gt /\ float_cmp 3204448256%N 3212836864%N = Gt.
Proof. vm_compute. auto 9. Qed.
(** a contradiction with the lowest number against a step for which the model returns infinity or NaN *)
Definition sc_f : features unit := Features _ true true Contradiction tt.
Definition sc_g : features unit := Features _ false true Unspent tt.
Definition sc_inf : f32 := 2139095040%N.
Definition sc_nan : f32 := 2143289344%N.
Definition sc_neg : f32 := 4278190080%N.
Example score_case :
  score_cmp (score_new (fun a _ => a) (fun _ => 0%N) (fun _ => sc_neg) ModelJitter sc_f) (score_new (fun a _ => a) (fun _ => 0%N) (fun _ => sc_nan) ModelJitter sc_g) = Gt /\
  is_nan sc_nan = true /\ is_nan sc_inf = false /\ float_cmp sc_nan sc_inf = Gt /\ float_cmp sc_inf sc_neg = Gt /\
  float_cmp 0%N 2147483648%N = Eq /\
  nth_error (score_batch (fun a _ => a) (fun _ => 0%N) ModelJitter [sc_g; sc_f] [sc_inf; sc_neg]) 1 = Some (Score (Key true Contradiction sc_neg) true).
Proof. repeat split; reflexivity. Qed.
(** The two ways to score a contradiction differ, so contradictions are ordered differently among themselves. *)
Theorem new_and_batch_agree_refuted : exists fadd jitter model (f : features unit),
  score_cmp (score_new fadd jitter model ModelPolicy f) (nth 0 (score_batch fadd jitter ModelPolicy [f] [model f]) (Score (Key true Contradiction 0%N) true)) <> Eq.
Proof. exists (fun a _ => a), (fun _ => 0%N), (fun _ => sc_inf), sc_f. discriminate. Qed.
Print Assumptions new_and_batch_agree_refuted.
