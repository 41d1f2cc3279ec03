From Coq Require Import List NArith Bool Lia.
Import ListNotations.
From Verif Require Import GoalPartition.
Open Scope N_scope.

Definition range_ok (r : range) : Prop := start r <= end_ r /\ end_ r < 100.

Definition plain (c : char) : bool := negb (is_ws c) && negb (c =? comma) && negb (c =? dash).
Definition plainish (c : char) : bool := negb (is_ws c) && negb (c =? comma).

Lemma all_below (P : N -> bool) (n : nat) :
  forallb P (map N.of_nat (seq 0 n)) = true -> forall k, k < N.of_nat n -> P k = true.
Proof.
  intros H k Hk. rewrite forallb_forall in H. apply H. apply in_map_iff.
  exists (N.to_nat k). split; [apply N2Nat.id|]. apply in_seq. lia.
Qed.

Definition opt_eqb (a b : option N) : bool :=
  match a, b with Some x, Some y => x =? y | None, None => true | _, _ => false end.

Lemma parse_show_u8 n : n < 100 -> parse_bucket (show_u8 n) = Some n.
Proof.
  intros H.
  assert (E : opt_eqb (parse_bucket (show_u8 n)) (Some n) = true).
  { apply (all_below (fun n => opt_eqb (parse_bucket (show_u8 n)) (Some n)) 100);
      [vm_compute; reflexivity|lia]. }
  unfold opt_eqb in E. destruct (parse_bucket (show_u8 n)); [|discriminate].
  apply N.eqb_eq in E. subst. reflexivity.
Qed.

Lemma show_u8_plain n : n < 100 -> forallb plain (show_u8 n) = true.
Proof.
  intros H. apply (all_below (fun n => forallb plain (show_u8 n)) 100); [vm_compute; reflexivity|lia].
Qed.

Lemma show_u8_nonempty n : show_u8 n <> [].
Proof. unfold show_u8. destruct (n <? 10), (n <? 100); discriminate. Qed.

Lemma trim_start_id s : (forall c r, s = c :: r -> is_ws c = false) -> trim_start s = s.
Proof. destruct s as [|c r]; auto. intros H. simpl. rewrite (H c r); auto. Qed.

Lemma trim_id s : forallb (fun c => negb (is_ws c)) s = true -> trim s = s.
Proof.
  intros H. unfold trim. rewrite (trim_start_id s), (trim_start_id (rev s)), rev_involutive; auto.
  - intros c r E. rewrite forallb_forall in H.
    apply negb_true_iff, H. apply in_rev. rewrite E. left; auto.
  - intros c r E. subst. simpl in H. apply andb_true_iff in H. apply negb_true_iff. tauto.
Qed.

Lemma forallb_impl {A} (p q : A -> bool) l :
  (forall x, p x = true -> q x = true) -> forallb p l = true -> forallb q l = true.
Proof. intros H. rewrite !forallb_forall. auto. Qed.

Lemma plain_ws c : plain c = true -> negb (is_ws c) = true.
Proof. unfold plain. rewrite !andb_true_iff. tauto. Qed.
Lemma plain_plainish c : plain c = true -> plainish c = true.
Proof. unfold plain, plainish. rewrite !andb_true_iff. tauto. Qed.
Lemma plainish_ws c : plainish c = true -> negb (is_ws c) = true.
Proof. unfold plainish. rewrite !andb_true_iff. tauto. Qed.

Lemma split_once_none s : forallb plain s = true -> split_once dash s = None.
Proof.
  induction s as [|c s IH]; simpl; auto. intros H. apply andb_true_iff in H. destruct H as [H1 H2].
  unfold plain in H1. rewrite !andb_true_iff, !negb_true_iff in H1. destruct H1 as [_ H1].
  rewrite H1, IH; auto.
Qed.

Lemma split_once_some a b : forallb plain a = true -> split_once dash (a ++ dash :: b) = Some (a, b).
Proof.
  induction a as [|c a IH]; simpl; auto. intros H. apply andb_true_iff in H. destruct H as [H1 H2].
  unfold plain in H1. rewrite !andb_true_iff, !negb_true_iff in H1. destruct H1 as [_ H1].
  rewrite H1, IH; auto.
Qed.

Lemma show_range_plainish r : range_ok r -> forallb plainish (show_range r) = true.
Proof.
  intros [H1 H2]. unfold show_range. destruct (N.eqb_spec (start r) (end_ r)).
  - eapply forallb_impl; [apply plain_plainish|]. apply show_u8_plain. lia.
  - rewrite forallb_app. simpl. apply andb_true_iff. split.
    + eapply forallb_impl; [apply plain_plainish|]. apply show_u8_plain. lia.
    + eapply forallb_impl; [apply plain_plainish|]. apply show_u8_plain. lia.
Qed.

Lemma show_range_nonempty r : show_range r <> [].
Proof.
  unfold show_range. destruct (_ =? _); [apply show_u8_nonempty|].
  intros H. apply app_eq_nil in H. destruct H as [H _]. eapply show_u8_nonempty; eauto.
Qed.

Lemma parse_show_range r : range_ok r -> parse_part (show_range r) = Some r.
Proof.
  intros Hr. pose proof (show_range_plainish r Hr) as Hp. destruct Hr as [H1 H2].
  unfold parse_part. rewrite trim_id by (eapply forallb_impl; [apply plainish_ws|auto]).
  destruct (show_range r) as [|c0 s0] eqn:E; [exfalso; eapply show_range_nonempty; eauto|].
  rewrite <- E. clear Hp E c0 s0. unfold show_range.
  destruct (N.eqb_spec (start r) (end_ r)) as [e|e].
  - rewrite split_once_none by (apply show_u8_plain; lia).
    rewrite parse_show_u8 by lia. rewrite N.ltb_irrefl. destruct r; simpl in *; subst; auto.
  - simpl. rewrite split_once_some by (apply show_u8_plain; lia).
    rewrite !parse_show_u8 by lia.
    destruct (N.ltb_spec (end_ r) (start r)); [lia|]. destruct r; auto.
Qed.

Lemma split_plainish s : forallb plainish s = true -> split comma s = [s].
Proof.
  induction s as [|c s IH]; simpl; auto. intros H. apply andb_true_iff in H. destruct H as [H1 H2].
  unfold plainish in H1. rewrite andb_true_iff, !negb_true_iff in H1. destruct H1 as [_ H1].
  rewrite H1, IH; auto.
Qed.

Lemma split_app s r : forallb plainish s = true -> split comma (s ++ comma :: r) = s :: split comma r.
Proof.
  induction s as [|c s IH]; simpl; auto. intros H. apply andb_true_iff in H. destruct H as [H1 H2].
  unfold plainish in H1. rewrite andb_true_iff, !negb_true_iff in H1. destruct H1 as [_ H1].
  rewrite H1, IH; auto.
Qed.

Lemma show_no_ws f : Forall range_ok f -> forallb (fun c => negb (is_ws c)) (show f) = true.
Proof.
  induction 1 as [|r f Hr Hf IH]; [reflexivity|]. destruct f as [|r' f].
  - simpl. eapply forallb_impl; [apply plainish_ws|]. apply show_range_plainish; auto.
  - change (show (r :: r' :: f)) with (show_range r ++ [comma] ++ show (r' :: f)).
    rewrite !forallb_app. rewrite IH. simpl. rewrite andb_true_r.
    eapply forallb_impl; [apply plainish_ws|]. apply show_range_plainish; auto.
Qed.

Lemma split_show f : f <> [] -> Forall range_ok f -> split comma (show f) = map show_range f.
Proof.
  intros Hn. induction 1 as [|r f Hr Hf IH]; [congruence|]. destruct f as [|r' f].
  - simpl. apply split_plainish. apply show_range_plainish; auto.
  - change (show (r :: r' :: f)) with (show_range r ++ comma :: show (r' :: f)).
    rewrite split_app by (apply show_range_plainish; auto).
    rewrite IH by discriminate. reflexivity.
Qed.

Lemma parse_parts_show f : Forall range_ok f -> parse_parts (map show_range f) = Some f.
Proof.
  induction 1 as [|r f Hr Hf IH]; simpl; auto. rewrite parse_show_range, IH; auto.
Qed.

Lemma show_nonempty f : f <> [] -> show f <> [].
Proof.
  destruct f as [|r [|r' f]]; [congruence| |]; intros _.
  - apply show_range_nonempty.
  - change (show (r :: r' :: f)) with (show_range r ++ [comma] ++ show (r' :: f)).
    intros H. apply app_eq_nil in H. destruct H as [H _]. eapply show_range_nonempty; eauto.
Qed.

Lemma parse_show f : f <> [] -> Forall range_ok f -> parse (show f) = Some f.
Proof.
  intros Hn Hf. unfold parse. rewrite trim_id by (apply show_no_ws; auto).
  destruct (show f) eqn:E; [exfalso; eapply show_nonempty; eauto|]. rewrite <- E.
  rewrite split_show by auto. apply parse_parts_show; auto.
Qed.

Lemma parse_bucket_lt s n : parse_bucket s = Some n -> n < 100.
Proof.
  unfold parse_bucket. destruct parse_u8; [|discriminate].
  destruct (N.leb_spec bucket_count n0); [discriminate|]. intros H'. inversion H'; subst.
  unfold bucket_count in *. auto.
Qed.

Lemma parse_part_ok p r : parse_part p = Some r -> range_ok r.
Proof.
  unfold parse_part. destruct (trim p) as [|c s]; [discriminate|].
  destruct (split_once dash (c :: s)) as [[a b]|].
  - destruct (parse_bucket a) eqn:Ea; [|discriminate].
    destruct (parse_bucket b) eqn:Eb; [|discriminate].
    destruct (N.ltb_spec n0 n); [discriminate|]. intros E. inversion E; subst.
    split; simpl; auto. eapply parse_bucket_lt; eauto.
  - destruct (parse_bucket (c :: s)) eqn:Ea; [|discriminate].
    destruct (N.ltb_spec n n); [discriminate|]. intros E. inversion E; subst.
    split; simpl; [lia|]. eapply parse_bucket_lt; eauto.
Qed.

Lemma parse_parts_ok ps f : parse_parts ps = Some f -> Forall range_ok f /\ length f = length ps.
Proof.
  revert f. induction ps as [|p ps IH]; simpl; intros f H.
  - inversion H; auto.
  - destruct (parse_part p) eqn:E; [|discriminate]. destruct (parse_parts ps) eqn:E2; [|discriminate].
    inversion H; subst. destruct (IH _ eq_refl). simpl. split; [constructor|congruence]; auto.
    eapply parse_part_ok; eauto.
Qed.

Lemma split_nonempty c s : split c s <> [].
Proof.
  destruct s; simpl; [discriminate|]. destruct (_ =? _); [discriminate|].
  destruct (split c s); discriminate.
Qed.

Lemma parse_ok s f : parse s = Some f -> f <> [] /\ Forall range_ok f.
Proof.
  unfold parse. destruct (trim s) as [|c r]; [discriminate|]. intros H.
  apply parse_parts_ok in H. destruct H as [H1 H2]. split; auto.
  intros ->. destruct (split comma (c :: r)) eqn:E; [eapply split_nonempty; eauto|discriminate].
Qed.

Lemma contains_spec f b :
  contains f b = true <-> exists r, In r f /\ start r <= b <= end_ r.
Proof.
  unfold contains. rewrite existsb_exists. unfold range_contains.
  split; intros [r [H1 H2]]; exists r; split; auto.
  - apply andb_true_iff in H2. rewrite !N.leb_le in H2. auto.
  - apply andb_true_iff. rewrite !N.leb_le. auto.
Qed.

(** Parsing accepts every way of writing a range list with padding. *)
Lemma trim_start_ws w s :
  forallb is_ws w = true -> trim_start (w ++ s) = trim_start s.
Proof.
  induction w as [|c w IH]; simpl; auto. intros H. apply andb_true_iff in H. destruct H as [H1 H2].
  rewrite H1. auto.
Qed.

Lemma trim_pad w1 s w2 :
  forallb is_ws w1 = true -> forallb is_ws w2 = true ->
  forallb (fun c => negb (is_ws c)) s = true -> s <> [] -> trim (w1 ++ s ++ w2) = s.
Proof.
  intros H1 H2 H3 H4. unfold trim. rewrite trim_start_ws by auto.
  rewrite (trim_start_id (s ++ w2)).
  - rewrite rev_app_distr, trim_start_ws.
    + rewrite trim_start_id, rev_involutive; auto.
      intros c r E. rewrite forallb_forall in H3. apply negb_true_iff, H3. apply in_rev. rewrite E. left; auto.
    + rewrite forallb_forall in *. intros c Hc. apply H2. apply in_rev. auto.
  - intros c r E. destruct s as [|c' s]; [congruence|]. simpl in E. inversion E; subst.
    simpl in H3. apply andb_true_iff in H3. apply negb_true_iff. tauto.
Qed.

(** * The written syntax, stated without the parser *)

Fixpoint value (acc : N) (ds : str) : N :=
  match ds with [] => acc | c :: r => value (acc * 10 + (c - 48)) r end.

Definition all_digits (ds : str) : Prop := Forall (fun c => 48 <= c <= 57) ds.

(** A written bucket: optional plus sign, decimal digits, value below 100. *)
Definition numeral (s : str) (n : N) : Prop :=
  exists ds, (s = ds \/ s = plus :: ds) /\ ds <> [] /\ all_digits ds /\ value 0 ds = n /\ n < 100.

Definition all_ws (w : str) : Prop := Forall (fun c => is_ws c = true) w.

(** A written bucket surrounded by white space. *)
Definition bucket_text (s : str) (n : N) : Prop :=
  exists w1 x w2, s = w1 ++ x ++ w2 /\ all_ws w1 /\ all_ws w2 /\ numeral x n.

(** A written entry: one bucket, or two buckets separated by a dash. *)
Inductive entry_text : str -> range -> Prop :=
| entry_one s n : bucket_text s n -> entry_text s (Range n n)
| entry_two a b m n : bucket_text a m -> bucket_text b n -> m <= n ->
    entry_text (a ++ dash :: b) (Range m n).

Fixpoint join (ps : list str) : str :=
  match ps with [] => [] | [p] => p | p :: r => p ++ comma :: join r end.

(** A written filter: one or more entries separated by commas. *)
Definition filter_text (s : str) (f : filter_) : Prop :=
  exists ps, ps <> [] /\ s = join ps /\ Forall2 entry_text ps f.

Lemma trim_start_split s : exists w, s = w ++ trim_start s /\ all_ws w.
Proof.
  induction s as [|c s IH]; simpl.
  - exists []. split; auto. constructor.
  - destruct (is_ws c) eqn:E.
    + destruct IH as [w [H1 H2]]. exists (c :: w). split; [simpl; congruence|]. constructor; auto.
    + exists []. split; auto. constructor.
Qed.

Lemma all_ws_rev w : all_ws w -> all_ws (rev w).
Proof. unfold all_ws. rewrite !Forall_forall. intros H x Hx. apply H. apply in_rev. auto. Qed.

Lemma trim_split s : exists w1 w2, s = w1 ++ trim s ++ w2 /\ all_ws w1 /\ all_ws w2.
Proof.
  destruct (trim_start_split s) as [w1 [H1 H2]].
  destruct (trim_start_split (rev (trim_start s))) as [w2 [H3 H4]].
  exists w1, (rev w2). split; [|split; auto using all_ws_rev].
  unfold trim. rewrite <- rev_app_distr, <- H3, rev_involutive. auto.
Qed.

Lemma all_ws_app a b : all_ws (a ++ b) <-> all_ws a /\ all_ws b.
Proof. unfold all_ws. apply Forall_app. Qed.

Lemma all_ws_b w : all_ws w <-> forallb is_ws w = true.
Proof. unfold all_ws. rewrite forallb_forall, Forall_forall. tauto. Qed.

Lemma trim_start_app_ws s w : all_ws w ->
  trim_start (s ++ w) = match trim_start s with [] => [] | t => t ++ w end.
Proof.
  intros H. induction s as [|c s IH]; simpl.
  - rewrite <- (app_nil_r w), trim_start_ws; auto. apply all_ws_b; auto.
  - destruct (is_ws c); auto.
Qed.

Lemma trim_pad_any w1 s w2 : all_ws w1 -> all_ws w2 -> trim (w1 ++ s ++ w2) = trim s.
Proof.
  intros H1 H2. unfold trim. rewrite trim_start_ws by (apply all_ws_b; auto).
  rewrite trim_start_app_ws by auto. destruct (trim_start s) eqn:E; auto.
  rewrite <- E. rewrite rev_app_distr, trim_start_ws; auto.
  apply all_ws_b, all_ws_rev; auto.
Qed.

Lemma bucket_text_pad w1 s w2 n :
  all_ws w1 -> all_ws w2 -> bucket_text s n -> bucket_text (w1 ++ s ++ w2) n.
Proof.
  intros H1 H2 (a & x & b & -> & Ha & Hb & Hx). exists (w1 ++ a), x, (b ++ w2).
  rewrite !all_ws_app. repeat split; auto. rewrite !app_assoc. auto.
Qed.

Lemma entry_text_pad w1 s w2 r :
  all_ws w1 -> all_ws w2 -> entry_text s r -> entry_text (w1 ++ s ++ w2) r.
Proof.
  intros H1 H2 H. destruct H.
  - constructor. apply bucket_text_pad; auto.
  - replace (w1 ++ (a ++ dash :: b) ++ w2) with ((w1 ++ a ++ []) ++ dash :: ([] ++ b ++ w2)).
    + constructor; auto; apply bucket_text_pad; auto; constructor.
    + rewrite app_nil_r. simpl. rewrite <- !app_assoc. reflexivity.
Qed.

Lemma value_mono ds : forall acc, acc <= value acc ds.
Proof. induction ds as [|c ds IH]; simpl; intros; [lia|]. etransitivity; [|apply IH]. lia. Qed.

Lemma digit_some c d : digit c = Some d -> 48 <= c <= 57 /\ d = c - 48.
Proof.
  unfold digit. destruct (N.leb_spec 48 c); simpl; [|discriminate].
  destruct (N.leb_spec c 57); [|discriminate]. intros E. inversion E. lia.
Qed.

Lemma parse_digits_some ds : forall acc n, parse_digits acc ds = Some n ->
  all_digits ds /\ value acc ds = n.
Proof.
  induction ds as [|c ds IH]; simpl; intros acc n H.
  - inversion H. split; auto. constructor.
  - destruct (digit c) eqn:E; [|discriminate]. apply digit_some in E. destruct E as [E ->].
    destruct (N.ltb_spec 255 (acc * 10 + (c - 48))); [discriminate|].
    apply IH in H. destruct H. split; auto. constructor; auto.
Qed.

Lemma parse_digits_complete ds : forall acc, all_digits ds -> value acc ds < 100 ->
  parse_digits acc ds = Some (value acc ds).
Proof.
  induction ds as [|c ds IH]; simpl; intros acc H Hv; auto.
  inversion H; subst. unfold digit.
  destruct (N.leb_spec 48 c); [|lia]. destruct (N.leb_spec c 57); [|lia]. simpl.
  pose proof (value_mono ds (acc * 10 + (c - 48))).
  destruct (N.ltb_spec 255 (acc * 10 + (c - 48))); [lia|]. apply IH; auto.
Qed.

Lemma digit_not_ws c : 48 <= c <= 57 -> is_ws c = false.
Proof.
  intros H. apply negb_true_iff.
  assert (E : forall k, k < 58 -> (if 48 <=? k then negb (is_ws k) else true) = true).
  { apply (all_below (fun k => if 48 <=? k then negb (is_ws k) else true) 58). vm_compute. reflexivity. }
  specialize (E c). destruct (N.leb_spec 48 c); [|lia]. apply E. lia.
Qed.

Lemma numeral_chars s n c : numeral s n -> In c s -> c = plus \/ 48 <= c <= 57.
Proof.
  intros (ds & Hs & _ & Hd & _) Hc. unfold all_digits in Hd. rewrite Forall_forall in Hd.
  destruct Hs as [->| ->]; [right; auto|]. destruct Hc; auto.
Qed.

Lemma numeral_plain s n : numeral s n -> forallb plain s = true.
Proof.
  intros H. apply forallb_forall. intros c Hc. eapply numeral_chars in Hc; [|eauto].
  destruct Hc as [->|Hc]; [reflexivity|]. unfold plain. rewrite (digit_not_ws c) by auto.
  unfold comma, dash. destruct (N.eqb_spec c 44); [lia|]. destruct (N.eqb_spec c 45); [lia|]. auto.
Qed.

Lemma numeral_nonempty s n : numeral s n -> s <> [].
Proof. intros (ds & [->| ->] & Hn & _); [auto|discriminate]. Qed.

Lemma parse_u8_numeral s n : (parse_u8 s = Some n /\ n < 100) <-> numeral s n.
Proof.
  split.
  - intros [H Hn]. unfold parse_u8 in H. destruct s as [|c r]; [discriminate|].
    destruct (N.eqb_spec c plus) as [->|Hc].
    + destruct r as [|c r]; [discriminate|]. apply parse_digits_some in H. destruct H.
      exists (c :: r). repeat split; auto. discriminate.
    + apply parse_digits_some in H. destruct H.
      exists (c :: r). repeat split; auto. discriminate.
  - intros (ds & Hs & Hne & Hd & Hv & Hn). split; auto. unfold parse_u8.
    destruct Hs as [->| ->].
    + destruct ds as [|c r]; [congruence|]. destruct (N.eqb_spec c plus) as [->|Hc].
      * inversion Hd; subst. unfold plus in *. lia.
      * rewrite parse_digits_complete; subst; auto.
    + rewrite N.eqb_refl. destruct ds; [congruence|]. rewrite parse_digits_complete; subst; auto.
Qed.

Lemma parse_bucket_text s n : parse_bucket s = Some n <-> bucket_text s n.
Proof.
  split.
  - intros H. pose proof (parse_bucket_lt _ _ H) as Hn. unfold parse_bucket in H.
    destruct (parse_u8 (trim s)) eqn:E; [|discriminate]. destruct (_ <=? _); [discriminate|].
    inversion H; subst. destruct (trim_split s) as (w1 & w2 & H1 & H2 & H3).
    exists w1, (trim s), w2. repeat split; auto. apply parse_u8_numeral. auto.
  - intros (w1 & x & w2 & -> & H1 & H2 & Hx). unfold parse_bucket.
    rewrite trim_pad; [|apply all_ws_b; auto|apply all_ws_b; auto| |eapply numeral_nonempty; eauto].
    + pose proof Hx as Hx'. apply parse_u8_numeral in Hx'. destruct Hx' as [-> Hlt].
      unfold bucket_count. destruct (N.leb_spec 100 n); [lia|auto].
    + eapply forallb_impl; [apply plain_ws|]. eapply numeral_plain; eauto.
Qed.

Lemma split_once_inv s a b : split_once dash s = Some (a, b) -> s = a ++ dash :: b.
Proof.
  revert a b. induction s as [|c s IH]; simpl; intros a b H; [discriminate|].
  destruct (N.eqb_spec c dash) as [->|].
  - inversion H; subst. reflexivity.
  - destruct (split_once dash s) as [[x y]|]; [|discriminate]. inversion H; subst.
    simpl. f_equal. apply IH; auto.
Qed.

Definition no (x : char) (s : str) : Prop := ~ In x s.

Lemma split_once_hit a b : no dash a -> split_once dash (a ++ dash :: b) = Some (a, b).
Proof.
  induction a as [|c a IH]; simpl; auto. intros H.
  destruct (N.eqb_spec c dash) as [->|]; [exfalso; apply H; left; auto|].
  rewrite IH; auto. intros Hin. apply H. right; auto.
Qed.

Lemma split_once_miss s : no dash s -> split_once dash s = None.
Proof.
  induction s as [|c s IH]; simpl; auto. intros H.
  destruct (N.eqb_spec c dash) as [->|]; [exfalso; apply H; left; auto|].
  rewrite IH; auto. intros Hin. apply H. right; auto.
Qed.

Lemma ws_no x w : is_ws x = false -> all_ws w -> no x w.
Proof. intros Hx H Hin. unfold all_ws in H. rewrite Forall_forall in H. rewrite H in Hx; auto. discriminate. Qed.

Lemma plain_no x s n : numeral s n -> (x = comma \/ x = dash) -> no x s.
Proof.
  intros H Hx Hin. eapply numeral_chars in Hin; eauto. unfold plus, comma, dash in *. lia.
Qed.

Lemma bucket_text_no x s n : bucket_text s n -> (x = comma \/ x = dash) -> no x s.
Proof.
  intros (w1 & y & w2 & -> & H1 & H2 & Hy) Hx Hin. rewrite !in_app_iff in Hin.
  assert (is_ws x = false) by (destruct Hx; subst; reflexivity).
  destruct Hin as [Hin|[Hin|Hin]].
  - eapply ws_no in H1; eauto.
  - eapply plain_no in Hy; eauto.
  - eapply ws_no in H2; eauto.
Qed.

Lemma bucket_text_nonws s n : bucket_text s n -> ~ all_ws s.
Proof.
  intros (w1 & y & w2 & -> & H1 & H2 & Hy). rewrite !all_ws_app. intros (_ & H & _).
  pose proof (numeral_nonempty _ _ Hy). destruct y as [|c y]; [congruence|].
  inversion H; subst.
  destruct (numeral_chars _ _ c Hy (or_introl eq_refl)) as [->|Hc]; [discriminate|].
  rewrite digit_not_ws in H5; auto. discriminate.
Qed.

Lemma trim_nil s : trim s = [] -> all_ws s.
Proof.
  intros H. destruct (trim_split s) as (w1 & w2 & -> & H1 & H2). rewrite H. simpl.
  apply all_ws_app. auto.
Qed.

Lemma entry_text_nonws s r : entry_text s r -> ~ all_ws s.
Proof.
  intros [s' n H|a b m n H _ _].
  - eapply bucket_text_nonws; eauto.
  - rewrite all_ws_app. intros [Hw _]. eapply bucket_text_nonws; eauto.
Qed.

Lemma parse_part_text s r : parse_part s = Some r <-> entry_text s r.
Proof.
  split.
  - intros H. destruct (trim_split s) as (w1 & w2 & Hs & H1 & H2). rewrite Hs.
    apply entry_text_pad; auto. clear Hs H1 H2 w1 w2. unfold parse_part in H.
    destruct (trim s) as [|c0 s0] eqn:E; [discriminate|]. rewrite <- E in *. clear E c0 s0.
    destruct (split_once dash (trim s)) as [[a b]|] eqn:Es.
    + apply split_once_inv in Es. rewrite Es.
      destruct (parse_bucket a) eqn:Ea; [|discriminate].
      destruct (parse_bucket b) eqn:Eb; [|discriminate].
      destruct (N.ltb_spec n0 n); [discriminate|]. inversion H; subst.
      constructor; auto; apply parse_bucket_text; auto.
    + destruct (parse_bucket (trim s)) eqn:Ea; [|discriminate].
      destruct (_ <? _); [discriminate|]. inversion H; subst.
      constructor. apply parse_bucket_text; auto.
  - intros H. unfold parse_part.
    destruct (trim s) as [|c0 s0] eqn:E; [apply trim_nil in E; eapply entry_text_nonws in H; tauto|].
    rewrite <- E. clear E c0 s0. destruct (trim_split s) as (w1 & w2 & Hs & H1 & H2).
    remember (trim s) as t eqn:Et.
    destruct H as [s n H|a b m n Ha Hb Hle].
    + assert (Hb : bucket_text t n).
      { apply parse_bucket_text. apply parse_bucket_text in H. unfold parse_bucket in *.
        assert (Ht : trim t = trim s) by (rewrite Hs at 1; symmetry; apply trim_pad_any; auto).
        rewrite Ht; auto. }
      rewrite split_once_miss by (eapply bucket_text_no; eauto).
      apply parse_bucket_text in Hb. rewrite Hb, N.ltb_irrefl. auto.
    + assert (Hd : In dash t).
      { assert (Hi : In dash (a ++ dash :: b)) by (apply in_app_iff; right; left; auto).
        rewrite Hs in Hi. rewrite !in_app_iff in Hi. destruct Hi as [Hi|[Hi|Hi]]; auto.
        - exfalso. eapply (ws_no dash w1); eauto.
        - exfalso. eapply (ws_no dash w2); eauto. }
      apply in_split in Hd. destruct Hd as (a' & b' & Ht).
      assert (Eq : a ++ dash :: b = (w1 ++ a') ++ dash :: (b' ++ w2)).
      { rewrite Hs, Ht. rewrite <- !app_assoc. reflexivity. }
      assert (no dash a) by (eapply bucket_text_no; eauto).
      assert (no dash b) by (eapply bucket_text_no; eauto).
      assert (Ea : split_once dash (a ++ dash :: b) = Some (a, b)) by (apply split_once_hit; auto).
      assert (Hn : no dash (w1 ++ a')).
      { intros Hin. apply in_split in Hin. destruct Hin as (l1 & l2 & Hl).
        rewrite Hl in Eq.
        set (e := N.eqb dash) in *.
        assert (F : forall s, no dash s -> filter e s = []).
        { induction s as [|c s IH]; auto. intros Hd. cbn [filter].
          destruct (e c) eqn:Ec; [unfold e in Ec; apply N.eqb_eq in Ec; exfalso; apply Hd; left; auto|].
          apply IH. intros Hi; apply Hd; right; auto. }
        assert (Ed : e dash = true) by reflexivity.
        apply (f_equal (fun l => length (filter e l))) in Eq.
        rewrite !filter_app in Eq. cbn [filter] in Eq. rewrite !Ed, !F in Eq by auto.
        rewrite !app_length in Eq. cbn [length app] in Eq. lia. }
      rewrite Eq in Ea. rewrite split_once_hit in Ea by auto. inversion Ea; subst a b.
      rewrite Ht. rewrite split_once_hit by (intros Hin; apply Hn, in_app_iff; auto).
      assert (Ba : parse_bucket a' = Some m).
      { apply parse_bucket_text in Ha. unfold parse_bucket in *.
        rewrite <- (app_nil_r a'), trim_pad_any in Ha; auto. constructor. }
      assert (Bb : parse_bucket b' = Some n).
      { apply parse_bucket_text in Hb. unfold parse_bucket in *.
        change (b' ++ w2) with ([] ++ b' ++ w2) in Hb.
        rewrite trim_pad_any in Hb; auto. constructor. }
      rewrite Ba, Bb. destruct (N.ltb_spec n m); [lia|auto].
Qed.

Lemma split_join ps : ps <> [] -> Forall (no comma) ps -> split comma (join ps) = ps.
Proof.
  assert (S1 : forall s, no comma s -> split comma s = [s]).
  { induction s as [|c s IH]; simpl; auto. intros H.
    destruct (N.eqb_spec c comma) as [->|]; [exfalso; apply H; left; auto|].
    rewrite IH; auto. intros Hin; apply H; right; auto. }
  assert (S2 : forall s r, no comma s -> split comma (s ++ comma :: r) = s :: split comma r).
  { induction s as [|c s IH]; simpl; auto. intros r H.
    destruct (N.eqb_spec c comma) as [->|]; [exfalso; apply H; left; auto|].
    rewrite IH; auto. intros Hin; apply H; right; auto. }
  intros Hn. induction 1 as [|p ps Hp Hps IH]; [congruence|].
  destruct ps as [|q ps]; [simpl; auto|].
  change (join (p :: q :: ps)) with (p ++ comma :: join (q :: ps)).
  rewrite S2, IH; auto. discriminate.
Qed.

Lemma join_split s : join (split comma s) = s.
Proof.
  induction s as [|c s IH]; simpl; auto. destruct (N.eqb_spec c comma) as [->|].
  - destruct (split comma s) as [|p ps] eqn:E; [exfalso; eapply split_nonempty; eauto|].
    change ([] ++ comma :: join (p :: ps) = comma :: s). rewrite IH. auto.
  - destruct (split comma s) as [|p ps] eqn:E; [exfalso; eapply split_nonempty; eauto|].
    destruct ps; simpl in *; congruence.
Qed.

Lemma parse_parts_text ps f : parse_parts ps = Some f <-> Forall2 entry_text ps f.
Proof.
  split.
  - revert f. induction ps as [|p ps IH]; simpl; intros f H.
    + inversion H. constructor.
    + destruct (parse_part p) eqn:E; [|discriminate]. destruct (parse_parts ps); [|discriminate].
      inversion H; subst. constructor; auto. apply parse_part_text; auto.
  - induction 1 as [|p r ps f Hp Hps IH]; simpl; auto.
    apply parse_part_text in Hp. rewrite Hp, IH. auto.
Qed.

Lemma join_pad_front w ps f : all_ws w -> ps <> [] -> Forall2 entry_text ps f ->
  exists ps', ps' <> [] /\ w ++ join ps = join ps' /\ Forall2 entry_text ps' f.
Proof.
  intros Hw Hn H. destruct H as [|p r ps f Hp Hps]; [congruence|].
  exists ((w ++ p) :: ps). split; [discriminate|]. split.
  - destruct ps; simpl; auto. rewrite <- app_assoc. auto.
  - constructor; auto. replace (w ++ p) with (w ++ p ++ []) by (rewrite app_nil_r; auto).
    apply entry_text_pad; auto. constructor.
Qed.

Lemma join_pad_back w ps f : all_ws w -> ps <> [] -> Forall2 entry_text ps f ->
  exists ps', ps' <> [] /\ join ps ++ w = join ps' /\ Forall2 entry_text ps' f.
Proof.
  intros Hw Hn H. induction H as [|p r ps f Hp Hps IH]; [congruence|].
  destruct ps as [|q ps].
  - inversion Hps; subst. exists [p ++ w]. repeat split; [discriminate|].
    constructor; auto. change (p ++ w) with ([] ++ p ++ w). apply entry_text_pad; auto. constructor.
  - destruct IH as (ps' & H1 & H2 & H3); [discriminate|]. exists (p :: ps'). repeat split; [discriminate| |].
    + destruct ps' as [|q' ps']; [congruence|].
      change (join (p :: q :: ps)) with (p ++ comma :: join (q :: ps)).
      change (join (p :: q' :: ps')) with (p ++ comma :: join (q' :: ps')).
      rewrite <- H2. rewrite <- app_assoc. reflexivity.
    + constructor; auto.
Qed.

Lemma split_pad_front w s : all_ws w ->
  parse_parts (split comma (w ++ s)) = parse_parts (split comma s).
Proof.
  intros Hw. destruct (split comma s) as [|p ps] eqn:E; [exfalso; eapply split_nonempty; eauto|].
  assert (Es : split comma (w ++ s) = (w ++ p) :: ps).
  { clear -Hw E. induction Hw as [|c w Hc Hw IH]; simpl; auto.
    destruct (N.eqb_spec c comma) as [->|]; [discriminate|]. rewrite IH. auto. }
  rewrite Es. simpl. unfold parse_part at 1.
  replace (w ++ p) with (w ++ p ++ []) by (rewrite app_nil_r; auto).
  rewrite trim_pad_any by (auto; constructor). reflexivity.
Qed.

Lemma parse_part_pad w s : all_ws w -> parse_part (s ++ w) = parse_part s.
Proof.
  intros Hw. unfold parse_part. change (s ++ w) with ([] ++ s ++ w).
  rewrite trim_pad_any by (auto; constructor). reflexivity.
Qed.

Lemma split_ws w : all_ws w -> split comma w = [w].
Proof.
  induction 1 as [|c w Hc Hw IH]; simpl; auto.
  destruct (N.eqb_spec c comma) as [->|]; [discriminate|]. rewrite IH. auto.
Qed.

(** Appending white space only pads the last piece. *)
Lemma split_back s w : all_ws w ->
  exists ps p, split comma s = ps ++ [p] /\ split comma (s ++ w) = ps ++ [p ++ w].
Proof.
  intros Hw. induction s as [|c s IH]; simpl.
  - exists [], []. split; auto. apply split_ws; auto.
  - destruct IH as (ps & p & H1 & H2). destruct (N.eqb_spec c comma).
    + exists ([] :: ps), p. rewrite H1, H2. auto.
    + rewrite H1, H2. destruct ps as [|q ps]; simpl.
      * exists [], (c :: p). auto.
      * exists ((c :: q) :: ps), p. auto.
Qed.

Lemma parse_parts_app a b : parse_parts (a ++ b) =
  match parse_parts a with
  | None => None
  | Some x => match parse_parts b with None => None | Some y => Some (x ++ y) end
  end.
Proof.
  induction a as [|p a IH]; simpl.
  - destruct (parse_parts b); auto.
  - destruct (parse_part p); auto. rewrite IH. destruct (parse_parts a); auto.
    destruct (parse_parts b); auto.
Qed.

Lemma split_pad_back w s : all_ws w ->
  parse_parts (split comma (s ++ w)) = parse_parts (split comma s).
Proof.
  intros Hw. destruct (split_back s w Hw) as (ps & p & -> & ->).
  rewrite !parse_parts_app. simpl. rewrite parse_part_pad; auto.
Qed.

Lemma entry_no_comma s r : entry_text s r -> no comma s.
Proof.
  intros [s' n H|a b m n Ha Hb _].
  - eapply bucket_text_no; eauto.
  - intros Hin. apply in_app_iff in Hin. destruct Hin as [Hin|[Hin|Hin]].
    + eapply bucket_text_no in Ha; eauto.
    + discriminate.
    + eapply bucket_text_no in Hb; eauto.
Qed.

Lemma parse_text s f : parse s = Some f <-> filter_text s f.
Proof.
  split.
  - unfold parse. intros H. destruct (trim_split s) as (w1 & w2 & Hs & H1 & H2).
    destruct (trim s) as [|c r] eqn:E; [discriminate|]. rewrite <- E in *. clear E c r.
    apply parse_parts_text in H.
    destruct (join_pad_back w2 _ _ H2 (split_nonempty comma (trim s)) H) as (ps & A & B & C).
    destruct (join_pad_front w1 _ _ H1 A C) as (ps' & A' & B' & C').
    exists ps'. repeat split; auto. rewrite <- B', <- B, join_split. auto.
  - intros (ps & Hn & Hs & Hf). unfold parse.
    destruct (trim s) as [|c r] eqn:E.
    + exfalso. apply trim_nil in E. destruct Hf as [|p x ps f Hp Hps]; [congruence|].
      apply (entry_text_nonws _ _ Hp). destruct ps; simpl in Hs; subst; auto.
      apply all_ws_app in E. tauto.
    + rewrite <- E. clear E c r. destruct (trim_split s) as (w1 & w2 & Hs' & H1 & H2).
      rewrite <- (split_pad_front w1 (trim s)) by auto.
      rewrite <- (split_pad_back w2) by auto. rewrite <- app_assoc, <- Hs', Hs.
      rewrite split_join; auto.
      * apply parse_parts_text. auto.
      * clear -Hf. induction Hf; constructor; auto. eapply entry_no_comma; eauto.
Qed.
