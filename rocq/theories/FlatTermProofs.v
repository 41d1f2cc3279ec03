From Coq Require Import List Arith NArith Bool Lia.
Import ListNotations.
From Verif Require Import Term FlatTerm.

Lemma encode_length t : length (encode t) = size t.
Proof. induction t; simpl; auto; rewrite app_length, IHt1, IHt2; auto. Qed.
Lemma size_pos t : 0 < size t.
Proof. destruct t; simpl; lia. Qed.

Lemma as_u16_small n : (N.of_nat n < 65536)%N -> N.to_nat (as_u16 n) = n.
Proof. intros H. unfold as_u16. rewrite N.mod_small by auto. apply Nat2N.id. Qed.
Lemma as_u16_lt n : (as_u16 n < 65536)%N.
Proof. apply N.mod_lt. discriminate. Qed.

Lemma skipn_app_len {X} (a b : list X) : skipn (length a) (a ++ b) = b.
Proof. rewrite skipn_app, skipn_all, Nat.sub_diag. reflexivity. Qed.
Lemma firstn_app_len {X} (a b : list X) : firstn (length a) (a ++ b) = a.
Proof. rewrite firstn_app, firstn_all, Nat.sub_diag. simpl. apply app_nil_r. Qed.

(** Decomposing what was built returns the parts exactly when the left part fits. *)
Lemma decompose_build m l r : r <> [] -> l <> [] ->
  (decompose (build m l r) = Some (DNode m l r) <-> (N.of_nat (S (length l)) < 65536)%N).
Proof.
  intros Hr Hl. assert (Hlen : 0 < length r) by (destruct r; simpl; [congruence|lia]).
  unfold build, decompose. destruct (l ++ r) eqn:E.
  { apply app_eq_nil in E. destruct E; congruence. }
  rewrite <- E. split.
  - intros H. destruct (slice _ 1 _) as [l'|] eqn:E1; [|discriminate].
    destruct (slice _ _ (length _)) as [r'|]; [|discriminate]. inversion H; subst l' r'.
    unfold slice in E1. destruct (_ && _) eqn:Eb; [|discriminate].
    apply andb_true_iff in Eb. rewrite !Nat.leb_le in Eb. destruct Eb as [B1 B2].
    inversion E1 as [E2]. simpl skipn in E2. pose proof (as_u16_lt (S (length l))) as Hlt.
    apply (f_equal (@length _)) in E2. rewrite firstn_length in E2.
    rewrite app_length in E2. simpl in B2. rewrite app_length in B2.
    assert (N.to_nat (as_u16 (S (length l))) = S (length l)) by lia.
    remember (as_u16 (S (length l))) as x. rewrite firstn_length, app_length. lia.
  - intros H. rewrite as_u16_small by auto.
    assert (S1 : slice (CMark m (as_u16 (S (length l))) :: l ++ r) 1 (S (length l)) = Some l).
    { unfold slice. rewrite (proj2 (Nat.leb_le 1 (S (length l)))) by lia.
      rewrite (proj2 (Nat.leb_le (S (length l)) _)) by (simpl; rewrite app_length; lia).
      simpl. rewrite Nat.sub_0_r, firstn_app_len. auto. }
    rewrite S1. unfold slice.
    rewrite (proj2 (Nat.leb_le (S (length l)) _)) by (simpl; rewrite app_length; lia).
    rewrite Nat.leb_refl. cbn [skipn andb].
    rewrite skipn_app_len. rewrite firstn_all2; auto. simpl. rewrite app_length. lia.
Qed.

Lemma apply1_small f a : f <> [] -> a <> [] -> (N.of_nat (S (length f)) < 65536)%N ->
  apply1 f a = Some (build MApp f a).
Proof.
  intros Hf Ha H. unfold apply1, from_components, build.
  assert (0 < length f) by (destruct f; simpl; [congruence|lia]).
  assert (0 < length a) by (destruct a; simpl; [congruence|lia]).
  cbn [length]. rewrite app_length. rewrite (proj2 (Nat.ltb_ge _ 2)) by lia.
  assert (E : as_u16 (S (length f)) = N.of_nat (S (length f))) by (apply N.mod_small; auto).
  rewrite E. rewrite (proj2 (N.ltb_ge _ 2)) by lia. rewrite (proj2 (N.leb_gt _ _)) by lia. auto.
Qed.

(** In a release build the damaged term is built without a panic. *)
Lemma apply1_wraps f a : (exists q, length f = N.to_nat (65536 * q + 1))%N -> a <> [] ->
  apply1 f a = Some (build MApp f a) /\ as_u16 (S (length f)) = 2%N.
Proof.
  intros [q Hq] Ha.
  assert (E : as_u16 (S (length f)) = 2%N).
  { unfold as_u16. rewrite Hq. rewrite Nat2N.inj_succ, N2Nat.id.
    replace (N.succ (65536 * q + 1))%N with (2 + q * 65536)%N by lia.
    rewrite N.mod_add by discriminate. reflexivity. }
  split; auto. unfold apply1, from_components, build. rewrite E.
  assert (0 < length a) by (destruct a; simpl; [congruence|lia]).
  assert (0 < length f) by lia.
  cbn [length]. rewrite app_length. rewrite (proj2 (Nat.ltb_ge _ 2)) by lia.
  rewrite (proj2 (N.ltb_ge _ 2)) by lia. rewrite (proj2 (N.leb_gt _ _)) by lia. auto.
Qed.

(** * Reading a tree back *)
Fixpoint decode (fuel : nat) (c : flat) : option (term * flat) :=
  match fuel with
  | 0 => None
  | S n =>
    match c with
    | [] => None
    | CAtom a :: r => Some (TAtom a, r)
    | CMark m _ :: r =>
      match decode n r with
      | None => None
      | Some (x, r1) =>
        match decode n r1 with
        | None => None
        | Some (y, r2) =>
          Some (match m with MApp => TApp x y | MBind k => TBind k x y end, r2)
        end
      end
    end
  end.

Lemma decode_encode t : forall n rest, size t <= n -> decode n (encode t ++ rest) = Some (t, rest).
Proof.
  induction t as [a|f IHf a IHa|k A IHA b IHb]; intros n rest H; destruct n; simpl in *; try lia; auto.
  - rewrite <- app_assoc, IHf by lia. rewrite IHa by lia. auto.
  - rewrite <- app_assoc, IHA by lia. rewrite IHb by lia. auto.
Qed.

Lemma encode_inj_rest t u r1 r2 : encode t ++ r1 = encode u ++ r2 -> t = u /\ r1 = r2.
Proof.
  intros H. set (n := size t + size u).
  pose proof (decode_encode t n r1 ltac:(lia)) as A.
  pose proof (decode_encode u n r2 ltac:(lia)) as B.
  rewrite H, B in A. inversion A. auto.
Qed.

Lemma encode_inj t u : encode t = encode u -> t = u.
Proof. intros H. apply (encode_inj_rest t u [] []). rewrite H. auto. Qed.

(** * validate_structure *)
Lemma check_subterm_encode t : fits t -> forall n rest, size t <= n ->
  check_subterm n (encode t ++ rest) = Some rest.
Proof.
  assert (STEP : forall x y m n rest,
    (fits x -> forall n rest, size x <= n -> check_subterm n (encode x ++ rest) = Some rest) ->
    (fits y -> forall n rest, size y <= n -> check_subterm n (encode y ++ rest) = Some rest) ->
    (N.of_nat (S (size x)) < 65536)%N -> fits x -> fits y -> S (size x + size y) <= n ->
    check_subterm n (build m (encode x) (encode y) ++ rest) = Some rest).
  { intros x y m n rest Hx Hy Hf Fx Fy Hn. destruct n; [lia|]. unfold build.
    cbn [app check_subterm]. rewrite encode_length.
    assert (E : as_u16 (S (size x)) = N.of_nat (S (size x))) by (apply N.mod_small; auto).
    rewrite E. rewrite <- app_assoc. rewrite Hx by (auto; lia).
    cbn [length]. rewrite !app_length, !encode_length. pose proof (size_pos y).
    rewrite (proj2 (N.leb_gt _ _)) by lia.
    rewrite (proj2 (N.eqb_eq _ _)) by (f_equal; lia). apply Hy; auto. lia. }
  induction t as [a|f IHf a IHa|k A IHA b IHb]; intros F n rest H.
  - destruct n; simpl in *; [lia|auto].
  - simpl in F. destruct F as (F1 & F2 & F3). apply (STEP f a); auto.
  - simpl in F. destruct F as (F1 & F2 & F3). apply (STEP A b); auto.
Qed.

Definition u16_ok (c : flat) : Prop :=
  Forall (fun x => match x with CMark _ off => (off < 65536)%N | _ => True end) c.

Lemma check_subterm_sound : forall n c rest, u16_ok c -> check_subterm n c = Some rest ->
  exists t, c = encode t ++ rest /\ fits t.
Proof.
  induction n as [|n IH]; intros c rest U H; [discriminate|].
  simpl in H. destruct c as [|[m off|a] c]; [discriminate| |].
  - destruct (N.leb_spec (N.of_nat (length (CMark m off :: c))) off); [discriminate|].
    inversion U as [|? ? U1 U2]; subst.
    destruct (check_subterm n c) as [rest1|] eqn:E; [|discriminate].
    destruct (N.eqb_spec (N.of_nat (length (CMark m off :: c) - length rest1)) off); [|discriminate].
    apply IH in E; auto. destruct E as (x & -> & Fx).
    assert (U3 : u16_ok rest1) by (apply Forall_app in U2; tauto).
    apply IH in H; auto. destruct H as (y & -> & Fy).
    cbn [length] in e. rewrite !app_length, !encode_length in e.
    assert (EN : off = N.of_nat (S (size x))) by lia. clear e.
    assert (OFF : as_u16 (S (size x)) = off).
    { rewrite EN. apply N.mod_small. rewrite <- EN. auto. }
    exists (match m with MApp => TApp x y | MBind k => TBind k x y end). split.
    + destruct m; simpl; unfold build; rewrite encode_length, OFF; rewrite <- app_assoc; auto.
    + destruct m; cbn [fits]; rewrite <- EN; auto.
  - inversion H; subst. exists (TAtom a). simpl; auto.
Qed.

Lemma validate_structure_exact c : u16_ok c ->
  (validate_structure c = true <-> exists t, c = encode t /\ fits t).
Proof.
  intros U. unfold validate_structure. split.
  - intros H. apply andb_true_iff in H. destruct H as [_ H].
    destruct (check_subterm _ c) as [[|]|] eqn:E; try discriminate.
    apply check_subterm_sound in E; auto. destruct E as (t & E & F). exists t.
    rewrite app_nil_r in E. auto.
  - intros (t & -> & F). apply andb_true_iff. split.
    + destruct t as [a|f a|k A b]; auto.
      * simpl in F. destruct F as [F _]. cbn [encode]. unfold build at 1 2. cbn [length].
        rewrite app_length, !encode_length. pose proof (size_pos f); pose proof (size_pos a).
        rewrite (proj2 (Nat.ltb_lt 1 _)) by lia.
        assert (E : as_u16 (S (size f)) = N.of_nat (S (size f))) by (apply N.mod_small; auto).
        rewrite E. apply andb_true_iff. rewrite !negb_true_iff.
        split; [apply N.ltb_ge|apply N.leb_gt]; unfold build; cbn [length]; rewrite ?app_length, ?encode_length; lia.
      * simpl in F. destruct F as [F _]. cbn [encode]. unfold build at 1 2. cbn [length].
        rewrite app_length, !encode_length. pose proof (size_pos A); pose proof (size_pos b).
        rewrite (proj2 (Nat.ltb_lt 1 _)) by lia.
        assert (E : as_u16 (S (size A)) = N.of_nat (S (size A))) by (apply N.mod_small; auto).
        rewrite E. apply andb_true_iff. rewrite !negb_true_iff.
        split; [apply N.ltb_ge|apply N.leb_gt]; unfold build; cbn [length]; rewrite ?app_length, ?encode_length; lia.
    + pose proof (check_subterm_encode t F (length (encode t)) []) as E.
      rewrite app_nil_r in E. rewrite E; auto. rewrite encode_length; auto.
Qed.

Lemma find_subterm_end_encode t : fits t -> forall n pre post, size t <= n ->
  find_subterm_end n (pre ++ encode t ++ post) (length pre) = Some (length pre + size t).
Proof.
  assert (STEP : forall x y m n pre post,
    (fits y -> forall n pre post, size y <= n ->
       find_subterm_end n (pre ++ encode y ++ post) (length pre) = Some (length pre + size y)) ->
    (N.of_nat (S (size x)) < 65536)%N -> fits y -> S (size x + size y) <= n ->
    find_subterm_end n (pre ++ build m (encode x) (encode y) ++ post) (length pre)
      = Some (length pre + S (size x + size y))).
  { intros x y m n pre post Hy Hx Fy Hn. destruct n; [lia|]. cbn [find_subterm_end].
    rewrite nth_error_app2 by lia. rewrite Nat.sub_diag. unfold build. cbn [app nth_error].
    rewrite encode_length, as_u16_small by auto.
    specialize (Hy Fy n (pre ++ CMark m (as_u16 (S (size x))) :: encode x) post).
    rewrite app_length in Hy. cbn [length] in Hy. rewrite encode_length in Hy.
    assert (Heq : pre ++ CMark m (as_u16 (S (size x))) :: (encode x ++ encode y) ++ post =
      (pre ++ CMark m (as_u16 (S (size x))) :: encode x) ++ encode y ++ post).
    { rewrite <- !app_assoc. reflexivity. }
    rewrite Heq. rewrite Hy by lia. f_equal. lia. }
  induction t as [a|f IHf a IHa|k A IHA b IHb]; intros F n pre post H.
  - destruct n; simpl in *; [lia|]. rewrite nth_error_app2 by lia. rewrite Nat.sub_diag. simpl. f_equal. lia.
  - simpl in F. destruct F as (F1 & F2 & F3). apply (STEP f a); auto.
  - simpl in F. destruct F as (F1 & F2 & F3). apply (STEP A b); auto.
Qed.

(** A right-nested chain: small offsets, any length. *)
Fixpoint chain (n : nat) : term :=
  match n with 0 => tbool | S n' => TBind KPi tbool (chain n') end.
Lemma chain_size n : size (chain n) = 2 * n + 1.
Proof. induction n; simpl in *; lia. Qed.
Lemma chain_fits n : fits (chain n).
Proof. induction n; simpl; auto. repeat split; auto. Qed.
