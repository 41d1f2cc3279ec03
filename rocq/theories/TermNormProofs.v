(** Term normalization: same value, normal form. *)
From Coq Require Import List Arith NArith Bool Lia.
Import ListNotations.
From Verif Require Import Term LocalContext Semantics TermProofs SemFacts FlatTerm Kbo KboProofs TermNorm.

(** * Orders *)

Lemma comp_cmp_opp a b : CompOpp (comp_cmp a b) = comp_cmp b a.
Proof.
  destruct a, b; simpl; auto using atom_cmp_opp.
  rewrite lexc_opp, <- !N.compare_antisym. reflexivity.
Qed.
Lemma flat_cmp_opp a : forall b, CompOpp (flat_cmp a b) = flat_cmp b a.
Proof.
  induction a as [|x a IH]; intros [|y b]; simpl; auto.
  rewrite lexc_opp, IH, comp_cmp_opp. reflexivity.
Qed.
Lemma term_leb_total s t : term_leb s t = false -> term_leb t s = true.
Proof.
  unfold term_leb, term_cmp. rewrite <- (flat_cmp_opp (encode s)).
  destruct (flat_cmp (encode s) (encode t)); simpl; congruence.
Qed.
Lemma eq_ordered_total l r : eq_ordered l r = false -> eq_ordered r l = true.
Proof.
  unfold eq_ordered.
  destruct l as [[i|i|s]| |], r as [[j|j|u]| |]; try apply term_leb_total.
  intros H. apply Nat.leb_gt in H. apply Nat.leb_le. lia.
Qed.

(** * Spines and depth *)

Lemma args_app f a : args (TApp f a) = args f ++ [a].
Proof.
  assert (H : forall t acc, args_acc t acc = args_acc t [] ++ acc).
  { induction t as [x|g IHg x IHx|k A IHA b IHb]; intros acc; simpl; auto.
    rewrite IHg, (IHg [x]), <- app_assoc. reflexivity. }
  unfold args. simpl. apply H.
Qed.

Lemma args_depth x t : In x (args t) -> term_depth x < term_depth t.
Proof.
  induction t as [a|f IHf a IHa|k A IHA b IHb]; try (simpl; tauto).
  rewrite args_app, in_app_iff. simpl. intros [H|[<-|[]]]; [apply IHf in H|]; lia.
Qed.

Lemma split_some t s n l : split_symbol_application t s n = Some l ->
  l = args t /\ length l = n /\ is_app t = true /\ head_atom t = Sym s.
Proof.
  unfold split_symbol_application.
  destruct (is_app t) eqn:E1; simpl; [|discriminate].
  destruct (Nat.eqb_spec (length (args t)) n) as [E2|E2]; simpl; [|discriminate].
  rewrite <- head_spine. destruct (head_atom t) as [| |s']; try discriminate.
  destruct (symbol_eq_dec s' s); try discriminate. intros H; injection H as <-. subst. auto.
Qed.

Section Sound.
Context (M : Model) (P : D M -> Prop).
Notation isb d := (mem M d (dsym M SBool)).
Notation bnot d := (dapp M (dsym M SNot) d).
Notation W rho bs t := (swtg M P rho bs t).
Notation E rho bs t := (eval M rho bs t).

Lemma split_shape rho bs t s n l :
  is_connective s = true -> W rho bs t ->
  split_symbol_application t s n = Some l -> t = fold_left TApp l (TSym s) /\ length l = n.
Proof.
  intros Hc Hw H. apply split_some in H. destruct H as (-> & Hl & _ & Hh).
  split; auto. rewrite (spine_eq t) at 1. f_equal.
  eapply connective_spine; eauto.
Qed.

Lemma split_not rho bs t x : W rho bs t -> split_symbol_application t SNot 1 = Some [x] -> t = tnot x.
Proof. intros Hw H. eapply split_shape in H; eauto. exact (proj1 H). Qed.
Lemma split_and rho bs t x y : W rho bs t -> split_symbol_application t SAnd 2 = Some [x; y] -> t = tand x y.
Proof. intros Hw H. eapply split_shape in H; eauto. exact (proj1 H). Qed.
Lemma split_or rho bs t x y : W rho bs t -> split_symbol_application t SOr 2 = Some [x; y] -> t = tor x y.
Proof. intros Hw H. eapply split_shape in H; eauto. exact (proj1 H). Qed.
Lemma split_eq rho bs t T x y : W rho bs t -> split_symbol_application t SEq 3 = Some [T; x; y] -> t = teq T x y.
Proof. intros Hw H. eapply split_shape in H; eauto. exact (proj1 H). Qed.

Definition same rho bs t t' := W rho bs t' /\ E rho bs t' = E rho bs t.

Lemma normalize_eq_sound rho bs t : W rho bs t -> same rho bs t (unwrap_or (normalize_fully_applied_eq t) t).
Proof.
  intros Hw. unfold normalize_fully_applied_eq, same.
  destruct (split_symbol_application t SEq 3) as [[|T [|x [|y [|? ?]]]]|] eqn:Hs; simpl; auto.
  apply (split_eq rho bs) in Hs; auto. subst.
  destruct (eq_ordered x y); simpl; auto. apply eq_swap; auto.
Qed.

Lemma app_congr rho bs f a f' a' : W rho bs (TApp f a) -> same rho bs f f' -> same rho bs a a' ->
  same rho bs (TApp f a) (TApp f' a').
Proof.
  intros (H1 & H2 & H3) [W1 E1] [W2 E2]. unfold same. simpl. rewrite E1, E2. auto.
Qed.

Lemma cancel_sound rho bs t : W rho bs t -> same rho bs t (unwrap_or (cancel_double_negation t) t).
Proof.
  intros Hw. unfold cancel_double_negation, same.
  destruct (split_symbol_application t SNot 1) as [[|x [|? ?]]|] eqn:Hs; simpl; auto.
  apply (split_not rho bs) in Hs; auto. subst.
  destruct (split_symbol_application x SNot 1) as [[|y [|? ?]]|] eqn:Hs; simpl; auto.
  rewrite swt_not in Hw. destruct Hw as [Hx Bx].
  apply (split_not rho bs) in Hs; auto. subst.
  apply swt_not in Hx. destruct Hx as [Hy By]. split; auto.
  symmetry. apply bnot_invol; auto.
Qed.

Lemma beta_sound rho bs t r : W rho bs t -> beta_head t = Some r -> same rho bs t r.
Proof.
  destruct t as [|[| |[] A b] a|]; simpl; try discriminate.
  intros ((HA & HT & Hb) & Ha & Hok) Ho. rewrite open_bound_spec in Ho. injection Ho as <-.
  apply lam_beta in Hok. destruct Hok as [Hm Hv].
  split; [apply swt_open; auto; apply Hb; auto|].
  rewrite eval_open. simpl. rewrite Hv. auto.
Qed.

Lemma shift_down_up f : forall r c, references_bound_at 0 c f = false -> shift_down (S c) 1 f = Some r ->
  shift_up c 1 r = f.
Proof.
  induction f as [[i|i|s]|f IHf a IHa|k A IHA b IHb]; intros r c.
  - simpl. intros _ H; injection H as <-. reflexivity.
  - cbn [references_bound_at shift_down]. intros H1 H2.
    apply Nat.eqb_neq in H1. simpl in H1.
    destruct (Nat.leb_spec (S c) i).
    + destruct (Nat.leb_spec 1 i); [|discriminate]. injection H2 as <-.
      cbn [shift_up]. destruct (Nat.leb_spec c (i - 1)); [|lia]. do 2 f_equal. lia.
    + injection H2 as <-. cbn [shift_up]. destruct (Nat.leb_spec c i); [lia|]. reflexivity.
  - simpl. intros _ H; injection H as <-. reflexivity.
  - cbn [references_bound_at shift_down]. rewrite orb_false_iff. intros [H1 H2] H3.
    destruct (shift_down (S c) 1 f) eqn:E1; [|discriminate].
    destruct (shift_down (S c) 1 a) eqn:E2; [|discriminate]. injection H3 as <-.
    simpl. rewrite (IHf _ c), (IHa _ c); auto.
  - cbn [references_bound_at shift_down]. rewrite orb_false_iff. intros [H1 H2] H3.
    destruct (shift_down (S c) 1 A) eqn:E1; [|discriminate].
    destruct (shift_down (S (S c)) 1 b) eqn:E2; [|discriminate]. injection H3 as <-.
    simpl. rewrite (IHA _ c), (IHb _ (S c)); auto.
Qed.

Lemma eta_sound rho bs t r :
  (forall A, P A -> mem M A (dsym M SType0) /\ exists x, mem M x A) -> eta_model M ->
  W rho bs t -> eta_head t = Some r -> same rho bs t r.
Proof.
  intros HP He.
  destruct t as [| |[] A [|f [[|[|]|]| |]|]]; simpl; try discriminate.
  intros (HA & [HT HL] & Hb) Ho.
  destruct (references_bound 0 f) eqn:Hr; [discriminate|].
  apply (shift_down_up f r 0) in Ho; auto. subst f.
  specialize (HL eq_refl). destruct (HP _ HL) as [H0 [x Hx]].
  assert (Ev : forall y, E rho (scons y bs) (shift_up 0 1 r) = E rho bs r).
  { intros y. rewrite eval_shift. apply eval_bs. intros i. unfold skip. simpl.
    replace (i + 1) with (S i) by lia. reflexivity. }
  split.
  - destruct (Hb x Hx) as [(H1 & _ & _) _]. apply swt_shift in H1.
    eapply swt_bs; [|exact H1]. intros i. unfold skip. simpl. replace (i + 1) with (S i) by lia. reflexivity.
  - symmetry. cbn [eval].
    rewrite (bind_ext M KLam (E rho bs A) _ (dapp M (E rho bs r))) by (intros y _; rewrite Ev; reflexivity).
    apply (He _ (E rho bs r) x); auto.
    intros y Hy. destruct (Hb y Hy) as [(_ & _ & H2) _]. rewrite Ev in H2. exact H2.
Qed.

Lemma map_children_sound (f : term -> option term) t t' rho bs :
  (forall u u' bs, f u = Some u' -> W rho bs u -> same rho bs u u') ->
  map_children f t = Some t' -> W rho bs t -> same rho bs t t'.
Proof.
  intros Hf. destruct t as [a|g a|k A b]; simpl; unfold obind.
  - intros H; injection H as <-. split; auto.
  - destruct (f g) eqn:E1; [|discriminate]. destruct (f a) eqn:E2; [|discriminate].
    intros H; injection H as <-. intros (H1 & H2 & H3). apply app_congr; simpl; auto.
  - destruct (f A) eqn:E1; [|discriminate]. destruct (f b) eqn:E2; [|discriminate].
    intros H; injection H as <-. intros (H1 & HT & H2).
    destruct (Hf _ _ bs E1 H1).
    apply bind_congr; simpl; auto. intros x Hx. apply Hf; auto. apply H2; auto.
Qed.

Lemma same_trans rho bs a b c : same rho bs a b -> same rho bs b c -> same rho bs a c.
Proof. unfold same. intros [? ?] [? ?]; split; congruence. Qed.

Lemma beta_reduce_sound n : forall t t' rho bs,
  beta_reduce_subterms n t = Some t' -> W rho bs t -> same rho bs t t'.
Proof.
  induction n as [|n IH]; intros t t' rho bs; simpl; [discriminate|]. unfold obind.
  destruct (map_children (beta_reduce_subterms n) t) as [u|] eqn:E1; [|discriminate].
  intros H Hw.
  assert (S1 : same rho bs t u) by (eapply map_children_sound; eauto).
  destruct (beta_head u) as [r|] eqn:E2.
  - eapply same_trans; [exact S1|]. assert (S2 : same rho bs u r) by (apply beta_sound; auto; apply S1).
    eapply same_trans; [exact S2|]. apply IH; auto. apply S2.
  - injection H as <-. exact S1.
Qed.

Lemma normalize_term_sound n :
  (forall A, P A -> mem M A (dsym M SType0) /\ exists x, mem M x A) -> eta_model M ->
  forall t t' rho bs, normalize_term n t = Some t' -> W rho bs t -> same rho bs t t'.
Proof.
  intros HP He. induction n as [|n IH]; intros t t' rho bs; simpl; [discriminate|]. unfold obind.
  destruct (map_children (normalize_term n) t) as [u|] eqn:E1; [|discriminate].
  intros H Hw.
  assert (S1 : same rho bs t u) by (eapply map_children_sound; eauto).
  eapply same_trans; [exact S1|].
  destruct (beta_head u) as [r|] eqn:E2.
  - assert (S2 : same rho bs u r) by (apply beta_sound; auto; apply S1).
    eapply same_trans; [exact S2|]. apply IH; auto. apply S2.
  - destruct (eta_head u) as [r|] eqn:E3.
    + assert (S2 : same rho bs u r) by (apply eta_sound; auto; apply S1).
      eapply same_trans; [exact S2|]. apply IH; auto. apply S2.
    + injection H as <-.
      assert (S2 := cancel_sound rho bs u (proj1 S1)).
      eapply same_trans; [exact S2|]. apply normalize_eq_sound. apply S2.
Qed.

(** * Polarity-aware normalization *)

Definition signed (pos : bool) (d : D M) := if pos then d else bnot d.

Lemma clause_term_pol_sound n : forall t pos t' rho bs,
  clause_term_pol n t pos = Some t' -> W rho bs t -> (pos = false -> isb (E rho bs t)) ->
  W rho bs t' /\ E rho bs t' = signed pos (E rho bs t).
Proof.
  induction n as [|n IH]; intros t pos t' rho bs H Hw Hp; simpl in H; [discriminate|].
  destruct (split_symbol_application t SNot 1) as [[|x [|? ?]]|] eqn:S1.
  2: { apply (split_not rho bs) in S1; auto. subst t. apply swt_not in Hw. destruct Hw as [Hx Bx].
       apply (IH _ _ _ rho bs) in H; auto. destruct H as [H1 H2]. split; auto.
       rewrite H2. destruct pos; simpl; auto. symmetry. apply bnot_invol; auto. }
  1: apply split_some in S1; destruct S1 as (_ & S1 & _); discriminate.
  1: apply split_some in S1; destruct S1 as (_ & S1 & _); discriminate.
  clear S1.
  destruct (split_symbol_application t SAnd 2) as [[|x [|y [|? ?]]]|] eqn:S2.
  1,2,4: apply split_some in S2; destruct S2 as (_ & S2 & _); discriminate.
  { apply (split_and rho bs) in S2; auto. subst t. apply swt_and in Hw. destruct Hw as (Hx & Hy & Bx & By).
    unfold obind in H.
    destruct (clause_term_pol n x pos) as [x'|] eqn:E1; [|discriminate].
    destruct (clause_term_pol n y pos) as [y'|] eqn:E2; [|discriminate].
    injection H as <-.
    apply (IH _ _ _ rho bs) in E1; auto. apply (IH _ _ _ rho bs) in E2; auto.
    destruct E1 as [W1 E1], E2 as [W2 E2].
    destruct pos; simpl in E1, E2; simpl signed.
    - split; [apply swt_and; rewrite E1, E2; auto|]. unfold tand; simpl. rewrite E1, E2. auto.
    - split; [apply swt_or; rewrite E1, E2; auto using isb_not|]. unfold tor, tand; simpl.
      rewrite E1, E2. symmetry. apply not_and; auto. }
  clear S2.
  destruct (split_symbol_application t SOr 2) as [[|x [|y [|? ?]]]|] eqn:S2.
  1,2,4: apply split_some in S2; destruct S2 as (_ & S2 & _); discriminate.
  { apply (split_or rho bs) in S2; auto. subst t. apply swt_or in Hw. destruct Hw as (Hx & Hy & Bx & By).
    unfold obind in H.
    destruct (clause_term_pol n x pos) as [x'|] eqn:E1; [|discriminate].
    destruct (clause_term_pol n y pos) as [y'|] eqn:E2; [|discriminate].
    injection H as <-.
    apply (IH _ _ _ rho bs) in E1; auto. apply (IH _ _ _ rho bs) in E2; auto.
    destruct E1 as [W1 E1], E2 as [W2 E2].
    destruct pos; simpl in E1, E2; simpl signed.
    - split; [apply swt_or; rewrite E1, E2; auto|]. unfold tor; simpl. rewrite E1, E2. auto.
    - split; [apply swt_and; rewrite E1, E2; auto using isb_not|]. unfold tor, tand; simpl.
      rewrite E1, E2. symmetry. apply not_or; auto. }
  clear S2. unfold obind in H.
  destruct t as [a|f a|k A b].
  - injection H as <-. destruct pos; simpl signed; split; auto. apply swt_not. auto.
  - destruct (clause_term_pol n f true) as [f'|] eqn:E1; [|discriminate].
    destruct (clause_term_pol n a true) as [a'|] eqn:E2; [|discriminate].
    injection H as <-.
    assert (Hf : W rho bs f /\ W rho bs a) by (simpl in Hw; tauto). destruct Hf as [Hf Ha].
    apply (IH _ _ _ rho bs) in E1; auto; [|discriminate]. apply (IH _ _ _ rho bs) in E2; auto; [|discriminate].
    assert (S1 : same rho bs (TApp f a) (TApp f' a')) by (apply app_congr; auto).
    destruct (same_trans _ _ _ _ _ S1 (normalize_eq_sound rho bs _ (proj1 S1))) as [W1 V1].
    set (r := unwrap_or _ _) in *. clearbody r.
    destruct pos; simpl signed; split; auto.
    + apply swt_not. split; auto. rewrite V1. auto.
    + unfold tnot. simpl. rewrite V1. reflexivity.
  - assert (HA : W rho bs A) by (simpl in Hw; tauto).
    destruct k.
    + (* pi *)
      destruct (clause_term_pol n A true) as [A'|] eqn:E1; [|discriminate].
      destruct (clause_term_pol n b true) as [b'|] eqn:E2; [|discriminate].
      injection H as <-.
      apply (IH _ _ _ rho bs) in E1; auto; [|discriminate]. destruct E1 as [W1 V1].
      assert (S1 : same rho bs (TBind KPi A b) (TBind KPi A' b')).
      { apply bind_congr; auto. intros x Hx. apply (IH _ _ _ rho (scons x bs) E2); [|discriminate].
        apply Hw; auto. }
      destruct S1 as [S1 S2]. destruct pos; simpl signed; split; auto.
      * apply swt_not. split; auto. rewrite S2. auto.
      * unfold tnot. change (bnot (E rho bs (TBind KPi A' b')) = bnot (E rho bs (TBind KPi A b))). rewrite S2. reflexivity.
    + destruct (clause_term_pol n A true) as [A'|] eqn:E1; [|discriminate].
      destruct (clause_term_pol n b true) as [b'|] eqn:E2; [|discriminate].
      injection H as <-.
      apply (IH _ _ _ rho bs) in E1; auto; [|discriminate]. destruct E1 as [W1 V1].
      assert (S1 : same rho bs (TBind KLam A b) (TBind KLam A' b')).
      { apply bind_congr; auto. intros x Hx. apply (IH _ _ _ rho (scons x bs) E2); [|discriminate].
        apply Hw; auto. }
      destruct S1 as [S1 S2]. destruct pos; simpl signed; split; auto.
      * apply swt_not. split; auto. rewrite S2. auto.
      * unfold tnot. change (bnot (E rho bs (TBind KLam A' b')) = bnot (E rho bs (TBind KLam A b))). rewrite S2. reflexivity.
    + destruct (clause_term_pol n A true) as [A'|] eqn:E1; [|discriminate].
      destruct (clause_term_pol n b pos) as [b'|] eqn:E2; [|discriminate].
      injection H as <-.
      apply (IH _ _ _ rho bs) in E1; auto; [|discriminate]. destruct E1 as [W1 V1]. simpl in V1.
      assert (Hb : forall x, mem M x (E rho bs A) -> W rho (scons x bs) b' /\
                     E rho (scons x bs) b' = signed pos (E rho (scons x bs) b) /\ isb (E rho (scons x bs) b)).
      { intros x Hx. destruct Hw as (_ & _ & Hw). destruct (Hw x Hx) as [Q1 Q2].
        apply (IH _ _ _ rho (scons x bs)) in E2; auto. tauto. }
      destruct pos.
      * apply bind_congr; auto. intros x Hx. destruct (Hb x Hx) as (Q1 & Q2 & Q3). auto.
      * simpl signed. split.
        -- simpl. rewrite V1. destruct Hw as (_ & [HT _] & _).
           split; auto. split; [split; [auto|discriminate]|]. intros x Hx.
           destruct (Hb x Hx) as (Q1 & Q2 & Q3). rewrite Q2. split; auto. simpl. apply isb_not; auto.
        -- simpl. rewrite V1, not_all by (intros x Hx; apply (Hb x Hx)).
           apply bind_ext. intros x Hx. apply (Hb x Hx).
    + destruct (clause_term_pol n A true) as [A'|] eqn:E1; [|discriminate].
      destruct (clause_term_pol n b pos) as [b'|] eqn:E2; [|discriminate].
      injection H as <-.
      apply (IH _ _ _ rho bs) in E1; auto; [|discriminate]. destruct E1 as [W1 V1]. simpl in V1.
      assert (Hb : forall x, mem M x (E rho bs A) -> W rho (scons x bs) b' /\
                     E rho (scons x bs) b' = signed pos (E rho (scons x bs) b) /\ isb (E rho (scons x bs) b)).
      { intros x Hx. destruct Hw as (_ & _ & Hw). destruct (Hw x Hx) as [Q1 Q2].
        apply (IH _ _ _ rho (scons x bs)) in E2; auto. tauto. }
      destruct pos.
      * apply bind_congr; auto. intros x Hx. destruct (Hb x Hx) as (Q1 & Q2 & Q3). auto.
      * simpl signed. split.
        -- simpl. rewrite V1. destruct Hw as (_ & [HT _] & _).
           split; auto. split; [split; [auto|discriminate]|]. intros x Hx.
           destruct (Hb x Hx) as (Q1 & Q2 & Q3). rewrite Q2. split; auto. simpl. apply isb_not; auto.
        -- simpl. rewrite V1, not_ex by (intros x Hx; apply (Hb x Hx)).
           apply bind_ext. intros x Hx. apply (Hb x Hx).
Qed.
End Sound.

(** * The depth bounds suffice *)

Lemma split_args_depth t s n l x : split_symbol_application t s n = Some l -> In x l -> term_depth x < term_depth t.
Proof. intros H. apply split_some in H. destruct H as (-> & _). apply args_depth. Qed.

Lemma clause_term_pol_total n : forall t pos, term_depth t <= n -> exists t', clause_term_pol n t pos = Some t'.
Proof.
  induction n as [|n IH]; intros t pos Hn.
  { destruct t; simpl in Hn; lia. }
  simpl.
  destruct (split_symbol_application t SNot 1) as [[|x [|? ?]]|] eqn:S1;
    try (apply split_some in S1; destruct S1 as (_ & S1 & _); discriminate).
  { apply IH. pose proof (split_args_depth _ _ _ _ x S1 ltac:(simpl; auto)). lia. }
  destruct (split_symbol_application t SAnd 2) as [[|x [|y [|? ?]]]|] eqn:S2;
    try (apply split_some in S2; destruct S2 as (_ & S2 & _); discriminate).
  { pose proof (split_args_depth _ _ _ _ x S2 ltac:(simpl; auto)).
    pose proof (split_args_depth _ _ _ _ y S2 ltac:(simpl; auto)).
    destruct (IH x pos) as [x' ->]; [lia|]. destruct (IH y pos) as [y' ->]; [lia|]. simpl; eauto. }
  destruct (split_symbol_application t SOr 2) as [[|x [|y [|? ?]]]|] eqn:S3;
    try (apply split_some in S3; destruct S3 as (_ & S3 & _); discriminate).
  { pose proof (split_args_depth _ _ _ _ x S3 ltac:(simpl; auto)).
    pose proof (split_args_depth _ _ _ _ y S3 ltac:(simpl; auto)).
    destruct (IH x pos) as [x' ->]; [lia|]. destruct (IH y pos) as [y' ->]; [lia|]. simpl; eauto. }
  destruct t as [a|f a|k A b]; simpl in Hn.
  - eauto.
  - destruct (IH f true) as [f' ->]; [lia|]. destruct (IH a true) as [a' ->]; [lia|]. simpl; eauto.
  - destruct (IH A true) as [A' ->]; [lia|].
    destruct (IH b true) as [b' E1]; [lia|]. destruct (IH b pos) as [b'' E2]; [lia|].
    destruct k; rewrite ?E1, ?E2; simpl; eauto.
Qed.

Lemma signed_clause_term_total n : forall t pos, term_depth t <= n -> exists r, signed_clause_term n t pos = Some r.
Proof.
  induction n as [|n IH]; intros t pos Hn.
  { destruct t; simpl in Hn; lia. }
  simpl.
  destruct (split_symbol_application t SNot 1) as [[|x [|? ?]]|] eqn:S1;
    try (apply split_some in S1; destruct S1 as (_ & S1 & _); discriminate).
  { apply IH. pose proof (split_args_depth _ _ _ _ x S1 ltac:(simpl; auto)). lia. }
  destruct (split_symbol_application t SOr 2) as [[|x [|y [|? ?]]]|]; eauto.
Qed.

Section Sound2.
Context (M : Model) (P : D M -> Prop).
Notation isb d := (mem M d (dsym M SBool)).
Notation bnot d := (dapp M (dsym M SNot) d).
Notation W rho bs t := (swtg M P rho bs t).
Notation E rho bs t := (eval M rho bs t).

Lemma clause_polarity_sound t pos rho bs :
  W rho bs t -> (pos = false -> isb (E rho bs t)) ->
  W rho bs (normalize_clause_term_with_polarity t pos) /\
  E rho bs (normalize_clause_term_with_polarity t pos) = signed M pos (E rho bs t).
Proof.
  intros Hw Hp. unfold normalize_clause_term_with_polarity.
  destruct (clause_term_pol_total (term_depth t) t pos (le_n _)) as [t' Ht]. rewrite Ht. simpl.
  eapply clause_term_pol_sound; eauto.
Qed.

Lemma clause_term_sound t rho bs : W rho bs t ->
  W rho bs (normalize_clause_term t) /\ E rho bs (normalize_clause_term t) = E rho bs t.
Proof. intros Hw. apply (clause_polarity_sound t true); auto. discriminate. Qed.

(** The signed form: [t = true] with sign [pos] becomes [t' = true] with sign [pos']. *)
Lemma signed_clause_sound n : forall t pos t' pos' rho bs,
  signed_clause_term n t pos = Some (t', pos') -> W rho bs t ->
  W rho bs t' /\
  ((if pos' then E rho bs t' = dsym M STrue else E rho bs t' <> dsym M STrue) <->
   (if pos then E rho bs t = dsym M STrue else E rho bs t <> dsym M STrue)).
Proof.
  induction n as [|n IH]; intros t pos t' pos' rho bs H Hw; simpl in H; [discriminate|].
  destruct (split_symbol_application t SNot 1) as [[|x [|? ?]]|] eqn:S1;
    try (apply split_some in S1; destruct S1 as (_ & S1 & _); discriminate).
  { apply (split_not M P rho bs) in S1; auto. subst t. apply swt_not in Hw. destruct Hw as [Hx Bx].
    apply (IH _ _ _ _ rho bs) in H; auto. destruct H as [H1 H2]. split; auto.
    rewrite H2. unfold tnot. simpl. pose proof (bnot_true M _ Bx). 
    destruct (isb_dec M _ Bx); destruct pos; simpl; tauto. }
  destruct (split_symbol_application t SOr 2) as [[|x [|y [|? ?]]]|] eqn:S3;
    try (apply split_some in S3; destruct S3 as (_ & S3 & _); discriminate).
  { apply (split_or M P rho bs) in S3; auto. subst t. apply swt_or in Hw. destruct Hw as (Hx & Hy & Bx & By).
    injection H as <- <-.
    destruct (clause_polarity_sound x false rho bs Hx ltac:(auto)) as [W1 E1].
    destruct (clause_polarity_sound y false rho bs Hy ltac:(auto)) as [W2 E2]. simpl in E1, E2.
    split; [apply swt_and; rewrite E1, E2; auto using isb_not|].
    unfold tand, tor. simpl eval. rewrite E1, E2.
    rewrite <- not_or by auto.
    pose proof (isb_or M _ _ Bx By) as Bo. pose proof (bnot_true M _ Bo).
    destruct (isb_dec M _ Bo); destruct pos; simpl; tauto. }
  injection H as <- <-. destruct (clause_term_sound t rho bs Hw) as [W1 E1].
  rewrite E1. tauto.
Qed.

Lemma signed_clause_term_sound t pos rho bs : W rho bs t ->
  let r := normalize_signed_clause_term t pos in
  W rho bs (fst r) /\
  ((if snd r then E rho bs (fst r) = dsym M STrue else E rho bs (fst r) <> dsym M STrue) <->
   (if pos then E rho bs t = dsym M STrue else E rho bs t <> dsym M STrue)).
Proof.
  intros Hw. unfold normalize_signed_clause_term.
  destruct (signed_clause_term_total (term_depth t) t pos (le_n _)) as [[t' pos'] Ht].
  rewrite Ht. simpl. eapply signed_clause_sound; eauto.
Qed.
End Sound2.

(** * Normal forms *)

Fixpoint nf (t : term) : Prop :=
  match t with
  | TAtom _ => True
  | TApp f a => nf f /\ nf a /\ beta_head t = None /\ cancel_double_negation t = None
                /\ normalize_fully_applied_eq t = None
  | TBind _ A b => nf A /\ nf b /\ eta_head t = None
  end.

Lemma nf_args t : nf t -> Forall nf (args t).
Proof.
  induction t as [a|f IHf a IHa|k A IHA b IHb]; simpl nf; intros H; try constructor.
  rewrite args_app. apply Forall_app. destruct H as (H1 & H2 & _). auto.
Qed.

Lemma not_app_none t s n : is_app t = false -> split_symbol_application t s n = None.
Proof. unfold split_symbol_application. intros ->. reflexivity. Qed.

Lemma nf_node t : nf t -> beta_head t = None /\ eta_head t = None /\
  cancel_double_negation t = None /\ normalize_fully_applied_eq t = None.
Proof.
  unfold cancel_double_negation, normalize_fully_applied_eq.
  destruct t as [a|f a|k A b]; simpl nf; intros H.
  - repeat split; auto.
  - destruct H as (_ & _ & H1 & H2 & H3). auto.
  - destruct H as (_ & _ & H1). repeat split; auto.
Qed.

Lemma nf_eq T l r : nf T -> nf l -> nf r -> eq_ordered l r = true -> nf (teq T l r).
Proof.
  intros HT Hl Hr Ho. unfold teq. cbn [nf]. repeat split; auto.
  unfold normalize_fully_applied_eq, split_symbol_application. cbn. rewrite Ho. reflexivity.
Qed.

Lemma map_children_nf (f : term -> option term) t t' :
  (forall u u', f u = Some u' -> nf u') -> map_children f t = Some t' ->
  match t' with TAtom _ => True | TApp g a => nf g /\ nf a | TBind _ A b => nf A /\ nf b end.
Proof.
  intros Hf. destruct t as [a|g a|k A b]; simpl; unfold obind.
  - intros H; injection H as <-. auto.
  - destruct (f g) eqn:E1; [|discriminate]. destruct (f a) eqn:E2; [|discriminate].
    intros H; injection H as <-. eauto.
  - destruct (f A) eqn:E1; [|discriminate]. destruct (f b) eqn:E2; [|discriminate].
    intros H; injection H as <-. eauto.
Qed.

Lemma normalize_term_nf n : forall t t', normalize_term n t = Some t' -> nf t'.
Proof.
  induction n as [|n IH]; intros t t'; simpl; [discriminate|]. unfold obind.
  destruct (map_children (normalize_term n) t) as [u|] eqn:E1; [|discriminate].
  pose proof (map_children_nf _ _ _ IH E1) as Hc. clear E1.
  destruct (beta_head u) as [r|] eqn:E2; [apply IH|].
  destruct (eta_head u) as [r|] eqn:E3; [apply IH|].
  intros H; injection H as <-.
  assert (Hargs : Forall nf (args u)).
  { destruct u as [a|f a|k A b]; try constructor. rewrite args_app. apply Forall_app.
    destruct Hc. auto using nf_args. }
  set (u1 := unwrap_or (cancel_double_negation u) u).
  assert (H1 : (nf u1 \/ u1 = u) /\ cancel_double_negation u1 = None /\ Forall nf (args u1)).
  { unfold u1. destruct (cancel_double_negation u) as [y|] eqn:E4; simpl; [|auto].
    unfold cancel_double_negation in E4.
    destruct (split_symbol_application u SNot 1) as [[|x [|? ?]]|] eqn:S1; try discriminate.
    destruct (split_symbol_application x SNot 1) as [[|z [|? ?]]|] eqn:S2; try discriminate.
    injection E4 as <-.
    apply split_some in S1. destruct S1 as (S1 & _). rewrite <- S1 in Hargs. inversion Hargs; subst.
    apply split_some in S2. destruct S2 as (S2 & _).
    assert (Hz : Forall nf [z]) by (rewrite S2; apply nf_args; auto). inversion Hz; subst.
    split; auto. split; [apply nf_node; auto|apply nf_args; auto]. }
  destruct H1 as (H1 & H2 & H3). clearbody u1.
  destruct (normalize_fully_applied_eq u1) as [v|] eqn:E5; simpl.
  - unfold normalize_fully_applied_eq in E5.
    destruct (split_symbol_application u1 SEq 3) as [[|T [|x [|y [|? ?]]]]|] eqn:S1; try discriminate.
    destruct (eq_ordered x y) eqn:Eo; [discriminate|]. injection E5 as <-.
    apply split_some in S1. destruct S1 as (S1 & _). rewrite <- S1 in H3.
    inversion H3 as [|? ? Q1 Q2]; inversion Q2 as [|? ? Q3 Q4]; inversion Q4; subst.
    apply nf_eq; auto. apply eq_ordered_total; auto.
  - destruct H1 as [H1|H1]; auto. subst u1.
    destruct u as [a|f a|k A b]; simpl; auto; destruct Hc; auto.
Qed.

Lemma nf_normalize t : nf t -> forall n, term_depth t <= n -> normalize_term n t = Some t.
Proof.
  intros H n. revert t H. induction n as [|n IH]; intros t H Hn.
  { destruct t; simpl in Hn; lia. }
  pose proof (nf_node t H) as (N1 & N2 & N3 & N4).
  simpl. assert (map_children (normalize_term n) t = Some t) as ->.
  { destruct t as [a|f a|k A b]; simpl in *; auto; unfold obind; rewrite !IH by (try tauto; lia); reflexivity. }
  unfold obind. rewrite N1, N2, N3. simpl. rewrite N4. reflexivity.
Qed.
