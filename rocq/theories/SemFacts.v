(** Facts about truth values and connectives in an interpretation. *)
From Coq Require Import List Arith NArith Bool Lia.
Import ListNotations.
From Verif Require Import Term LocalContext Semantics TermProofs.

Section Facts.
Context (M : Model).

Notation tt := (dsym M STrue).
Notation ff := (dsym M SFalse).
Notation isb d := (mem M d (dsym M SBool)).
Notation bnot d := (dapp M (dsym M SNot) d).
Notation band a b := (dapp M (dapp M (dsym M SAnd) a) b).
Notation bor a b := (dapp M (dapp M (dsym M SOr) a) b).

Lemma isb_cases d : isb d -> d = tt \/ d = ff.
Proof. apply bool_mem. Qed.
Lemma isb_true : isb tt. Proof. apply bool_mem; auto. Qed.
Lemma isb_false : isb ff. Proof. apply bool_mem; auto. Qed.

Lemma isb_not_true d : isb d -> (d <> tt <-> d = ff).
Proof.
  intros H. pose proof (bool_diff M). destruct (isb_cases d H); subst; split; congruence.
Qed.
Lemma isb_dec d : isb d -> d = tt \/ d <> tt.
Proof. intros H. destruct (isb_cases d H); auto. right. rewrite isb_not_true; auto. Qed.

Lemma bool_ext d e : isb d -> isb e -> (d = tt <-> e = tt) -> d = e.
Proof.
  intros Hd He H. pose proof (bool_diff M).
  destruct (isb_cases d Hd), (isb_cases e He); subst; auto.
  - exfalso. apply H0. symmetry. apply H. auto.
  - exfalso. apply H0. symmetry. apply H. auto.
Qed.

Lemma isb_not d : isb d -> isb (bnot d).
Proof.
  intros H. destruct (isb_cases d H); subst; rewrite ?not_true, ?not_false;
  auto using isb_true, isb_false.
Qed.
Lemma bnot_true d : isb d -> (bnot d = tt <-> d <> tt).
Proof.
  intros H. pose proof (bool_diff M).
  destruct (isb_cases d H); subst; rewrite ?not_true, ?not_false; split; congruence.
Qed.
Lemma bnot_invol d : isb d -> bnot (bnot d) = d.
Proof.
  intros H. destruct (isb_cases d H); subst; rewrite ?not_true, ?not_false, ?not_true; auto.
Qed.
Lemma isb_and a b : isb a -> isb b -> isb (band a b).
Proof. intros; apply and_val; auto. Qed.
Lemma isb_or a b : isb a -> isb b -> isb (bor a b).
Proof. intros; apply or_val; auto. Qed.
Lemma band_true a b : isb a -> isb b -> (band a b = tt <-> a = tt /\ b = tt).
Proof. intros; apply and_val; auto. Qed.
Lemma bor_true a b : isb a -> isb b -> (bor a b = tt <-> a = tt \/ b = tt).
Proof. intros; apply or_val; auto. Qed.

Lemma not_and a b : isb a -> isb b -> bnot (band a b) = bor (bnot a) (bnot b).
Proof.
  intros Ha Hb. apply bool_ext; auto using isb_not, isb_and, isb_or.
  rewrite bnot_true, band_true, bor_true, !bnot_true by auto using isb_not, isb_and.
  destruct (isb_dec a Ha), (isb_dec b Hb); tauto.
Qed.
Lemma not_or a b : isb a -> isb b -> bnot (bor a b) = band (bnot a) (bnot b).
Proof.
  intros Ha Hb. apply bool_ext; auto using isb_not, isb_and, isb_or.
  rewrite bnot_true, bor_true, band_true, !bnot_true by auto using isb_not, isb_or.
  tauto.
Qed.

Lemma isb_all A f : (forall x, mem M x A -> isb (f x)) -> isb (dbind M KAll A f).
Proof. intros; apply all_val; auto. Qed.
Lemma isb_ex A f : (forall x, mem M x A -> isb (f x)) -> isb (dbind M KEx A f).
Proof. intros; apply ex_val; auto. Qed.
Lemma all_true A f : (forall x, mem M x A -> isb (f x)) ->
  (dbind M KAll A f = tt <-> forall x, mem M x A -> f x = tt).
Proof. intros; apply all_val; auto. Qed.
Lemma ex_true A f : (forall x, mem M x A -> isb (f x)) ->
  (dbind M KEx A f = tt <-> exists x, mem M x A /\ f x = tt).
Proof. intros; apply ex_val; auto. Qed.

Lemma not_all A f : (forall x, mem M x A -> isb (f x)) ->
  bnot (dbind M KAll A f) = dbind M KEx A (fun x => bnot (f x)).
Proof.
  intros H.
  assert (H' : forall x, mem M x A -> isb (bnot (f x))) by (intros; apply isb_not; auto).
  assert (E1 := isb_all A f H). assert (E2 := isb_ex A _ H').
  destruct (isb_dec _ E2) as [T|T].
  - rewrite T. apply bnot_true; auto. apply ex_true in T; auto.
    destruct T as (x & Hx & Tx). rewrite all_true by auto.
    intros C. apply bnot_true in Tx; auto.
  - pose proof T as T'. apply isb_not_true in T'; auto. rewrite T'.
    assert (dbind M KAll A f = tt) as ->.
    { apply all_true; auto. intros x Hx. destruct (isb_dec (f x) (H x Hx)); auto.
      exfalso. apply T. apply ex_true; auto. exists x. split; auto. apply bnot_true; auto. }
    apply not_true.
Qed.
Lemma not_ex A f : (forall x, mem M x A -> isb (f x)) ->
  bnot (dbind M KEx A f) = dbind M KAll A (fun x => bnot (f x)).
Proof.
  intros H.
  assert (H' : forall x, mem M x A -> isb (bnot (f x))) by (intros; apply isb_not; auto).
  assert (E1 := isb_ex A f H). assert (E2 := isb_all A _ H').
  apply bool_ext; auto using isb_not.
  rewrite bnot_true, ex_true, all_true by auto. split.
  - intros C x Hx. apply bnot_true; auto. intros T. apply C. eauto.
  - intros C (x & Hx & T). specialize (C x Hx). apply bnot_true in C; auto.
Qed.

(** Terms built from connectives *)
Section Terms.
Context (P : D M -> Prop) (rho bs : nat -> D M).
Notation W := (swtg M P rho bs).
Notation E := (eval M rho bs).

Lemma swt_not a : W (tnot a) <-> W a /\ isb (E a).
Proof. unfold tnot; simpl. rewrite not_ok. tauto. Qed.
Lemma swt_and a b : W (tand a b) <-> W a /\ W b /\ isb (E a) /\ isb (E b).
Proof.
  unfold tand; simpl. rewrite and_ok. split.
  - intros ((_ & H1 & H2) & H3 & H4). rewrite and_ok2 in H4; auto.
  - intros (H1 & H2 & H3 & H4). rewrite and_ok2; auto.
Qed.
Lemma swt_or a b : W (tor a b) <-> W a /\ W b /\ isb (E a) /\ isb (E b).
Proof.
  unfold tor; simpl. rewrite or_ok. split.
  - intros ((_ & H1 & H2) & H3 & H4). rewrite or_ok2 in H4; auto.
  - intros (H1 & H2 & H3 & H4). rewrite or_ok2; auto.
Qed.
Lemma swt_eq T a b : W (teq T a b) <->
  W T /\ W a /\ W b /\ appok M (dsym M SEq) (E T) /\ mem M (E a) (E T) /\ mem M (E b) (E T).
Proof.
  unfold teq; simpl. split.
  - intros (((_ & H1 & H2) & H3 & H4) & H5 & H6).
    rewrite eq_ok in H4 by auto. rewrite eq_ok2 in H6 by auto. tauto.
  - intros (H1 & H2 & H3 & H4 & H5 & H6). rewrite eq_ok, eq_ok2; auto 10.
Qed.
Lemma isb_eq T a b : W (teq T a b) -> isb (E (teq T a b)).
Proof.
  rewrite swt_eq. intros (_ & _ & _ & H1 & H2 & H3).
  destruct (eq_val M (E T) (E a) (E b)); auto.
Qed.
Lemma eq_true T a b : W (teq T a b) -> (E (teq T a b) = tt <-> E a = E b).
Proof.
  rewrite swt_eq. intros (_ & _ & _ & H1 & H2 & H3).
  destruct (eq_val M (E T) (E a) (E b)); auto.
Qed.
Lemma eq_swap T a b : W (teq T a b) -> W (teq T b a) /\ E (teq T b a) = E (teq T a b).
Proof.
  intros H. assert (H' : W (teq T b a)) by (rewrite swt_eq in *; tauto).
  split; auto. apply bool_ext; auto using isb_eq.
  rewrite !eq_true by auto. split; congruence.
Qed.
Lemma swt_ite T c a b : W (tite T c a b) <->
  W T /\ W c /\ W a /\ W b /\ appok M (dsym M SIte) (E T) /\ isb (E c) /\ mem M (E a) (E T) /\ mem M (E b) (E T).
Proof.
  unfold tite; simpl. split.
  - intros ((((_ & H1 & H2) & H3 & H4) & H5 & H6) & H7 & H8).
    rewrite ite_ok in H4 by auto. rewrite ite_ok2 in H6 by auto. rewrite ite_ok3 in H8 by auto. tauto.
  - intros (H1 & H2 & H3 & H4 & H5 & H6 & H7 & H8). rewrite ite_ok, ite_ok2, ite_ok3; auto 15.
Qed.
Lemma ite_cases T c a b : W (tite T c a b) ->
  (E c = tt /\ E (tite T c a b) = E a) \/ (E c <> tt /\ E (tite T c a b) = E b).
Proof.
  rewrite swt_ite. intros (_ & _ & _ & _ & H1 & H2 & H3 & H4).
  unfold tite; simpl. destruct (isb_cases _ H2) as [C|C]; rewrite C.
  - left. split; auto. apply ite_true; auto.
  - right. split; [pose proof (bool_diff M); congruence|]. apply ite_false; auto.
Qed.
End Terms.

(** Replacing the parts of a binder by parts of the same value *)
Lemma bind_congr P rho bs k A b A' b' :
  swtg M P rho bs (TBind k A b) ->
  swtg M P rho bs A' -> eval M rho bs A' = eval M rho bs A ->
  (forall x, mem M x (eval M rho bs A) ->
     swtg M P rho (scons x bs) b' /\ eval M rho (scons x bs) b' = eval M rho (scons x bs) b) ->
  swtg M P rho bs (TBind k A' b') /\ eval M rho bs (TBind k A' b') = eval M rho bs (TBind k A b).
Proof.
  intros (H1 & HT & H2) HA EA Hb. simpl. rewrite EA. split.
  - split; auto. split; auto. intros x Hx. destruct (H2 x Hx), (Hb x Hx) as [W' E'].
    rewrite E'. auto.
  - apply bind_ext. intros x Hx. apply Hb; auto.
Qed.

(** Spines *)
Lemma spine_eq t : t = fold_left TApp (args t) (spine_head t).
Proof.
  assert (H : forall t acc, fold_left TApp (args_acc t acc) (spine_head t) = fold_left TApp acc t).
  { induction t0 as [a|f IHf a IHa|k A IHA b IHb]; intros acc; simpl; auto.
    rewrite IHf. reflexivity. }
  unfold args. rewrite H. reflexivity.
Qed.

Lemma args_length_app f a : length (args (TApp f a)) = S (length (args f)).
Proof.
  assert (H : forall t acc, length (args_acc t acc) = length acc + length (args_acc t [])).
  { induction t as [x|g IHg x IHx|k A IHA b IHb]; intros acc; simpl; auto.
    rewrite IHg. rewrite (IHg [x]). simpl. lia. }
  unfold args. simpl. rewrite H. simpl. lia.
Qed.

Lemma head_spine t : head_atom t = head_atom (spine_head t).
Proof. induction t; simpl; auto. Qed.

Lemma eval_spine rho bs l : forall h,
  eval M rho bs (fold_left TApp l h) = fold_left (dapp M) (map (eval M rho bs) l) (eval M rho bs h).
Proof. induction l as [|x l IH]; intros h; simpl; auto. rewrite IH. reflexivity. Qed.

Lemma swt_spine_head P rho bs t : swtg M P rho bs t -> swtg M P rho bs (spine_head t).
Proof. induction t; simpl; auto. tauto. Qed.

Lemma spine_head_shape t : (exists a, spine_head t = TAtom a) \/ (exists k A b, spine_head t = TBind k A b).
Proof. induction t; simpl; eauto 6. Qed.

(** A term whose head atom is a connective has that connective at the head of its spine: a binder
    type is never headed by one. *)
Lemma connective_spine P s rho bs t : is_connective s = true ->
  swtg M P rho bs t -> head_atom t = Sym s -> spine_head t = TSym s.
Proof.
  intros Hc. induction t as [a|f IHf a IHa|k A IHA b IHb]; simpl; intros Hw E.
  - congruence.
  - apply IHf; tauto.
  - exfalso. destruct Hw as (H1 & [HT _] & _).
    rewrite (spine_eq A), eval_spine, (IHA H1 E) in HT. simpl in HT.
    exact (isty_conn M s _ Hc HT).
Qed.

Lemma is_true_eq P rho bs t : swtg M P rho bs t -> is_true t = true -> t = ttrue.
Proof.
  unfold is_true. destruct (head_atom t) as [| |s] eqn:E; try discriminate.
  destruct s; try discriminate. intros Hw _.
  destruct t as [a|f a|k A b].
  - simpl in E. subst. reflexivity.
  - exfalso. assert (Hs := connective_spine P STrue rho bs _ eq_refl Hw E).
    assert (Ho : appok M (eval M rho bs f) (eval M rho bs a) /\ swtg M P rho bs f) by (simpl in Hw; tauto).
    clear E. simpl in Hs. clear Hw. revert a Ho. induction f as [x|g IHg y IHy|]; simpl in *; intros a Ho; try discriminate.
    + injection Hs as ->. simpl in Ho. apply (true_nofun M _ (proj1 Ho)).
    + destruct Ho as (_ & H1 & H2 & H3). apply (IHg Hs y); auto.
  - exfalso. pose proof (connective_spine P STrue rho bs _ eq_refl Hw E). discriminate.
Qed.
End Facts.
