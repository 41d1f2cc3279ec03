(** Monomorphic clauses are well formed and typed in the senses used elsewhere, and the boolean reductions keep them monomorphic. *)
From Coq Require Import List Arith NArith Bool Lia.
Import ListNotations.
From Verif Require Import VariableMap Unifier Inference ClauseSet EqualityGraph Checker.
From Verif Require Import Term LocalContext Semantics TermProofs SemFacts TermNorm TermNormProofs Typing TypingProofs Literal Clause ClauseSem RenumberProofs ClauseProofs ClauseWf InferenceProofs
  BoolReduction BoolReductionProofs BoolReductionConverse CheckerProofs CheckerSem P_TermNorm P_Checker Monomorphic MonoProofs MonoNorm.

Section MR.
Context (M : Model) (K : kctx) (CT : closed_types K) (R : respects M K).
Notation et := (element_type M).
Notation ht := (has_type M K).
Notation ml := (mono_literal M K).
Notation mt := (mono_typed M K).
Notation mo := (mono M K).

Lemma mc_get G i T : mono_context M G -> get_var_type G i = Some T -> et T.
Proof. intros H E. unfold get_var_type in E. destruct (nth_error G i) as [[]|] eqn:Eg; try discriminate. injection E as ->. eapply H; eauto. Qed.
Lemma mc_deps G v : mono_context M G -> deps G v = [].
Proof. intros H. unfold deps. destruct (get_var_type G v) eqn:E; auto. eapply et_vars, mc_get; eauto. Qed.
Lemma mt_suitable c : mt c -> suitable M c.
Proof.
  rewrite mt_in. intros [HG HL]. constructor.
  - intros rho V l Hl. destruct (HL l Hl) as (T & _ & H1 & H2). split; [apply (ht_value M K CT R _ _ _ rho H1 V)|apply (ht_value M K CT R _ _ _ rho H2 V)].
  - exists (fun _ => 0). intros v d Hd. rewrite mc_deps in Hd by auto. destruct Hd.
  - intros v T _ HT rho _. apply (et_inhabited M T rho (nobs M)). eapply mc_get; eauto.
Qed.
Lemma mt_reducible c : mt c -> reducible M K c.
Proof.
  intros H. pose proof (mt_suitable c H) as [S1 S2 S3]. apply mt_in in H. destruct H as [HG HL]. constructor.
  - constructor.
    + intros l v Hl Hv. destruct (HL l Hl) as (T & _ & H1 & H2). apply in_app_or in Hv.
      destruct Hv as [Hv|Hv]; [exact (ht_vars M K _ _ _ _ _ H1 Hv)|exact (ht_vars M K _ _ _ _ _ H2 Hv)].
    + intros v d Hd. rewrite mc_deps in Hd by auto. destruct Hd.
  - apply pwt_wt; auto.
  - intros rho _ i T HT. apply et_swtg. eapply mc_get; eauto.
  - intros l Hl. destruct (HL l Hl) as (T & _ & H1 & H2). split; [exists T; split; apply (ht_type M K CT); auto|].
    split; [eapply ht_valterm; eauto|]. split; [eapply ht_valterm; eauto|]. split; eapply ht_lc0; eauto.
Qed.
Lemma ml_witness G l : ml G l -> witness_typed l.
Proof.
  intros (T & HT & H1 & _) A body U a b EL Es Hab. rewrite EL in H1. apply inv_quant in H1; auto. destruct H1 as (_ & HA & Hb).
  apply clause_split_eq in Es. subst body. apply ht_eq_iff in Hb. destruct Hb as (_ & HU & Ha & Hb').
  destruct Hab as [-> | ->]; [inversion Ha|inversion Hb']; subst; match goal with [X : nth_error _ _ = _ |- _] => simpl in X; congruence end.
Qed.

Lemma clause_split_none_ground T s n : ground_type T = true -> (forall m i, s <> SType m i) -> s <> SBool -> clause_split T s n = None.
Proof.
  intros H Hs Hb. destruct (clause_split T s n) eqn:E; auto. apply clause_split_some in E. destruct E as [-> _].
  destruct (ground_head _ H) as [X|(m & i & X)]; rewrite head_spine in X.
  - assert (Y : forall l x, spine_head (fold_left TApp l x) = spine_head x) by (induction l0; simpl; intros; rewrite ?IHl0; auto). rewrite Y in X. simpl in X. congruence.
  - assert (Y : forall l x, spine_head (fold_left TApp l x) = spine_head x) by (induction l0; simpl; intros; rewrite ?IHl0; auto). rewrite Y in X. simpl in X. injection X as ->. destruct (Hs m i eq_refl).
Qed.
Lemma simplify_fixes n : fixes (simplify_ite n).
Proof.
  induction n as [|n IH]; [split; intros; discriminate|]. split.
  - intros a r. simpl. congruence.
  - intros T r H. cbn [simplify_ite]. unfold obind. destruct (map_children (simplify_ite n) T) as [u|] eqn:E; [|discriminate].
    apply ground_map_children in E; auto. subst u. rewrite ground_beta by auto.
    rewrite clause_split_none_ground by (auto; discriminate). congruence.
Qed.
Lemma ht_simplify n G : forall t t' bs T, simplify_ite n t = Some t' -> ht G bs t T -> ht G bs t' T.
Proof.
  induction n as [|n IH]; intros t t' bs T; simpl; [discriminate|]. unfold obind.
  destruct (map_children (simplify_ite n) t) as [u|] eqn:E1; [|discriminate]. intros H Ht.
  pose proof (ht_map_children M K _ _ _ _ _ _ (simplify_fixes n) IH E1 Ht) as Hu.
  destruct (beta_head u) as [r|] eqn:E2; [eapply IH; eauto using ht_beta|].
  destruct (clause_split u SIte 4) as [[|X [|c [|a [|b [|]]]]]|] eqn:Es; try (injection H as <-; auto; fail).
  apply clause_split_ite in Es. subst u. injection H as <-. pose proof Hu as Hu'. apply ht_ite_iff in Hu'. destruct Hu' as (-> & _ & Hc & Ha & Hb).
  destruct (is_true c); auto. destruct (term_eqb c tfalse); auto. destruct (term_eqb a b); auto.
Qed.
Lemma ht_strengthen G A w T : ht G [A] w T -> lc w -> ht G [] w T.
Proof. intros H L. apply (ht_unshift M K G w [] [A] [] T). simpl. rewrite shift_up_lc by exact L. exact H. Qed.

Notation eb := (et_bool M).
Lemma ml_signed G t pos : ht G [] t tbool -> ml G (lit_new pos t ttrue).
Proof. intros H. eapply ml_new; eauto using eb, ht_true. Qed.

Lemma ml_replacement n cl k l r c' : replacement n K cl k l = Some (Some (r, c')) -> mono_context M (context cl) -> ml (context cl) l ->
  mono_context M c' /\ (forall x, In x r -> ml c' x) /\ exists ext, c' = context cl ++ ext.
Proof.
  intros H HG (T & HT & HL & HR).
  assert (Same : forall r', Some (Some (r', context cl)) = Some (Some (r, c')) -> (forall x, In x r' -> ml (context cl) x) ->
    mono_context M c' /\ (forall x, In x r -> ml c' x) /\ exists ext, c' = context cl ++ ext).
  { intros r' E Hr. injection E as <- <-. split; auto. split; auto. exists []. rewrite app_nil_r. auto. }
  assert (BL : forall b, bool_left K (context cl) l = Some b -> b = true -> T = tbool).
  { unfold bool_left. rewrite (ht_type M K CT _ _ _ HL). simpl. intros b Hb ->. injection Hb as Hb. apply term_eqb_eq in Hb. auto. }
  assert (Fn : forall x y : literal, forall P : literal -> Prop, P x -> P y -> forall z, In z [x; y] -> P z) by (intros x y P Px Py z [<-|[<-|[]]]; auto).
  assert (Fo : forall x : literal, forall P : literal -> Prop, P x -> forall z, In z [x] -> P z) by (intros x P Px z [<-|[]]; auto).
  destruct k; cbn [replacement] in H.
  - match type of H with (if ?x then _ else _) = _ => destruct x; [discriminate|] end.
    match type of H with (if ?x then _ else _) = _ => destruct x; [discriminate|] end. eapply Same; eauto. intros x [].
  - destruct (simplify_ite n (left l)) as [t|] eqn:E; [|discriminate]. destruct (term_eqb t (left l)); [discriminate|]. eapply Same; eauto. apply Fo. eapply ml_new; eauto using ht_simplify.
  - destruct (simplify_ite n (right l)) as [t|] eqn:E; [|discriminate]. destruct (term_eqb t (right l)); [discriminate|]. eapply Same; eauto. apply Fo. eapply ml_new; eauto using ht_simplify.
  - destruct (clause_split (left l) SIte 4) as [[|X [|c [|a [|b [|]]]]]|] eqn:Es; try discriminate. apply clause_split_ite in Es. rewrite Es in HL. apply ht_ite_iff in HL. destruct HL as (-> & _ & Hc & Ha & Hb).
    eapply Same; eauto. apply Fn; [apply ml_signed; auto|eapply ml_new; eauto].
  - destruct (clause_split (left l) SIte 4) as [[|X [|c [|a [|b [|]]]]]|] eqn:Es; try discriminate. apply clause_split_ite in Es. rewrite Es in HL. apply ht_ite_iff in HL. destruct HL as (-> & _ & Hc & Ha & Hb).
    eapply Same; eauto. apply Fn; [apply ml_signed; auto|eapply ml_new; eauto].
  - destruct (clause_split (right l) SIte 4) as [[|X [|c [|a [|b [|]]]]]|] eqn:Es; try discriminate. apply clause_split_ite in Es. rewrite Es in HR. apply ht_ite_iff in HR. destruct HR as (-> & _ & Hc & Ha & Hb).
    eapply Same; eauto. apply Fn; [apply ml_signed; auto|eapply ml_new; eauto].
  - destruct (clause_split (right l) SIte 4) as [[|X [|c [|a [|b [|]]]]]|] eqn:Es; try discriminate. apply clause_split_ite in Es. rewrite Es in HR. apply ht_ite_iff in HR. destruct HR as (-> & _ & Hc & Ha & Hb).
    eapply Same; eauto. apply Fn; [apply ml_signed; auto|eapply ml_new; eauto].
  - unfold reduce_function_inequality in H. destruct (positive l); [discriminate|]. rewrite (ht_type M K CT _ _ _ HL), (ht_type M K CT _ _ _ HR) in H.
    destruct (negb (term_eqb T T)); [discriminate|]. destruct T as [|?|[] A B]; try discriminate. apply et_arrow in HT. destruct HT as [HA HB].
    eapply Same; eauto. apply Fo. apply ml_signed. apply ht_quant; auto. apply ht_not. split; auto. apply ht_eq_iff. split; auto. split; auto.
    assert (X : forall t, ht (context cl) [] t (TBind KPi A B) -> ht (context cl) [A] (TApp t (TBound 0)) B).
    { intros t Ht. eapply ht_app; [|exact HA|apply (et_lc M B 0); auto|apply ht_bound; auto]. eapply ht_bs; [exact Ht|]. intros [|i] U; discriminate. }
    auto.
  - destruct (bool_left K (context cl) l) as [b|] eqn:Eb; [|discriminate]. destruct b; [|discriminate]. specialize (BL _ eq_refl eq_refl). subst T.
    match type of H with (if ?x then _ else _) = _ => destruct x; [|discriminate] end.
    destruct (clause_split (left l) SNot 1) as [[|x [|]]|] eqn:Es; try discriminate. apply clause_split_not in Es. rewrite Es in HL. apply ht_not in HL.
    eapply Same; eauto. apply Fo. apply ml_signed. tauto.
  - destruct (bool_left K (context cl) l) as [b|] eqn:Eb; [|discriminate]. destruct b; [|discriminate]. specialize (BL _ eq_refl eq_refl). subst T.
    match type of H with (if ?x then _ else _) = _ => destruct x; [|discriminate] end.
    destruct (clause_split (left l) SEq 3) as [[|U [|x [|y [|]]]]|] eqn:Es; try discriminate. apply clause_split_eq in Es. rewrite Es in HL. apply ht_eq_iff in HL. destruct HL as (_ & HU & Hx & Hy).
    eapply Same; eauto. apply Fo. apply ml_new with U; auto.
  - destruct (bool_left K (context cl) l) as [b|] eqn:Eb; [|discriminate]. destruct b; [|discriminate]. specialize (BL _ eq_refl eq_refl). subst T.
    match type of H with (if ?x then _ else _) = _ => destruct x; [|discriminate] end.
    unfold open_quantifier in H. destruct (left l) as [|?|k A body]; try discriminate. destruct (bkind_eq_dec k KAll) as [->|]; [|discriminate].
    rewrite open_bound_spec in H. simpl in H. injection H as <- <-. apply inv_quant in HL; auto. destruct HL as (_ & HA & Hb).
    split; [apply push_mono; auto|]. split; [|eexists; reflexivity]. apply Fo. apply ml_signed. eapply ht_push; eauto.
  - destruct (bool_left K (context cl) l) as [b|] eqn:Eb; [|discriminate]. destruct b; [|discriminate]. specialize (BL _ eq_refl eq_refl). subst T.
    match type of H with (if ?x then _ else _) = _ => destruct x; [|discriminate] end.
    match type of H with (if ?x then _ else _) = _ => destruct x; [discriminate|] end.
    destruct (reduce_exists_with_obvious_witness (left l)) as [[t|]|] eqn:E1; try discriminate.
    eapply Same; eauto. apply Fo. apply ml_signed. clear H.
    unfold reduce_exists_with_obvious_witness in E1. destruct (left l) as [|?|[] A body] eqn:EL; try discriminate.
    destruct (clause_split body SEq 3) as [[|U [|a [|b [|]]]]|] eqn:Es; try discriminate.
    apply inv_quant in HL; auto. destruct HL as (_ & HA & Hb).
    set (w := if term_eqb a (TBound 0) then Some b else if term_eqb b (TBound 0) then Some a else None) in E1.
    assert (Hw : forall v, w = Some v -> (a = TBound 0 /\ v = b) \/ (b = TBound 0 /\ v = a)).
    { unfold w. intros v. destruct (term_eqb a (TBound 0)) eqn:Ea; [apply term_eqb_eq in Ea; intros X; injection X as <-; auto|].
      destruct (term_eqb b (TBound 0)) eqn:Ebb; [apply term_eqb_eq in Ebb; intros X; injection X as <-; auto|discriminate]. }
    destruct w as [v|]; [|discriminate]. specialize (Hw v eq_refl).
    destruct (has_bound_variable v) eqn:Hbv; [discriminate|]. rewrite open_bound_spec in E1.
    assert (Et : t = open_at 0 v body) by (simpl in E1; congruence). subst t. apply clause_split_eq in Es. subst body.
    eapply ht_open; [exact Hb|]. apply ht_strengthen with A; [|apply no_bound_lc; auto]. apply ht_eq_iff in Hb. destruct Hb as (_ & HU & Ha & Hb').
    destruct Hw as [[-> ->]|[-> ->]]; [inversion Ha|inversion Hb']; subst; match goal with [X : nth_error _ _ = _ |- _] => simpl in X; injection X as -> end; auto.
  - discriminate.
  - destruct (bool_left K (context cl) l) as [b|] eqn:Eb; [|discriminate]. destruct b; [|discriminate]. specialize (BL _ eq_refl eq_refl). subst T.
    match type of H with (if ?x then _ else _) = _ => destruct x; [|discriminate] end.
    unfold reduce_negated_forall in H. destruct (left l) as [|?|[] A body]; try discriminate. apply inv_quant in HL; auto. destruct HL as (_ & HA & Hb).
    eapply Same; eauto. apply Fo. apply ml_signed. apply ht_quant; auto. apply ht_not. auto.
  - destruct (bool_left K (context cl) l) as [b|] eqn:Eb; [|discriminate]. destruct b; [|discriminate]. specialize (BL _ eq_refl eq_refl). subst T.
    match type of H with (if ?x then _ else _) = _ => destruct x; [|discriminate] end.
    unfold open_quantifier in H. destruct (left l) as [|?|k A body]; try discriminate. destruct (bkind_eq_dec k KEx) as [->|]; [|discriminate].
    rewrite open_bound_spec in H. simpl in H. injection H as <- <-. apply inv_quant in HL; auto. destruct HL as (_ & HA & Hb).
    split; [apply push_mono; auto|]. split; [|eexists; reflexivity]. apply Fo. apply ml_signed. eapply ht_push; eauto.
  - destruct (bool_left K (context cl) l) as [b|] eqn:Eb; [|discriminate]. destruct b; [|discriminate]. specialize (BL _ eq_refl eq_refl). subst T.
    match type of H with (if ?x then _ else _) = _ => destruct x; [|discriminate] end.
    destruct (clause_split (left l) SAnd 2) as [[|x [|y [|]]]|] eqn:Es; try discriminate. apply clause_split_and in Es. rewrite Es in HL. apply ht_and in HL. eapply Same; eauto. apply Fo. apply ml_signed. tauto.
  - destruct (bool_left K (context cl) l) as [b|] eqn:Eb; [|discriminate]. destruct b; [|discriminate]. specialize (BL _ eq_refl eq_refl). subst T.
    match type of H with (if ?x then _ else _) = _ => destruct x; [|discriminate] end.
    destruct (clause_split (left l) SAnd 2) as [[|x [|y [|]]]|] eqn:Es; try discriminate. apply clause_split_and in Es. rewrite Es in HL. apply ht_and in HL. eapply Same; eauto. apply Fo. apply ml_signed. tauto.
  - destruct (bool_left K (context cl) l) as [b|] eqn:Eb; [|discriminate]. destruct b; [|discriminate]. specialize (BL _ eq_refl eq_refl). subst T.
    match type of H with (if ?x then _ else _) = _ => destruct x; [|discriminate] end.
    destruct (clause_split (left l) SAnd 2) as [[|x [|y [|]]]|] eqn:Es; try discriminate. apply clause_split_and in Es. rewrite Es in HL. apply ht_and in HL. eapply Same; eauto. apply Fn; apply ml_signed; tauto.
  - destruct (bool_left K (context cl) l) as [b|] eqn:Eb; [|discriminate]. destruct b; [|discriminate]. specialize (BL _ eq_refl eq_refl). subst T.
    match type of H with (if ?x then _ else _) = _ => destruct x; [|discriminate] end.
    destruct (clause_split (left l) SOr 2) as [[|x [|y [|]]]|] eqn:Es; try discriminate. apply clause_split_or in Es. rewrite Es in HL. apply ht_or in HL. eapply Same; eauto. apply Fn; apply ml_signed; tauto.
  - destruct (bool_left K (context cl) l) as [b|] eqn:Eb; [|discriminate]. destruct b; [|discriminate]. specialize (BL _ eq_refl eq_refl). subst T.
    match type of H with (if ?x then _ else _) = _ => destruct x; [|discriminate] end.
    destruct (clause_split (left l) SOr 2) as [[|x [|y [|]]]|] eqn:Es; try discriminate. apply clause_split_or in Es. rewrite Es in HL. apply ht_or in HL. eapply Same; eauto. apply Fo; apply ml_signed; tauto.
  - destruct (bool_left K (context cl) l) as [b|] eqn:Eb; [|discriminate]. destruct b; [|discriminate]. specialize (BL _ eq_refl eq_refl). subst T.
    match type of H with (if ?x then _ else _) = _ => destruct x; [|discriminate] end.
    destruct (clause_split (left l) SOr 2) as [[|x [|y [|]]]|] eqn:Es; try discriminate. apply clause_split_or in Es. rewrite Es in HL. apply ht_or in HL. eapply Same; eauto. apply Fo; apply ml_signed; tauto.
  - destruct (bool_left K (context cl) l) as [b|] eqn:Eb; [|discriminate]. destruct b; [|discriminate]. specialize (BL _ eq_refl eq_refl). subst T.
    match type of H with (if ?x then _ else _) = _ => destruct x; [|discriminate] end. eapply Same; eauto. apply Fn; apply ml_signed; auto.
  - destruct (bool_left K (context cl) l) as [b|] eqn:Eb; [|discriminate]. destruct b; [|discriminate]. specialize (BL _ eq_refl eq_refl). subst T.
    match type of H with (if ?x then _ else _) = _ => destruct x; [|discriminate] end. eapply Same; eauto. apply Fn; apply ml_signed; auto.
  - destruct (bool_left K (context cl) l) as [b|] eqn:Eb; [|discriminate]. destruct b; [|discriminate]. specialize (BL _ eq_refl eq_refl). subst T.
    match type of H with (if ?x then _ else _) = _ => destruct x; [|discriminate] end. eapply Same; eauto. apply Fn; apply ml_signed; auto.
  - destruct (bool_left K (context cl) l) as [b|] eqn:Eb; [|discriminate]. destruct b; [|discriminate]. specialize (BL _ eq_refl eq_refl). subst T.
    match type of H with (if ?x then _ else _) = _ => destruct x; [|discriminate] end. eapply Same; eauto. apply Fn; apply ml_signed; auto.
Qed.

Lemma ml_extend G ext l : ml G l -> ml (G ++ ext) l.
Proof.
  intros (T & HT & H1 & H2). exists T. split; auto.
  assert (X : forall i U, get_var_type G i = Some U -> get_var_type (G ++ ext) i = Some U).
  { intros i U. unfold get_var_type. destruct (nth_error G i) eqn:E; [|discriminate]. rewrite nth_error_app1, E; auto. apply nth_error_Some. congruence. }
  split; eapply ht_weaken; eauto.
Qed.
Lemma mt_reduced n cl k i ls c : reduced_literals n K cl k i = Some (Some (ls, c)) -> mt cl -> mt (Clause ls c).
Proof.
  unfold reduced_literals. destruct (nth_error (literals cl) i) as [l|] eqn:El; [|discriminate].
  destruct (replacement n K cl k l) as [[[r c1]|]|] eqn:Er; simpl; try discriminate. intros H; injection H as <- <-.
  rewrite !mt_in. simpl. intros [HG HL]. destruct (ml_replacement _ _ _ _ _ _ Er HG (HL l (nth_error_In _ _ El))) as (H1 & H2 & ext & ->).
  split; auto. intros x Hx. unfold with_replaced_literal in Hx. rewrite !in_app_iff in Hx.
  assert (Fi : forall j (L : list literal) y, In y (firstn j L) -> In y L) by (induction j; intros [|z L] y; simpl; try tauto; intros [->|Hy]; auto).
  assert (Sk : forall j (L : list literal) y, In y (skipn j L) -> In y L) by (induction j; intros [|z L] y; simpl; try tauto; intros Hy; right; apply IHj; auto).
  destruct Hx as [Hx|[Hx|Hx]]; auto; apply ml_extend, HL; eauto.
Qed.
Lemma mono_trace n t c' : checked_trace M n t c' -> mt (fst (fst t)) -> mo c'.
Proof.
  intros (_ & c1 & [c2 i1] & [c3 i2] & E1 & E2 & _ & E3 & _ & ->) H. simpl in *. apply (mt_subterms M K) in E1; auto. destruct E1 as [A1 A2].
  destruct c1 as [l1 G1]. destruct (mt_prefilled M K _ _ _ _ _ E2 A1) as [B1 B2].
  destruct c2 as [l2 G2]. destruct (mt_prefilled M K _ _ _ _ _ E3 B1) as [C1 C2]. split; auto. apply C2, B2. exact A2.
Qed.
Lemma mono_result n ls G c' : checked_result M n ls G c' -> mt (Clause ls G) -> mo c'.
Proof.
  intros ([c1 ids] & E & Hc) H. apply mono_trace in Hc; auto. simpl. eapply mt_prefilled; eauto.
Qed.
Lemma mono_reduction n cl k i t c' : boolean_reduction_at n K cl k i = Some (Some t) -> checked_trace M n t c' -> mt cl -> mo c'.
Proof.
  unfold boolean_reduction_at. destruct (reduced_literals n K cl k i) as [[[ls c]|]|] eqn:Er; try discriminate.
  destruct (normalize_boolean_reduction ls c (length (context cl))) as [t0|] eqn:En; [|discriminate]. intros H Hc Hm. injection H as ->.
  apply mt_reduced in Er; auto. apply mono_trace in Hc; auto.
  unfold normalize_boolean_reduction in En. destruct (normalize_with_trace ls c) as [[e ids]|]; [|discriminate].
  destruct (normalize_with_var_ids_prefilled ls c (filter (fun v => Nat.ltb v (length (context cl))) ids)) as [[d' ids']|] eqn:E2; [|discriminate].
  injection En as <-. simpl. eapply mt_prefilled; eauto.
Qed.
End MR.
