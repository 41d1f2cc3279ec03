(** The normalizations of terms, literals and clauses keep the typing of Monomorphic.v. *)
From Coq Require Import List Arith NArith Bool Lia.
Import ListNotations.
From Verif Require Import VariableMap Unifier Inference BoolReduction ClauseSet EqualityGraph Checker.
From Verif Require Import Term LocalContext Semantics TermProofs SemFacts TermNorm TermNormProofs Typing TypingProofs Literal Clause RenumberProofs ClauseProofs InferenceProofs
  Monomorphic MonoProofs.

Lemma ground_head T : ground_type T = true -> head_atom T = Sym SBool \/ exists m i, head_atom T = Sym (SType m i).
Proof.
  induction T as [[i|i|s]|f IHf a IHa|k A IHA b IHb]; simpl; try discriminate.
  - destruct s; try discriminate; eauto.
  - intros H. apply andb_prop in H. apply IHf, H.
  - destruct k; try discriminate. intros H. apply andb_prop in H. apply IHA, H.
Qed.
Lemma ground_no_split T s n : ground_type T = true -> is_connective s = true -> split_symbol_application T s n = None.
Proof.
  intros H Hs. destruct (split_symbol_application T s n) eqn:E; auto. apply split_some in E. destruct E as (_ & _ & _ & E).
  destruct (ground_head T H) as [G|(m & i & G)]; rewrite G in E; injection E as <-; discriminate.
Qed.
Lemma ground_eq_none T : ground_type T = true -> normalize_fully_applied_eq T = None.
Proof. intros H. unfold normalize_fully_applied_eq. rewrite ground_no_split; auto. Qed.
Lemma ground_cancel_none T : ground_type T = true -> cancel_double_negation T = None.
Proof. intros H. unfold cancel_double_negation. rewrite ground_no_split; auto. Qed.

Definition fixes (f : term -> option term) : Prop :=
  (forall a r, f (TAtom a) = Some r -> r = TAtom a) /\ (forall T r, ground_type T = true -> f T = Some r -> r = T).
Lemma ground_map_children f T u : fixes f -> ground_type T = true -> map_children f T = Some u -> u = T.
Proof.
  intros [F1 F2] H. destruct T as [a|g a|k A b]; simpl; unfold obind.
  - congruence.
  - simpl in H. apply andb_prop in H. destruct H. destruct (f g) eqn:E1; [|discriminate]. destruct (f a) eqn:E2; [|discriminate].
    apply F2 in E1; auto. apply F2 in E2; auto. congruence.
  - simpl in H. destruct k; try discriminate. apply andb_prop in H. destruct H. destruct (f A) eqn:E1; [|discriminate]. destruct (f b) eqn:E2; [|discriminate].
    apply F2 in E1; auto. apply F2 in E2; auto. congruence.
Qed.
Lemma ground_beta T : ground_type T = true -> beta_head T = None.
Proof. destruct T as [a|[| |[]] a|k A b]; simpl; auto; discriminate. Qed.
Lemma ground_eta T : ground_type T = true -> eta_head T = None.
Proof. destruct T as [a|f a|[] A b]; simpl; auto; discriminate. Qed.

Lemma normalize_fixes n : fixes (normalize_term n).
Proof.
  induction n as [|n IH]; [split; intros; discriminate|]. split.
  - intros a r. simpl. intros H. injection H as <-. reflexivity.
  - intros T r H. cbn [normalize_term]. unfold obind. destruct (map_children (normalize_term n) T) as [u|] eqn:E; [|discriminate].
    apply ground_map_children in E; auto. subst u. rewrite ground_beta, ground_eta, ground_cancel_none by auto. simpl.
    rewrite ground_eq_none by auto. simpl. congruence.
Qed.
Lemma clause_pol_fixes n : fixes (fun t => clause_term_pol n t true).
Proof.
  induction n as [|n IH]; [split; intros; discriminate|]. split.
  - intros a r. simpl. congruence.
  - intros T r H. cbn [clause_term_pol]. rewrite !ground_no_split by auto.
    pose proof (ground_map_children (fun t => clause_term_pol n t true) T) as G.
    destruct T as [a|f a|k A b].
    + congruence.
    + specialize (G (match clause_term_pol n f true, clause_term_pol n a true with Some x, Some y => TApp x y | _, _ => ttrue end) IH H). simpl in G. unfold obind in *.
      destruct (clause_term_pol n f true); [|discriminate]. destruct (clause_term_pol n a true); [|discriminate].
      rewrite G by auto. rewrite ground_eq_none by auto. simpl. congruence.
    + destruct k; try discriminate.
      specialize (G (match clause_term_pol n A true, clause_term_pol n b true with Some x, Some y => TBind KPi x y | _, _ => ttrue end) IH H). simpl in G. unfold obind in *.
      destruct (clause_term_pol n A true); [|discriminate]. destruct (clause_term_pol n b true); [|discriminate].
      rewrite G by auto. congruence.
Qed.

Ltac nrd := simpl in *; rewrite ?andb_true_r, ?andb_true_iff in *; intuition.

Section MN.
Context (M : Model) (K : kctx) (CT : closed_types K).
Notation et := (element_type M).
Notation ht := (has_type M K).

Lemma ht_spine G bs t T : ht G bs t T -> (exists U, ht G bs (spine_head t) U) \/ spine_head t = TSym SEq \/ spine_head t = TSym SIte.
Proof.
  induction 1; simpl; auto.
  - left. eexists. apply ht_var; eauto.
  - left. eexists. apply ht_bound; eauto.
  - left. eexists. apply ht_sym; eauto.
  - left. eexists. eapply ht_lam; eauto.
  - left. eexists. eapply ht_quant; eauto.
Qed.
Lemma ht_head G bs t T s : ht G bs t T -> head_atom t = Sym s -> is_connective s = true -> spine_head t = TSym s.
Proof.
  intros H Hh Hs. rewrite head_spine in Hh.
  destruct (ht_spine _ _ _ _ H) as [[U HU]|[E|E]]; [|rewrite E in Hh |- *; simpl in Hh; congruence|rewrite E in Hh |- *; simpl in Hh; congruence].
  destruct (spine_head_shape t) as [[a E]|(k & A & b & E)]; rewrite E in *; [simpl in Hh; congruence|].
  assert (HA : ground_type A = true) by (inversion HU; subst; eapply et_ground; eauto). simpl in Hh.
  destruct (ground_head A HA) as [X|(m & i & X)]; rewrite X in Hh; injection Hh as <-; discriminate.
Qed.
Lemma ht_split G bs t T s n l : ht G bs t T ->
  split_symbol_application t s n = Some l -> is_connective s = true -> t = fold_left TApp l (TSym s).
Proof.
  intros H Hs Hc. apply split_some in Hs. destruct Hs as (-> & _ & _ & Hh).
  rewrite <- (ht_head _ _ _ _ _ H Hh Hc). apply spine_eq.
Qed.

(** Inversions. *)
Lemma no_eq_sym G bs U : ~ ht G bs (TSym SEq) U. Proof. intros H. inversion H; subst; discriminate. Qed.
Lemma no_ite_sym G bs U : ~ ht G bs (TSym SIte) U. Proof. intros H. inversion H; subst; discriminate. Qed.
Lemma inv_app G bs f a T : ht G bs (TApp f a) T ->
  (f = TSym SEq /\ et a /\ T = tarrow a (tarrow a tbool)) \/ (f = TSym SIte /\ et a /\ T = tarrow tbool (tarrow a (tarrow a a))) \/
  (exists A, ht G bs f (TBind KPi A T) /\ et A /\ lc T /\ ht G bs a A) \/
  (exists k B, ht G bs f (TBind KPi k B) /\ type_arg M k a /\ open_bound B a = Some T).
Proof.
  intros H. inversion H; subst; auto.
  - right. right. left. eauto 6.
  - right. right. right. eauto 6.
Qed.
(** an application to an argument of an element type *)
Lemma inv_fun G bs f a T A B : ht G bs (TApp f a) T -> ht G bs f (TBind KPi A B) -> et A -> T = B /\ ht G bs a A.
Proof.
  intros H Hf HA. apply inv_app in H. destruct H as [(-> & _)|[(-> & _)|[(A' & H1 & H2 & H3 & H4)|(k & B' & H1 & H2 & H3)]]].
  - apply no_eq_sym in Hf. destruct Hf.
  - apply no_ite_sym in Hf. destruct Hf.
  - pose proof (ht_unique_bs M K _ _ _ _ _ Hf H1) as E. injection E as -> ->. auto.
  - pose proof (ht_unique_bs M K _ _ _ _ _ Hf H1) as E. injection E as -> ->. destruct H2 as [H2 _]. rewrite (et_not_kind M) in H2; auto. discriminate.
Qed.
Notation eb := (et_bool M).
Lemma bool_not_et : et (tarrow tbool tbool). Proof. apply et_arrow; auto using eb. Qed.
Lemma ht_not G bs x T : ht G bs (tnot x) T <-> T = tbool /\ ht G bs x tbool.
Proof.
  split.
  - intros H. apply (inv_fun _ _ _ _ _ tbool tbool H); [apply (ht_sym M K G bs SNot eq_refl)|apply eb].
  - intros [-> H]. eapply ht_app; [apply (ht_sym M K G bs SNot eq_refl)|apply eb|reflexivity|auto].
Qed.
Lemma ht_conn2 s G bs x y T : symbol_type K s = tarrow tbool (tarrow tbool tbool) -> value_symbol s = true ->
  (ht G bs (TApp (TApp (TSym s) x) y) T <-> T = tbool /\ ht G bs x tbool /\ ht G bs y tbool).
Proof.
  intros Es Hs. pose proof (ht_sym M K G bs s Hs) as H0. rewrite Es in H0. split.
  - intros H. pose proof H as H'. apply inv_app in H'.
    assert (X : ht G bs (TApp (TSym s) x) (tarrow tbool tbool)).
    { destruct H' as [(E & _)|[(E & _)|[(A & H1 & _)|(k & B & H1 & _)]]]; try discriminate.
      - destruct (inv_fun _ _ _ _ _ _ _ H1 H0 eb) as [E _]. rewrite E in H1. exact H1.
      - destruct (inv_fun _ _ _ _ _ _ _ H1 H0 eb) as [E _]. rewrite E in H1. exact H1. }
    destruct (inv_fun _ _ _ _ _ _ _ X H0 eb) as [_ Hx]. destruct (inv_fun _ _ _ _ _ _ _ H X eb). auto.
  - intros (-> & Hx & Hy). eapply ht_app; [|apply eb|reflexivity|exact Hy].
    eapply ht_app; [exact H0|apply eb|reflexivity|exact Hx].
Qed.
Lemma ht_and G bs x y T : ht G bs (tand x y) T <-> T = tbool /\ ht G bs x tbool /\ ht G bs y tbool.
Proof. apply ht_conn2; auto. Qed.
Lemma ht_or G bs x y T : ht G bs (tor x y) T <-> T = tbool /\ ht G bs x tbool /\ ht G bs y tbool.
Proof. apply ht_conn2; auto. Qed.
Lemma fun_typed G bs f a T : ht G bs (TApp f a) T -> f = TSym SEq \/ f = TSym SIte \/ exists A B, ht G bs f (TBind KPi A B).
Proof. intros H. apply inv_app in H. destruct H as [(-> & _)|[(-> & _)|[(A & H1 & _)|(k & B & H1 & _)]]]; eauto 6. Qed.
Lemma ht_eq_iff G bs A x y T : ht G bs (teq A x y) T <-> T = tbool /\ et A /\ ht G bs x A /\ ht G bs y A.
Proof.
  split.
  - intros H. unfold teq in H. destruct (fun_typed _ _ _ _ _ H) as [E|[E|(A1 & B1 & H1)]]; try discriminate.
    destruct (fun_typed _ _ _ _ _ H1) as [E|[E|(A2 & B2 & H2)]]; try discriminate.
    pose proof H2 as H3. apply inv_app in H3. destruct H3 as [(_ & HA & _)|[(E & _)|[(? & H3 & _)|(? & ? & H3 & _)]]]; try discriminate; try (apply no_eq_sym in H3; destruct H3).
    pose proof (ht_eq M K G bs A HA) as H4.
    destruct (inv_fun _ _ _ _ _ _ _ H1 H4 HA) as [E Hx]. rewrite E in H1. destruct (inv_fun _ _ _ _ _ _ _ H H1 HA). auto.
  - intros (-> & HA & Hx & Hy). eapply ht_app; [|exact HA|reflexivity|exact Hy].
    eapply ht_app; [apply ht_eq; auto|exact HA| |exact Hx]. apply (et_lc M (tarrow A tbool)), et_arrow. auto using eb.
Qed.
Lemma ht_ite_iff G bs A c x y T : ht G bs (tite A c x y) T <-> T = A /\ et A /\ ht G bs c tbool /\ ht G bs x A /\ ht G bs y A.
Proof.
  split.
  - intros H. unfold tite in H. destruct (fun_typed _ _ _ _ _ H) as [E|[E|(A1 & B1 & H1)]]; try discriminate.
    destruct (fun_typed _ _ _ _ _ H1) as [E|[E|(A2 & B2 & H2)]]; try discriminate.
    destruct (fun_typed _ _ _ _ _ H2) as [E|[E|(A3 & B3 & H3)]]; try discriminate.
    pose proof H3 as H5. apply inv_app in H5. destruct H5 as [(E & _)|[(_ & HA & _)|[(? & H5 & _)|(? & ? & H5 & _)]]]; try discriminate; try (apply no_ite_sym in H5; destruct H5).
    pose proof (ht_ite M K G bs A HA) as H4.
    destruct (inv_fun _ _ _ _ _ _ _ H2 H4 eb) as [E Hc]. rewrite E in H2. destruct (inv_fun _ _ _ _ _ _ _ H1 H2 HA) as [E1 Hx].
    rewrite E1 in H1. destruct (inv_fun _ _ _ _ _ _ _ H H1 HA). auto.
  - intros (-> & HA & Hc & Hx & Hy).
    assert (L1 : et (tarrow A A)) by (apply et_arrow; auto). assert (L2 : et (tarrow A (tarrow A A))) by (apply et_arrow; auto).
    eapply ht_app; [|exact HA| |exact Hy]; [|apply (et_lc M); auto].
    eapply ht_app; [|exact HA| |exact Hx]; [|apply (et_lc M (tarrow A A)); auto].
    eapply ht_app; [apply ht_ite; auto|apply eb| |exact Hc]. apply (et_lc M _ 0 L2).
Qed.
Lemma ht_true G bs : ht G bs ttrue tbool.
Proof. exact (ht_sym M K G bs STrue eq_refl). Qed.
Lemma ht_false G bs : ht G bs tfalse tbool.
Proof. exact (ht_sym M K G bs SFalse eq_refl). Qed.
Lemma ht_is_true G bs t T : ht G bs t T -> is_true t = true -> t = ttrue /\ T = tbool.
Proof.
  intros H Ht. unfold is_true in Ht. destruct (head_atom t) as [|?|s] eqn:E; try discriminate. destruct s; try discriminate.
  pose proof (ht_head _ _ _ _ _ H E eq_refl) as Hs. pose proof (spine_eq t) as Es. rewrite Hs in Es.
  assert (Gn : forall l, l <> [] -> forall U, ~ ht G bs (fold_left TApp l (TSym STrue)) U).
  { induction l as [|a l IH] using rev_ind; intros Hl U HU; [auto|]. rewrite fold_left_app in HU. simpl in HU.
    destruct (fun_typed _ _ _ _ _ HU) as [X|[X|(A & B & X)]].
    - destruct l as [|b l _] using rev_ind; [discriminate|]. rewrite fold_left_app in X. discriminate.
    - destruct l as [|b l _] using rev_ind; [discriminate|]. rewrite fold_left_app in X. discriminate.
    - destruct l as [|b l]; [|apply (IH ltac:(discriminate) _ X)]. simpl in X.
      pose proof (ht_unique_bs M K _ _ _ _ _ X (ht_true G bs)) as Q. discriminate. }
  destruct (args t) as [|a l]; [|exfalso; rewrite Es in H; exact (Gn (a :: l) ltac:(discriminate) _ H)].
  simpl in Es. subst t. split; auto. exact (ht_unique_bs M K _ _ _ _ _ H (ht_true G bs)).
Qed.

(** Normalization of terms. *)
Lemma ht_map_children f G t u bs T : fixes f -> (forall t t' bs T, f t = Some t' -> ht G bs t T -> ht G bs t' T) ->
  map_children f t = Some u -> ht G bs t T -> ht G bs u T.
Proof.
  intros [F1 F2] Hf E H. destruct H; simpl in E; unfold obind in E; try (injection E as <-; econstructor; eauto; fail).
  - destruct (f (TSym SEq)) eqn:E1; [|discriminate]. destruct (f T) eqn:E2; [|discriminate]. apply F1 in E1. apply F2 in E2; [|eapply et_ground; eauto].
    injection E as <-. subst. apply ht_eq; auto.
  - destruct (f (TSym SIte)) eqn:E1; [|discriminate]. destruct (f T) eqn:E2; [|discriminate]. apply F1 in E1. apply F2 in E2; [|eapply et_ground; eauto].
    injection E as <-. subst. apply ht_ite; auto.
  - destruct (f f0) eqn:E1; [|discriminate]. destruct (f a) eqn:E2; [|discriminate]. injection E as <-. eapply ht_app; eauto.
  - destruct (f f0) eqn:E1; [|discriminate]. destruct (f T) eqn:E2; [|discriminate]. injection E as <-. apply F2 in E2; [|apply H0]. subst. eapply ht_inst; eauto.
  - destruct (f A) eqn:E1; [|discriminate]. destruct (f b) eqn:E2; [|discriminate]. apply F2 in E1; [|eapply et_ground; eauto].
    injection E as <-. subst. apply ht_lam; eauto.
  - destruct (f A) eqn:E1; [|discriminate]. destruct (f b) eqn:E2; [|discriminate]. apply F2 in E1; [|eapply et_ground; eauto].
    injection E as <-. subst. apply ht_quant; eauto.
Qed.
Lemma inv_lam G bs A b T : ht G bs (TBind KLam A b) T ->
  exists B, T = tarrow A B /\ et A /\ mem M (ev M (nobs M) A) (dsym M SType0) /\ et B /\ ht G (A :: bs) b B.
Proof. intros H. inversion H; subst; [eauto 8|]. match goal with [X : _ \/ _ |- _] => destruct X; discriminate end. Qed.
Lemma inv_quant G bs k A b T : k = KAll \/ k = KEx -> ht G bs (TBind k A b) T -> T = tbool /\ et A /\ ht G (A :: bs) b tbool.
Proof. intros Hk H. inversion H; subst; [destruct Hk; discriminate|auto]. Qed.
Lemma ht_beta G bs t r T : ht G bs t T -> beta_head t = Some r -> ht G bs r T.
Proof.
  destruct t as [|[| |[] A b] a|]; simpl; try discriminate. intros H E. rewrite open_bound_spec in E. injection E as <-.
  pose proof H as H'. apply inv_app in H'. destruct H' as [(X & _)|[(X & _)|[(A' & H1 & _)|(k & B & H1 & H2 & H3)]]]; try discriminate.
  - apply inv_lam in H1. destruct H1 as (B & E & HA & HM & HB & Hb). injection E as -> ->.
    destruct (inv_fun _ _ _ _ _ _ _ H (ht_lam M K G bs A b B HA HM HB Hb) HA) as [_ Ha]. eapply ht_open; eauto.
  - apply inv_lam in H1. destruct H1 as (B' & E & HA & _). injection E as -> ->. destruct H2 as [H2 _]. rewrite (et_not_kind M) in H2; auto. discriminate.
Qed.
Lemma ground_unshift T : forall c k, ground_type (shift_up c k T) = true -> shift_up c k T = T.
Proof.
  induction T as [[i|i|s]|f IHf a IHa|kk A IHA b IHb]; intros c k; simpl; auto.
  - destruct (Nat.leb c i); simpl; discriminate.
  - intros H. apply andb_prop in H. rewrite IHf, IHa; tauto.
  - destruct kk; simpl; try discriminate. intros H. apply andb_prop in H. rewrite IHA, IHb; tauto.
Qed.
Lemma et_unshift T c k : et (shift_up c k T) -> shift_up c k T = T.
Proof. intros H. apply ground_unshift. eapply et_ground; eauto. Qed.
Lemma ht_unshift G t : forall b1 b b2 T, ht G (b1 ++ b ++ b2) (shift_up (length b1) (length b) t) T -> ht G (b1 ++ b2) t T.
Proof.
  induction t as [[i|i|s]|f IHf a IHa|k A IHA b0 IHb]; intros b1 b b2 T H; simpl in H.
  - inversion H; subst. apply ht_var; auto.
  - destruct (Nat.leb_spec (length b1) i); inversion H; subst; apply ht_bound; auto.
    + rewrite !nth_error_app2 in H2 by lia. rewrite nth_error_app2 by lia. rewrite <- H2. f_equal. lia.
    + rewrite nth_error_app1 in * by lia. auto.
  - inversion H; subst. apply ht_sym; auto.
  - assert (Sy : forall s, shift_up (length b1) (length b) f = TSym s -> f = TSym s).
    { destruct f as [[i|i|s']|?|?]; simpl; intros s; try discriminate; auto. destruct (Nat.leb _ i); discriminate. }
    apply inv_app in H. destruct H as [(E & H1 & ->)|[(E & H1 & ->)|[(A' & H1 & H2 & H3 & H4)|(k & B' & H1 & H2 & H3)]]].
    + apply Sy in E. subst. rewrite et_unshift in * by auto. apply ht_eq; auto.
    + apply Sy in E. subst. rewrite et_unshift in * by auto. apply ht_ite; auto.
    + eapply ht_app; eauto.
    + rewrite ground_unshift in * by apply H2. eapply ht_inst; eauto.
  - destruct k.
    + inversion H; subst. match goal with [X : _ \/ _ |- _] => destruct X; discriminate end.
    + apply inv_lam in H. destruct H as (B & -> & HA & HM & HB & Hb). rewrite et_unshift in * by auto.
      apply ht_lam; auto. apply (IHb (A :: b1) b b2). exact Hb.
    + apply inv_quant in H; auto. destruct H as (-> & HA & Hb). rewrite et_unshift in * by auto. apply ht_quant; auto. apply (IHb (A :: b1) b b2). exact Hb.
    + apply inv_quant in H; auto. destruct H as (-> & HA & Hb). rewrite et_unshift in * by auto. apply ht_quant; auto. apply (IHb (A :: b1) b b2). exact Hb.
Qed.
Lemma ht_eta G bs t r T : ht G bs t T -> eta_head t = Some r -> ht G bs r T.
Proof.
  destruct t as [| |[] A [|f [[|[|]|]| |]|]]; simpl; try discriminate. intros H E.
  destruct (references_bound 0 f) eqn:Hr; [discriminate|]. apply (TermNormProofs.shift_down_up f r 0 Hr) in E. subst f.
  apply inv_lam in H. destruct H as (B & -> & HA & HM & HB & Hb).
  apply inv_app in Hb. destruct Hb as [(_ & X & _)|[(_ & X & _)|[(A' & H1 & H2 & H3 & H4)|(k & B' & H1 & H2 & H3)]]].
  - apply et_ground in X. discriminate.
  - apply et_ground in X. discriminate.
  - inversion H4; subst. match goal with [X : nth_error _ 0 = _ |- _] => injection X as <- end.
    apply (ht_unshift G r [] [A] bs). exact H1.
  - destruct H2 as (_ & X & _). discriminate.
Qed.
Lemma ht_norm_eq G bs t T : ht G bs t T -> ht G bs (unwrap_or (normalize_fully_applied_eq t) t) T.
Proof.
  intros H. unfold normalize_fully_applied_eq. destruct (split_symbol_application t SEq 3) as [[|U [|x [|y [|? ?]]]]|] eqn:Hs; simpl; auto.
  pose proof (ht_split _ _ _ _ _ _ _ H Hs eq_refl) as E. change (t = teq U x y) in E. subst t. apply ht_eq_iff in H. destruct H as (-> & HU & Hx & Hy).
  destruct (eq_ordered x y); simpl; apply ht_eq_iff; auto.
Qed.
Lemma ht_cancel G bs t T : ht G bs t T -> ht G bs (unwrap_or (cancel_double_negation t) t) T.
Proof.
  intros H. unfold cancel_double_negation. destruct (split_symbol_application t SNot 1) as [[|x [|? ?]]|] eqn:Hs; simpl; auto.
  pose proof (ht_split _ _ _ _ _ _ _ H Hs eq_refl) as E. change (t = tnot x) in E. subst t. pose proof H as H0. apply ht_not in H0. destruct H0 as (-> & Hx).
  destruct (split_symbol_application x SNot 1) as [[|y [|? ?]]|] eqn:Hs2; simpl; auto.
  pose proof (ht_split _ _ _ _ _ _ _ Hx Hs2 eq_refl) as E. change (x = tnot y) in E. subst x. apply ht_not in Hx. apply Hx.
Qed.
Lemma ht_normalize n G : forall t t' bs T, normalize_term n t = Some t' -> ht G bs t T -> ht G bs t' T.
Proof.
  induction n as [|n IH]; intros t t' bs T; simpl; [discriminate|]. unfold obind.
  destruct (map_children (normalize_term n) t) as [u|] eqn:E1; [|discriminate]. intros H Ht.
  pose proof (ht_map_children _ _ _ _ _ _ (normalize_fixes n) IH E1 Ht) as Hu.
  destruct (beta_head u) as [r|] eqn:E2; [eapply IH; eauto using ht_beta|].
  destruct (eta_head u) as [r|] eqn:E3; [eapply IH; eauto using ht_eta|].
  injection H as <-. apply ht_norm_eq, ht_cancel, Hu.
Qed.
Lemma nf_no_redex t : nf t -> no_redex t = true.
Proof.
  induction t as [a|f IHf a IHa|k A IHA b IHb]; simpl; auto.
  - intros (H1 & H2 & H3 & _). rewrite IHf, IHa by auto. simpl. destruct f as [| |[]]; auto.
    rewrite open_bound_spec in H3. discriminate.
  - intros (H1 & H2 & _). rewrite IHA, IHb; auto.
Qed.

Definition is_lam (t : term) : bool := match t with TBind KLam _ _ => true | _ => false end.
Lemma no_redex_app f a : no_redex (TApp f a) = no_redex f && no_redex a && negb (is_lam f).
Proof. simpl. destruct f as [| |[]]; auto. Qed.
Lemma ht_pol n G : forall t pos t' bs T, clause_term_pol n t pos = Some t' -> ht G bs t T -> (pos = false -> T = tbool) ->
  ht G bs t' T /\ (no_redex t = true -> no_redex t' = true) /\ (T <> tbool -> is_lam t' = is_lam t).
Proof.
  induction n as [|n IH]; intros t pos t' bs T H Ht Hp; [discriminate|]. cbn [clause_term_pol] in H.
  destruct (split_symbol_application t SNot 1) as [l|] eqn:S1.
  { pose proof (ht_split _ _ _ _ _ _ _ Ht S1 eq_refl) as E. apply split_some in S1. destruct S1 as (_ & Ll & _).
    destruct l as [|x [|? ?]]; try discriminate. change (t = tnot x) in E. subst t. apply ht_not in Ht. destruct Ht as [-> Hx].
    destruct (IH _ _ _ _ _ H Hx (fun _ => eq_refl)) as (H1 & H2 & _). split; auto. split; [|congruence].
    unfold tnot. rewrite no_redex_app. simpl. intros X. rewrite andb_true_r in X. auto. }
  destruct (split_symbol_application t SAnd 2) as [l|] eqn:S2.
  { pose proof (ht_split _ _ _ _ _ _ _ Ht S2 eq_refl) as E. apply split_some in S2. destruct S2 as (_ & Ll & _).
    destruct l as [|x [|y [|? ?]]]; try discriminate. change (t = tand x y) in E. subst t. apply ht_and in Ht. destruct Ht as (-> & Hx & Hy).
    unfold obind in H. destruct (clause_term_pol n x pos) as [x'|] eqn:Ex; [|discriminate]. destruct (clause_term_pol n y pos) as [y'|] eqn:Ey; [|discriminate]. injection H as <-.
    destruct (IH _ _ _ _ _ Ex Hx (fun _ => eq_refl)) as (H1 & H2 & _). destruct (IH _ _ _ _ _ Ey Hy (fun _ => eq_refl)) as (H3 & H4 & _).
    split; [destruct pos; [apply ht_and|apply ht_or]; auto|]. split; [|congruence].
    simpl. intros X. rewrite !andb_true_r in X. apply andb_prop in X. destruct X as [X1 X2]. destruct pos; simpl; rewrite H2, H4; auto. }
  destruct (split_symbol_application t SOr 2) as [l|] eqn:S3.
  { pose proof (ht_split _ _ _ _ _ _ _ Ht S3 eq_refl) as E. apply split_some in S3. destruct S3 as (_ & Ll & _).
    destruct l as [|x [|y [|? ?]]]; try discriminate. change (t = tor x y) in E. subst t. apply ht_or in Ht. destruct Ht as (-> & Hx & Hy).
    unfold obind in H. destruct (clause_term_pol n x pos) as [x'|] eqn:Ex; [|discriminate]. destruct (clause_term_pol n y pos) as [y'|] eqn:Ey; [|discriminate]. injection H as <-.
    destruct (IH _ _ _ _ _ Ex Hx (fun _ => eq_refl)) as (H1 & H2 & _). destruct (IH _ _ _ _ _ Ey Hy (fun _ => eq_refl)) as (H3 & H4 & _).
    split; [destruct pos; [apply ht_or|apply ht_and]; auto|]. split; [|congruence].
    simpl. intros X. rewrite !andb_true_r in X. apply andb_prop in X. destruct X as [X1 X2]. destruct pos; simpl; rewrite H2, H4; auto. }
  clear S1 S2 S3. destruct t as [a|f a|k A b].
  - injection H as <-. destruct pos; [auto|]. rewrite (Hp eq_refl) in *. split; [apply ht_not; auto|]. split; [auto|congruence].
  - unfold obind in H. destruct (clause_term_pol n f true) as [f'|] eqn:Ef; [|discriminate]. destruct (clause_term_pol n a true) as [a'|] eqn:Ea; [|discriminate]. injection H as <-.
    destruct (clause_pol_fixes n) as [F1 F2]. cbv beta in F1, F2.
    assert (Hr : ht G bs (TApp f' a') T /\ (no_redex (TApp f a) = true -> no_redex (TApp f' a') = true)).
    { rewrite !no_redex_app. pose proof Ht as Hi. apply inv_app in Hi. destruct Hi as [(-> & H1 & ->)|[(-> & H1 & ->)|[(A' & H1 & H2 & H3 & H4)|(k & B' & H1 & H2 & H3)]]].
      - apply F1 in Ef. apply F2 in Ea; [|eapply et_ground; eauto]. subst. split; auto.
      - apply F1 in Ef. apply F2 in Ea; [|eapply et_ground; eauto]. subst. split; auto.
      - destruct (IH _ _ _ _ _ Ef H1) as (I1 & I2 & I3); [discriminate|]. destruct (IH _ _ _ _ _ Ea H4) as (J1 & J2 & _); [discriminate|].
        split; [eapply ht_app; eauto|]. rewrite I3 by discriminate. intros X. apply andb_prop in X. destruct X as [X1 X2]. apply andb_prop in X1. rewrite I2, J2, X2 by tauto. auto.
      - destruct (IH _ _ _ _ _ Ef H1) as (I1 & I2 & I3); [discriminate|]. apply F2 in Ea; [|apply H2]. subst a'.
        split; [eapply ht_inst; eauto|]. rewrite I3 by discriminate. intros X. apply andb_prop in X. destruct X as [X1 X2]. apply andb_prop in X1. rewrite I2, X2 by tauto. simpl. rewrite andb_true_r. tauto. }
    destruct Hr as [H1 H2]. pose proof (ht_norm_eq _ _ _ _ H1) as H3.
    assert (H4 : no_redex (TApp f a) = true -> no_redex (unwrap_or (normalize_fully_applied_eq (TApp f' a')) (TApp f' a')) = true).
    { intros X. specialize (H2 X). clear - H1 H2 M. unfold normalize_fully_applied_eq.
      destruct (split_symbol_application (TApp f' a') SEq 3) as [[|U [|x [|y [|? ?]]]]|] eqn:Hs; auto.
      pose proof (ht_split _ _ _ _ _ _ _ H1 Hs eq_refl) as E. change (TApp f' a' = teq U x y) in E. rewrite E in *.
      destruct (eq_ordered x y); auto. simpl in H2 |- *. rewrite !andb_true_r in *. apply andb_prop in H2. destruct H2 as [H2 ->]. apply andb_prop in H2. destruct H2 as [-> ->]. auto. }
    assert (H5 : is_lam (unwrap_or (normalize_fully_applied_eq (TApp f' a')) (TApp f' a')) = false).
    { unfold normalize_fully_applied_eq. destruct (split_symbol_application (TApp f' a') SEq 3) as [[|U [|x [|y [|? ?]]]]|]; auto. destruct (eq_ordered x y); auto. }
    cbn zeta. set (r := unwrap_or (normalize_fully_applied_eq (TApp f' a')) (TApp f' a')) in *. clearbody r.
    destruct pos; [auto|]. rewrite (Hp eq_refl) in *. split; [apply ht_not; auto|]. split; [|congruence].
    intros X. unfold tnot. rewrite no_redex_app, H4; auto.
  - destruct (clause_pol_fixes n) as [F1 F2]. cbv beta in F1, F2.
    destruct k; unfold obind in H; (destruct (clause_term_pol n A true) as [A'|] eqn:EA; [|discriminate]).
    + inversion Ht; subst. match goal with [X : _ \/ _ |- _] => destruct X; discriminate end.
    + destruct (clause_term_pol n b true) as [b'|] eqn:Eb; [|discriminate]. apply inv_lam in Ht. destruct Ht as (B & -> & HA & HM & HB & Hb).
      apply F2 in EA; [|eapply et_ground; eauto]. subst A'. destruct (IH _ _ _ _ _ Eb Hb) as (I1 & I2 & _); [discriminate|].
      destruct pos; [|specialize (Hp eq_refl); discriminate]. injection H as <-. split; [apply ht_lam; auto|]. split; [|auto].
      simpl. intros X. apply andb_prop in X. nrd.
    + destruct (clause_term_pol n b pos) as [b'|] eqn:Eb; [|discriminate]. injection H as <-. apply inv_quant in Ht; auto. destruct Ht as (-> & HA & Hb).
      apply F2 in EA; [|eapply et_ground; eauto]. subst A'. destruct (IH _ _ _ _ _ Eb Hb) as (I1 & I2 & _); [auto|].
      split; [apply ht_quant; auto; destruct pos; auto|]. split; [|congruence].
      destruct pos; simpl; intros X; apply andb_prop in X; nrd.
    + destruct (clause_term_pol n b pos) as [b'|] eqn:Eb; [|discriminate]. injection H as <-. apply inv_quant in Ht; auto. destruct Ht as (-> & HA & Hb).
      apply F2 in EA; [|eapply et_ground; eauto]. subst A'. destruct (IH _ _ _ _ _ Eb Hb) as (I1 & I2 & _); [auto|].
      split; [apply ht_quant; auto; destruct pos; auto|]. split; [|congruence].
      destruct pos; simpl; intros X; apply andb_prop in X; nrd.
Qed.
Lemma ht_polarity G bs t pos T : ht G bs t T -> (pos = false -> T = tbool) ->
  ht G bs (normalize_clause_term_with_polarity t pos) T /\ (no_redex t = true -> no_redex (normalize_clause_term_with_polarity t pos) = true).
Proof.
  intros H Hp. unfold normalize_clause_term_with_polarity. destruct (clause_term_pol_total (term_depth t) t pos (le_n _)) as [t' E]. rewrite E. simpl.
  destruct (ht_pol _ _ _ _ _ _ _ E H Hp) as (H1 & H2 & _). auto.
Qed.
Lemma ht_clause_term G bs t T : ht G bs t T ->
  ht G bs (normalize_clause_term t) T /\ (no_redex t = true -> no_redex (normalize_clause_term t) = true).
Proof. intros H. apply ht_polarity; auto. discriminate. Qed.
Lemma ht_signed n G bs : forall t pos r, signed_clause_term n t pos = Some r -> ht G bs t tbool ->
  ht G bs (fst r) tbool /\ (no_redex t = true -> no_redex (fst r) = true).
Proof.
  induction n as [|n IH]; intros t pos r H Ht; [discriminate|]. cbn [signed_clause_term] in H.
  destruct (split_symbol_application t SNot 1) as [l|] eqn:S1.
  { pose proof (ht_split _ _ _ _ _ _ _ Ht S1 eq_refl) as E. apply split_some in S1. destruct S1 as (_ & Ll & _).
    destruct l as [|x [|? ?]]; try discriminate. change (t = tnot x) in E. subst t. apply ht_not in Ht. destruct Ht as [_ Hx].
    destruct (IH _ _ _ H Hx) as (H1 & H2). split; auto. unfold tnot. rewrite no_redex_app. simpl. intros X. rewrite andb_true_r in X. auto. }
  destruct (split_symbol_application t SOr 2) as [l|] eqn:S3.
  { pose proof (ht_split _ _ _ _ _ _ _ Ht S3 eq_refl) as E. apply split_some in S3. destruct S3 as (_ & Ll & _).
    destruct l as [|x [|y [|? ?]]]; try discriminate. change (t = tor x y) in E. subst t. apply ht_or in Ht. destruct Ht as (_ & Hx & Hy).
    injection H as <-. destruct (ht_polarity _ _ _ false _ Hx (fun _ => eq_refl)) as [H1 H2]. destruct (ht_polarity _ _ _ false _ Hy (fun _ => eq_refl)) as [H3 H4].
    split; [apply ht_and; auto|]. simpl. intros X. rewrite !andb_true_r in X. apply andb_prop in X. nrd. }
  injection H as <-. apply ht_clause_term; auto.
Qed.
Lemma ht_signed_term G bs t pos : ht G bs t tbool ->
  ht G bs (fst (normalize_signed_clause_term t pos)) tbool /\ (no_redex t = true -> no_redex (fst (normalize_signed_clause_term t pos)) = true).
Proof.
  intros H. unfold normalize_signed_clause_term. destruct (signed_clause_term_total (term_depth t) t pos (le_n _)) as [r E]. rewrite E.
  exact (ht_signed _ _ _ _ _ _ E H).
Qed.

(** Literals. *)
Notation ml := (mono_literal M K).
Lemma ml_new G pos a b T : et T -> ht G [] a T -> ht G [] b T -> ml G (lit_new pos a b).
Proof. intros HT Ha Hb. exists T. destruct (lit_new_cases pos a b) as [-> | ->]; simpl; auto. Qed.
Lemma nored_new pos a b : lit_no_redex (lit_new pos a b) = no_redex a && no_redex b.
Proof. destruct (lit_new_cases pos a b) as [-> | ->]; unfold lit_no_redex; simpl; auto. apply andb_comm. Qed.
Lemma ml_normalize G l : ml G l -> ml G (normalize_literal l) /\ (lit_no_redex l = true -> lit_no_redex (normalize_literal l) = true).
Proof.
  intros (T & HT & Hl & Hr). unfold normalize_literal. destruct (ht_clause_term _ _ _ _ Hr) as [H1 N1].
  destruct (is_true (normalize_clause_term (right l))) eqn:Et.
  - destruct (ht_is_true _ _ _ _ H1 Et) as [_ ->]. destruct (ht_signed_term _ _ _ (positive l) Hl) as [H2 N2].
    destruct (normalize_signed_clause_term (left l) (positive l)) as [a pos]. simpl in H2, N2.
    assert (Gen : ml G (from_signed_term a pos) /\ (lit_no_redex l = true -> lit_no_redex (from_signed_term a pos) = true)).
    { unfold from_signed_term. split; [eapply ml_new; eauto using ht_true|]. rewrite nored_new. unfold lit_no_redex at 1. intros X. apply andb_prop in X. nrd. }
    destruct (clause_split a SEq 3) as [[|U [|x [|y [|? ?]]]]|] eqn:Es; auto.
    apply clause_split_some in Es. destruct Es as [-> _]. change (fold_left TApp [U; x; y] (TSym SEq)) with (teq U x y) in *.
    apply ht_eq_iff in H2. destruct H2 as (_ & HU & Hx & Hy). split; [eapply ml_new; eauto|].
    rewrite nored_new. unfold lit_no_redex. intros X. apply andb_prop in X. destruct X as [X _]. specialize (N2 X). simpl in N2. rewrite !andb_true_r in N2.
    apply andb_prop in N2. destruct N2 as [N2 ->]. apply andb_prop in N2. destruct N2 as [_ ->]. auto.
  - destruct (ht_clause_term _ _ _ _ Hl) as [H2 N2]. split; [eapply ml_new; eauto|]. rewrite nored_new. unfold lit_no_redex. intros X. apply andb_prop in X. nrd.
Qed.
Lemma in_normalize_literals ls l : In l (normalize_literals ls) -> exists l0, In l0 ls /\ l = normalize_literal l0.
Proof.
  unfold normalize_literals. rewrite dedup_in. unfold sort_literals. rewrite sort_in, filter_In, in_map_iff. intros ((x & <- & Hx) & _). eauto.
Qed.

(** Renumbering. *)
Lemma renumber_closed ids T T' : vars T = [] -> renumber_variables ids T = Some T' -> T' = T.
Proof.
  revert T'. induction T as [[i|i|s]|f IHf a IHa|k A IHA b IHb]; simpl; intros T' H.
  - discriminate.
  - congruence.
  - congruence.
  - rewrite vars_app in H. apply app_eq_nil in H. destruct H as [H1 H2]. destruct (renumber_variables ids f) as [f'|]; [|discriminate]. destruct (renumber_variables ids a) as [a'|]; [|discriminate].
    rewrite (IHf f'), (IHa a'); auto. congruence.
  - rewrite vars_bind in H. apply app_eq_nil in H. destruct H as [H1 H2]. destruct (renumber_variables ids A) as [f'|]; [|discriminate]. destruct (renumber_variables ids b) as [a'|]; [|discriminate].
    rewrite (IHA f'), (IHb a'); auto. congruence.
Qed.
Lemma remap_type G ids G' i p T : remap G ids = Some G' -> position i ids = Some p -> get_var_type G i = Some T -> et T -> get_var_type G' p = Some T.
Proof.
  intros Hr Hp Hi HT. apply position_some in Hp. destruct Hp as [Hp _]. destruct (remap_get _ _ _ Hr) as [_ X].
  destruct (X p i Hp) as (T1 & T2 & E1 & E2 & E3). rewrite E3. f_equal. rewrite Hi in E1. injection E1 as <-. eapply renumber_closed; eauto. eapply et_vars; eauto.
Qed.
Lemma ht_renumber G ids G' : remap G ids = Some G' -> forall t t' bs T, renumber_variables ids t = Some t' -> ht G bs t T ->
  ht G' bs t' T /\ no_redex t' = no_redex t /\ is_lam t' = is_lam t.
Proof.
  intros Hr t t' bs T E H. revert t' E. induction H; intros t' E; simpl in E.
  - destruct (position i ids) as [p|] eqn:Ep; [|discriminate]. injection E as <-. split; auto. apply ht_var; auto. eapply remap_type; eauto.
  - injection E as <-. split; auto. apply ht_bound; auto.
  - injection E as <-. split; auto. apply ht_sym; auto.
  - destruct (renumber_variables ids T) eqn:E2; [|discriminate]. injection E as <-. apply renumber_closed in E2; [|eapply et_vars; eauto]. subst. split; auto. apply ht_eq; auto.
  - destruct (renumber_variables ids T) eqn:E2; [|discriminate]. injection E as <-. apply renumber_closed in E2; [|eapply et_vars; eauto]. subst. split; auto. apply ht_ite; auto.
  - destruct (renumber_variables ids f) eqn:E1; [|discriminate]. destruct (renumber_variables ids a) eqn:E2; [|discriminate]. injection E as <-.
    destruct (IHhas_type1 _ eq_refl) as (I1 & I2 & I3). destruct (IHhas_type2 _ eq_refl) as (J1 & J2 & _). split; [eapply ht_app; eauto|]. rewrite !no_redex_app, I2, I3, J2. auto.
  - destruct (renumber_variables ids f) eqn:E1; [|discriminate]. destruct (renumber_variables ids T) eqn:E2; [|discriminate]. injection E as <-.
    apply renumber_closed in E2; [|eapply arg_closed; eauto]. subst.
    destruct (IHhas_type _ eq_refl) as (I1 & I2 & I3). split; [eapply ht_inst; eauto|]. rewrite !no_redex_app, I2, I3. auto.
  - destruct (renumber_variables ids A) eqn:E1; [|discriminate]. destruct (renumber_variables ids b) eqn:E2; [|discriminate]. injection E as <-.
    apply renumber_closed in E1; [|eapply et_vars; eauto]. subst. destruct (IHhas_type _ eq_refl) as (I1 & I2 & I3). split; [apply ht_lam; auto|]. simpl. rewrite I2. auto.
  - destruct (renumber_variables ids A) eqn:E1; [|discriminate]. destruct (renumber_variables ids b) eqn:E2; [|discriminate]. injection E as <-.
    apply renumber_closed in E1; [|eapply et_vars; eauto]. subst. destruct (IHhas_type _ eq_refl) as (I1 & I2 & I3). split; [apply ht_quant; auto|]. simpl. rewrite I2. auto.
Qed.
Lemma remap_mono G ids G' : remap G ids = Some G' -> mono_context M G -> mono_context M G'.
Proof.
  intros Hr H p T Hp. destruct (remap_get _ _ _ Hr) as [L X].
  assert (Hl : p < length ids) by (rewrite <- L; apply nth_error_Some; congruence).
  destruct (nth_error ids p) as [v|] eqn:Ev; [|apply nth_error_None in Ev; lia].
  destruct (X p v Ev) as (T1 & T2 & E1 & E2 & E3). unfold get_var_type in E3. rewrite Hp in E3. injection E3 as ->.
  assert (HT : et T1). { unfold get_var_type in E1. destruct (nth_error G v) as [[]|] eqn:Eg; try discriminate. injection E1 as ->. eapply H; eauto. }
  apply renumber_closed in E2; [|eapply et_vars; eauto]. subst; auto.
Qed.
Lemma ml_renumber G ids G' l l' : remap G ids = Some G' -> renumbered ids l l' -> ml G l ->
  ml G' l' /\ lit_no_redex l' = lit_no_redex l.
Proof.
  intros Hr (a & b & Ha & Hb & ->) (T & HT & H1 & H2).
  destruct (ht_renumber _ _ _ Hr _ _ _ _ Ha H1) as (I1 & I2 & _). destruct (ht_renumber _ _ _ Hr _ _ _ _ Hb H2) as (J1 & J2 & _).
  split; [eapply ml_new; eauto|]. rewrite nored_new, I2, J2. reflexivity.
Qed.

Notation mt := (mono_typed M K).
Notation mo := (mono M K).
Definition nored_all (ls : list literal) : Prop := forallb lit_no_redex ls = true.
Lemma nored_in ls : nored_all ls <-> forall l, In l ls -> lit_no_redex l = true.
Proof. apply forallb_forall. Qed.
Lemma mt_in c : mt c <-> mono_context M (context c) /\ forall l, In l (literals c) -> ml (context c) l.
Proof. unfold mono_typed. rewrite Forall_forall. tauto. Qed.

Lemma mt_literals ls G : mt (Clause ls G) -> mt (Clause (normalize_literals ls) G) /\ (nored_all ls -> nored_all (normalize_literals ls)).
Proof.
  rewrite !mt_in. intros [H1 H2]. simpl in *. split; [split; auto|].
  - intros l Hl. destruct (in_normalize_literals _ _ Hl) as (l0 & H0 & ->). apply ml_normalize; auto.
  - rewrite !nored_in. intros N l Hl. destruct (in_normalize_literals _ _ Hl) as (l0 & H0 & ->). apply (proj2 (ml_normalize _ _ (H2 _ H0))); auto.
Qed.
Lemma mt_renumber ls G ids0 ls' ids G' : renumber_literals G ids0 ls = Some (ls', ids) -> remap G ids = Some G' -> mt (Clause ls G) ->
  mt (Clause ls' G') /\ (nored_all ls -> nored_all ls').
Proof.
  intros E Hr. apply renumber_literals_spec in E. destruct E as [_ F]. rewrite !mt_in. simpl. intros [H1 H2].
  assert (X : forall l', In l' ls' -> exists l, In l ls /\ renumbered ids l l').
  { clear - F. induction F; simpl; [tauto|]. intros z' [<-|H']; [eauto|]. destruct (IHF _ H') as (z & ? & ?). eauto. }
  split; [split; [eapply remap_mono; eauto|]|].
  - intros l' Hl'. destruct (X _ Hl') as (l & Hl & Rl). eapply ml_renumber; eauto.
  - rewrite !nored_in. intros N l' Hl'. destruct (X _ Hl') as (l & Hl & Rl). destruct (ml_renumber _ _ _ _ _ Hr Rl (H2 _ Hl)) as [_ ->]. auto.
Qed.
Lemma mt_sorted ls G : mt (Clause ls G) -> mt (Clause (dedup_literals (sort_literals ls)) G) /\ (nored_all ls -> nored_all (dedup_literals (sort_literals ls))).
Proof.
  rewrite !mt_in. simpl. intros [H1 H2]. split; [split; auto|].
  - intros l. rewrite dedup_in. unfold sort_literals. rewrite sort_in. auto.
  - rewrite !nored_in. intros N l. rewrite dedup_in. unfold sort_literals. rewrite sort_in. auto.
Qed.
Lemma mt_pinned p ls G c ids : normalize_var_ids_with_pinned p (Clause ls G) = Some (c, ids) -> mt (Clause ls G) ->
  mt c /\ (nored_all ls -> nored_all (literals c)).
Proof.
  unfold normalize_var_ids_with_pinned. simpl. destruct (renumber_literals G (seq 0 p) ls) as [[l i]|] eqn:E; [|discriminate].
  destruct (remap G i) as [G'|] eqn:Er; simpl; [|discriminate]. intros H; injection H as <- <-. intros Hm. eapply mt_renumber; eauto.
Qed.
Lemma mt_normalize p cl c : normalize_with_pinned p cl = Some c -> mt cl -> mt c /\ (nored_all (literals cl) -> nored_all (literals c)).
Proof.
  unfold normalize_with_pinned. destruct cl as [ls G]. simpl. intros H Hm.
  destruct (mt_literals _ _ Hm) as [A1 A2]. destruct (normalize_var_ids_with_pinned p (Clause (normalize_literals ls) G)) as [[c1 i1]|] eqn:E1; [|discriminate].
  destruct (mt_pinned _ _ _ _ _ E1 A1) as [B1 B2]. destruct c1 as [l1 G1]. simpl in *. destruct (mt_literals _ _ B1) as [C1 C2].
  destruct (normalize_var_ids_with_pinned p (Clause (normalize_literals l1) G1)) as [[c2 i2]|] eqn:E2; [|discriminate].
  destruct (mt_pinned _ _ _ _ _ E2 C1) as [D1 D2]. destruct c2 as [l2 G2]. injection H as <-. simpl in *. destruct (mt_sorted _ _ D1) as [F1 F2]. auto 10.
Qed.
Lemma mt_clause_new ls G c : clause_new ls G = Some c -> mt (Clause ls G) -> mt c /\ (nored_all ls -> nored_all (literals c)).
Proof. apply mt_normalize. Qed.
Lemma mt_prefilled ls G ids0 c ids : normalize_with_var_ids_prefilled ls G ids0 = Some (c, ids) -> mt (Clause ls G) ->
  mt c /\ (nored_all ls -> nored_all (literals c)).
Proof.
  unfold normalize_with_var_ids_prefilled. intros H Hm. destruct (mt_literals _ _ Hm) as [A1 A2].
  destruct (renumber_literals G ids0 (normalize_literals ls)) as [[l i]|] eqn:E; [|discriminate]. destruct (remap G i) as [G'|] eqn:Er; simpl in H; [|discriminate].
  injection H as <- <-. destruct (mt_renumber _ _ _ _ _ _ E Er A1) as [B1 B2]. destruct (mt_sorted _ _ B1) as [C1 C2]. simpl. auto.
Qed.
Lemma mt_subterms n c c' : normalize_clause_subterms n c = Some c' -> mt c -> mo c'.
Proof.
  unfold normalize_clause_subterms. destruct (normalize_literal_subterms n (literals c)) as [ls|] eqn:E; simpl; [|discriminate].
  intros H; injection H as <-. destruct c as [l G]. simpl in *. rewrite mt_in. simpl. intros [H1 H2].
  assert (X : (forall x, In x ls -> ml G x) /\ nored_all ls).
  { revert ls E H2. induction l as [|x l IH]; simpl; intros ls E H2; [injection E as <-; simpl; split; [tauto|reflexivity]|].
    destruct (normalize_term n (left x)) as [a|] eqn:Ea; [|discriminate]. destruct (normalize_term n (right x)) as [b|] eqn:Eb; [|discriminate].
    destruct (normalize_literal_subterms n l) as [r|]; [|discriminate]. injection E as <-. destruct (IH r eq_refl) as [I1 I2]; [auto|].
    destruct (H2 x (or_introl eq_refl)) as (T & HT & Hl & Hr). split.
    - intros y [<-|Hy]; auto. exists T. simpl. eauto using ht_normalize.
    - unfold nored_all. simpl. unfold lit_no_redex at 1. simpl. rewrite !nf_no_redex by (eapply normalize_term_nf; eauto). exact I2. }
  split; [apply mt_in; simpl; tauto|apply X].
Qed.
Lemma mo_split c : mo c <-> mt c /\ nored_all (literals c). Proof. reflexivity. Qed.
Lemma mono_checker_normal n c c' : checker_normal n c = Ok c' -> mt c -> mo c'.
Proof.
  unfold checker_normal. destruct (normalize_clause_subterms n c) as [c1|] eqn:E; simpl; [|discriminate].
  destruct (normalized c1) as [c2|] eqn:E2; simpl; [|discriminate]. intros H Hm. injection H as <-. apply mt_subterms in E; auto. destruct E as [H1 H2].
  destruct (mt_normalize _ _ _ E2 H1) as [I1 I2]. split; auto. apply I2. exact H2.
Qed.
End MN.
