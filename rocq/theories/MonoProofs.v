(** Facts about the typing of Monomorphic.v. *)
From Coq Require Import List Arith NArith Bool Lia.
Import ListNotations.
From Verif Require Import Term LocalContext Semantics TermProofs SemFacts P_TermNorm Typing TypingProofs Literal Clause Monomorphic.

Lemma ground_vars T : ground_type T = true -> vars T = [].
Proof.
  induction T as [[i|i|s]|f IHf a IHa|k A IHA b IHb]; simpl; try discriminate; auto.
  - rewrite vars_app. intros H. apply andb_prop in H. rewrite IHf, IHa by apply H. auto.
  - destruct k; try discriminate. rewrite vars_bind. intros H. apply andb_prop in H. rewrite IHA, IHb by apply H. auto.
Qed.
Lemma ground_lc T : ground_type T = true -> forall d, lc_at d T.
Proof.
  induction T as [[i|i|s]|f IHf a IHa|k A IHA b IHb]; simpl; try discriminate; intros H d.
  - reflexivity.
  - apply andb_prop in H. apply lc_app. split; [apply IHf|apply IHa]; apply H.
  - destruct k; try discriminate. apply andb_prop in H. apply lc_bind. split; [apply IHA|apply IHb]; apply H.
Qed.

Section MP.
Context (M : Model) (K : kctx).
Notation et := (element_type M).
Notation ht := (has_type M K).

Lemma et_ground T : et T -> ground_type T = true.
Proof.
  induction T as [a|f IHf a IHa|k A IHA b IHb]; try (simpl; tauto).
  destruct k; simpl; try tauto. intros [H1 H2]. rewrite IHA, IHb; auto.
Qed.
Lemma et_vars T : et T -> vars T = []. Proof. intros H. apply ground_vars, et_ground, H. Qed.
Lemma et_lc T d : et T -> lc_at d T. Proof. intros H. apply ground_lc, et_ground, H. Qed.
Lemma et_bool : et tbool.
Proof. simpl. repeat split. exists (dsym M STrue). apply bool_mem. auto. Qed.
Lemma et_arrow A B : et (tarrow A B) <-> et A /\ et B. Proof. simpl. tauto. Qed.
Lemma et_eq T : et T -> et (tarrow T (tarrow T tbool)).
Proof. intros H. rewrite !et_arrow. auto using et_bool. Qed.
Lemma et_ite T : et T -> et (tarrow tbool (tarrow T (tarrow T T))).
Proof. intros H. rewrite !et_arrow. auto using et_bool. Qed.
Lemma et_not_kind T : et T -> is_type_param_kind T = false.
Proof. intros H. apply et_ground in H. destruct T as [[i|i|[]]|?|[] ? ?]; simpl in *; auto; discriminate. Qed.

Definition closed_ty (T : term) : Prop := vars T = [] /\ lc T.
Lemma et_closed T : et T -> closed_ty T.
Proof. intros H. split; [apply et_vars; auto|apply (et_lc T 0); auto]. Qed.
Lemma closed_eval T rho bs : closed_ty T -> eval M rho bs T = ev M (nobs M) T.
Proof. intros [V L]. apply (eval_agree M T 0); [rewrite V; intros ? []|exact L|intros; lia]. Qed.
Lemma closed_swt P T rho bs : closed_ty T -> swtg M P (nobs M) (nobs M) T -> swtg M P rho bs T.
Proof. intros [V L]. apply (swt_agree M P T 0); [rewrite V; intros ? []|exact L|intros; lia]. Qed.
Lemma closed_pi k A B : closed_ty (TBind k A B) <-> closed_ty A /\ vars B = [] /\ lc_at 1 B.
Proof.
  unfold closed_ty. rewrite vars_bind. change (lc (TBind k A B)) with (lc_at 0 (TBind k A B)). rewrite lc_bind.
  change (lc A) with (lc_at 0 A). split.
  - intros [H [H1 H2]]. apply app_eq_nil in H. tauto.
  - intros [[H H1] [H2 H3]]. rewrite H, H2. auto.
Qed.
Lemma vars_open_closed t : forall d r, vars r = [] -> vars t = [] -> vars (open_at d r t) = [].
Proof.
  assert (S : forall r c k, vars (shift_up c k r) = vars r).
  { induction r as [[i|i|s]|f IHf a IHa|k A IHA b IHb]; intros c k'; simpl; auto.
    - destruct (Nat.leb c i); auto.
    - rewrite !vars_app, IHf, IHa; auto.
    - rewrite !vars_bind, IHA, IHb; auto. }
  induction t as [[i|i|s]|f IHf a IHa|k A IHA b IHb]; intros d r Hr; simpl; auto.
  - destruct (Nat.ltb i d); auto. destruct (Nat.eqb i d); auto. rewrite S; auto.
  - rewrite !vars_app. intros H. apply app_eq_nil in H. rewrite IHf, IHa; auto; apply H.
  - rewrite !vars_bind. intros H. apply app_eq_nil in H. rewrite IHA, IHb; auto; apply H.
Qed.

(** element types are types, also as values *)
Lemma et_inhabited T rho bs : et T -> exists x, mem M x (eval M rho bs T).
Proof.
  intros H. rewrite closed_eval by (apply et_closed; auto). revert H.
  induction T as [a|f IHf a IHa|k A IHA b IHb]; try (simpl; tauto).
  destruct k; try (simpl; tauto). intros [H1 H2]. destruct (IHb H2) as [y Hy].
  exists (dbind M KLam (ev M (nobs M) A) (fun _ => y)). apply lam_pi. intros x _.
  unfold ev. rewrite closed_eval by (apply et_closed; auto). exact Hy.
Qed.
Lemma et_isty T rho bs : et T -> isty M (eval M rho bs T).
Proof. intros H. destruct (et_inhabited T rho bs H) as [x Hx]. exact (mem_isty M _ _ Hx). Qed.
(** ground types have no lambdas *)
Lemma ground_swtg P T : ground_type T = true -> forall rho bs, swtg M (anydom M) rho bs T -> swtg M P rho bs T.
Proof.
  induction T as [[i|i|s]|f IHf a IHa|k A IHA b IHb]; simpl; try discriminate; auto; intros H rho bs.
  - apply andb_prop in H. intuition.
  - destruct k; try discriminate. apply andb_prop in H. intros (H1 & H2 & H3). split; [apply IHA; tauto|].
    split; [split; [apply H2|discriminate]|]. intros x Hx. split; auto. apply IHb; [tauto|]. apply H3; auto.
Qed.
Lemma et_swtg P T : et T -> forall rho bs, swtg M P rho bs T.
Proof.
  intros H rho bs. apply closed_swt; [apply et_closed; auto|]. revert H rho bs.
  assert (G : et T -> swtg M (anydom M) (nobs M) (nobs M) T).
  { induction T as [a|f IHf a IHa|k A IHA b IHb]; try (intros (_ & H & _); exact H).
    destruct k; try (intros (_ & H & _); exact H). intros [H1 H2]. split; [auto|]. split; [split; [apply et_isty; auto|discriminate]|].
    intros x Hx. split; auto. apply closed_swt; [apply et_closed; auto|auto]. }
  intros H _ _. apply ground_swtg; [apply et_ground; auto|auto].
Qed.
Lemma arg_closed k T : type_arg M k T -> closed_ty T.
Proof. intros (_ & H & _). split; [apply ground_vars; auto|apply (ground_lc T H 0)]. Qed.
Lemma arg_swtg P k T rho bs : type_arg M k T -> swtg M P rho bs T.
Proof. intros H. apply closed_swt; [eapply arg_closed; eauto|]. destruct H as (_ & H1 & H2 & _). apply ground_swtg; auto. Qed.

Context (CT : closed_types K).

Lemma ht_closed G bs t T : ht G bs t T -> closed_ty T.
Proof.
  induction 1.
  - apply et_closed; auto.
  - apply et_closed; auto.
  - apply CT.
  - apply et_closed, et_eq; auto.
  - apply et_closed, et_ite; auto.
  - apply closed_pi in IHhas_type1. split; [tauto|auto].
  - apply closed_pi in IHhas_type. rewrite open_bound_spec in H1. injection H1 as <-.
    destruct (arg_closed _ _ H0). split; [apply vars_open_closed; tauto|apply open_at_lc0; tauto].
  - apply (et_closed (tarrow A B)). simpl; auto.
  - apply et_closed, et_bool.
Qed.

Lemma ht_lc G bs t T : ht G bs t T -> lc_at (length bs) t.
Proof.
  induction 1; auto.
  - reflexivity.
  - apply lc_bound. apply nth_error_Some. congruence.
  - reflexivity.
  - apply lc_app. split; [reflexivity|apply et_lc; auto].
  - apply lc_app. split; [reflexivity|apply et_lc; auto].
  - apply lc_app. auto.
  - apply lc_app. split; auto. apply ground_lc. apply H0.
  - apply lc_bind. split; [apply et_lc; auto|auto].
  - apply lc_bind. split; [apply et_lc; auto|auto].
Qed.
Lemma ht_lc0 G t T : ht G [] t T -> lc t. Proof. apply ht_lc. Qed.

Lemma ht_weaken G G' bs t T : ht G bs t T ->
  (forall i T, In i (vars t) -> get_var_type G i = Some T -> get_var_type G' i = Some T) -> ht G' bs t T.
Proof.
  intros H. induction H; intros HG.
  - apply ht_var; auto. apply HG; auto. simpl; auto.
  - apply ht_bound; auto.
  - apply ht_sym; auto.
  - apply ht_eq; auto.
  - apply ht_ite; auto.
  - eapply ht_app; eauto; [apply IHhas_type1|apply IHhas_type2]; intros; apply HG; auto; rewrite vars_app; apply in_or_app; auto.
  - eapply ht_inst; eauto. apply IHhas_type; intros; apply HG; auto; rewrite vars_app; apply in_or_app; auto.
  - apply ht_lam; auto. apply IHhas_type; intros; apply HG; auto; rewrite vars_bind; apply in_or_app; auto.
  - apply ht_quant; auto. apply IHhas_type; intros; apply HG; auto; rewrite vars_bind; apply in_or_app; auto.
Qed.

Lemma ht_bs G bs bs' t T : ht G bs t T -> (forall i U, nth_error bs i = Some U -> nth_error bs' i = Some U) -> ht G bs' t T.
Proof.
  intros H. revert bs'. induction H; intros bs' Hb; try (constructor; auto; fail).
  - eapply ht_app; eauto.
  - eapply ht_inst; eauto.
  - apply ht_lam; auto. apply IHhas_type. intros [|i] U; simpl; auto.
  - apply ht_quant; auto. apply IHhas_type. intros [|i] U; simpl; auto.
Qed.

Lemma ht_shift G t : forall b1 b b2 T, ht G (b1 ++ b2) t T ->
  ht G (b1 ++ b ++ b2) (shift_up (length b1) (length b) t) T.
Proof.
  intros b1 b b2 T H. remember (b1 ++ b2) as bs eqn:E. revert b1 E. induction H; intros b1 ->.
  - apply ht_var; auto.
  - simpl. destruct (Nat.leb_spec (length b1) i).
    + apply ht_bound; auto. rewrite nth_error_app2 in H by lia.
      rewrite !nth_error_app2 by lia. rewrite <- H. f_equal. lia.
    + apply ht_bound; auto. rewrite nth_error_app1 in * by lia. auto.
  - apply ht_sym; auto.
  - simpl. rewrite shift_up_lc by (apply et_lc; auto). apply ht_eq; auto.
  - simpl. rewrite shift_up_lc by (apply et_lc; auto). apply ht_ite; auto.
  - simpl. eapply ht_app; eauto.
  - simpl. rewrite (shift_up_lc T) by (apply ground_lc; apply H0). eapply ht_inst; eauto.
  - simpl. rewrite (shift_up_lc A) by (apply et_lc; auto). apply ht_lam; auto. apply (IHhas_type (A :: b1)); auto.
  - simpl. rewrite (shift_up_lc A) by (apply et_lc; auto). apply ht_quant; auto. apply (IHhas_type (A :: b1)); auto.
Qed.

Lemma ht_open_at G t : forall b1 b2 A r T, ht G (b1 ++ A :: b2) t T -> ht G b2 r A ->
  ht G (b1 ++ b2) (open_at (length b1) r t) T.
Proof.
  intros b1 b2 A r T H Hr. remember (b1 ++ A :: b2) as bs eqn:E. revert b1 E. induction H; intros b1 ->.
  - apply ht_var; auto.
  - simpl. destruct (Nat.ltb_spec i (length b1)).
    + apply ht_bound; auto. rewrite nth_error_app1 in * by lia. auto.
    + destruct (Nat.eqb_spec i (length b1)) as [->|].
      * rewrite nth_error_app2, Nat.sub_diag in H by lia. injection H as <-.
        apply (ht_shift G r [] b1 b2 A). exact Hr.
      * apply ht_bound; auto. rewrite nth_error_app2 in H by lia. rewrite nth_error_app2 by lia.
        replace (i - length b1) with (S (i - 1 - length b1)) in H by lia. exact H.
  - apply ht_sym; auto.
  - simpl. rewrite open_at_lc by (apply et_lc; auto). apply ht_eq; auto.
  - simpl. rewrite open_at_lc by (apply et_lc; auto). apply ht_ite; auto.
  - simpl. eapply ht_app; eauto.
  - simpl. rewrite (open_at_lc T) by (apply ground_lc; apply H0). eapply ht_inst; eauto.
  - simpl. rewrite (open_at_lc A0) by (apply et_lc; auto). apply ht_lam; auto. apply (IHhas_type (A0 :: b1)); auto.
  - simpl. rewrite (open_at_lc A0) by (apply et_lc; auto). apply ht_quant; auto. apply (IHhas_type (A0 :: b1)); auto.
Qed.
Lemma ht_open G bs t A r T : ht G (A :: bs) t T -> ht G bs r A -> ht G bs (open_at 0 r t) T.
Proof. intros H Hr. exact (ht_open_at G t [] bs A r T H Hr). Qed.

Lemma push_keeps G A i T : get_var_type G i = Some T -> get_var_type (push_type G A) i = Some T.
Proof.
  rewrite get_push. intros H. destruct (Nat.eqb_spec i (length G)) as [->|]; auto.
  unfold get_var_type in H. rewrite (proj2 (nth_error_None G (length G))) in H by lia. discriminate.
Qed.
Lemma push_mono G A : mono_context M G -> et A -> mono_context M (push_type G A).
Proof.
  intros H HA i T Hn. unfold push_type in Hn. destruct (Nat.lt_ge_cases i (length G)).
  - rewrite nth_error_app1 in Hn by lia. eauto.
  - rewrite nth_error_app2 in Hn by lia. destruct (i - length G) as [|[]]; simpl in Hn; try discriminate. injection Hn as <-. auto.
Qed.
Lemma ht_push G A b B : et A -> ht G [A] b B -> ht (push_type G A) [] (open_at 0 (TVar (length G)) b) B.
Proof.
  intros HA H. eapply ht_open.
  - eapply ht_weaken; [exact H|]. intros. apply push_keeps; auto.
  - apply ht_var; auto. rewrite get_push, Nat.eqb_refl. auto.
Qed.

Lemma abstract_closed T : forall v d, vars T = [] -> lc_at d T -> abstract_var v d T = T.
Proof.
  induction T as [[i|i|s]|f IHf a IHa|k A IHA b IHb]; intros v d H L; simpl; auto.
  - discriminate.
  - apply lc_bound in L. destruct (Nat.leb_spec d i); auto. lia.
  - rewrite vars_app in H. apply app_eq_nil in H. apply lc_app in L. rewrite IHf, IHa; tauto.
  - rewrite vars_bind in H. apply app_eq_nil in H. apply lc_bind in L. rewrite IHA, IHb; tauto.
Qed.

(** The type computed by the code is the type of the judgement. *)
Lemma ht_get_type n : forall G t T, tsize t <= n -> ht G [] t T -> get_type K G t = Some T.
Proof.
  induction n as [|n IH]; intros G t T Hn H; [pose proof (tsize_pos t); lia|].
  inversion H; subst; simpl in Hn; auto.
  - destruct i; discriminate.
  - rewrite get_type_app. change (get_type K G (TSym SEq)) with (Some (symbol_type K SEq)). cbn [symbol_type tarrow].
    rewrite type_apply_pi. cbn. rewrite !(shift_up_lc T0) by (apply et_lc; auto). auto.
  - rewrite get_type_app. change (get_type K G (TSym SIte)) with (Some (symbol_type K SIte)). cbn [symbol_type tarrow].
    rewrite type_apply_pi. cbn. rewrite !(shift_up_lc T0) by (apply et_lc; auto). auto.
  - rewrite get_type_app, (IH G f (TBind KPi A T)) by (auto; lia). rewrite type_apply_pi. f_equal. apply open_at_lc; auto.
  - rewrite get_type_app, (IH G f (TBind KPi k B)) by (auto; lia). rewrite type_apply_pi, <- open_bound_spec. auto.
  - unfold get_type. cbn [tsize get_type_fuel]. rewrite open_bound_spec.
    pose proof (ht_push G A b B H0 H3) as Hp. pose proof (ht_closed _ _ _ _ Hp) as [HV HL].
    apply IH in Hp; [|rewrite tsize_open; lia]. unfold get_type in Hp.
    rewrite (get_type_more _ (tsize (open_at 0 (TVar (length G)) b))) by (rewrite tsize_open; lia).
    rewrite Hp. simpl. rewrite abstract_closed; auto.
  - destruct H0; subst; auto.
Qed.
Lemma ht_type G t T : ht G [] t T -> get_type K G t = Some T.
Proof. apply ht_get_type with (tsize t). lia. Qed.
Lemma ht_unique G t T U : ht G [] t T -> ht G [] t U -> T = U.
Proof. intros H1 H2. apply ht_type in H1, H2. congruence. Qed.

Lemma ht_unique_bs G t : forall bs T U, ht G bs t T -> ht G bs t U -> T = U.
Proof.
  induction t as [a|f IHf a IHa|k A IHA b IHb]; intros bs T U H1 H2.
  - inversion H1; inversion H2; subst; congruence.
  - inversion H1; subst; inversion H2; subst; auto; try (match goal with [H : ht _ _ (TSym _) _ |- _] => inversion H; subst; discriminate end);
    match goal with [H3 : ht _ _ f ?X, H4 : ht _ _ f ?Y |- _] => pose proof (IHf _ _ _ H3 H4) as E; injection E as -> -> end; auto; try congruence.
    + match goal with [H : type_arg _ _ _, H' : element_type _ _ |- _] => destruct H as [Hk _]; apply et_not_kind in H'; congruence end.
    + match goal with [H : type_arg _ _ _, H' : element_type _ _ |- _] => destruct H as [Hk _]; apply et_not_kind in H'; congruence end.
  - inversion H1; subst; inversion H2; subst; auto.
    + f_equal. eauto.
    + match goal with [H : KLam = _ \/ KLam = _ |- _] => destruct H; discriminate end.
    + match goal with [H : KLam = _ \/ KLam = _ |- _] => destruct H; discriminate end.
Qed.

Lemma ht_vars G bs t T v : ht G bs t T -> In v (vars t) -> exists U, get_var_type G v = Some U.
Proof.
  induction 1; intros Hv.
  - destruct Hv as [->|[]]. eauto.
  - destruct Hv.
  - destruct Hv.
  - rewrite vars_app, in_app_iff in Hv. destruct Hv as [[]|Hv]. rewrite et_vars in Hv by auto. destruct Hv.
  - rewrite vars_app, in_app_iff in Hv. destruct Hv as [[]|Hv]. rewrite et_vars in Hv by auto. destruct Hv.
  - rewrite vars_app, in_app_iff in Hv. tauto.
  - rewrite vars_app, in_app_iff in Hv. destruct Hv as [Hv|Hv]; auto. rewrite (proj1 (arg_closed _ _ H0)) in Hv. destruct Hv.
  - rewrite vars_bind, in_app_iff in Hv. destruct Hv as [Hv|Hv]; auto. rewrite et_vars in Hv by auto. destruct Hv.
  - rewrite vars_bind, in_app_iff in Hv. destruct Hv as [Hv|Hv]; auto. rewrite et_vars in Hv by auto. destruct Hv.
Qed.

Lemma ht_valterm G bs t T : ht G bs t T -> valterm t = true.
Proof.
  induction 1; auto.
  - destruct s; simpl in *; auto; discriminate.
  - simpl. destruct f as [[i|i|[]]|?|?]; auto.
  - simpl. destruct f as [[i|i|[]]|?|?]; auto.
  - destruct H; subst; auto.
Qed.

(** Values of typed terms. *)
Context (R : respects M K).

Lemma ht_sem G bs t T : ht G bs t T -> forall rho bv, valid_env M G rho ->
  (forall i U, nth_error bs i = Some U -> mem M (bv i) (ev M (nobs M) U)) ->
  swtg M (proper_inhabited M) rho bv t /\ mem M (eval M rho bv t) (ev M (nobs M) T).
Proof.
  induction 1; intros rho bv Hv Hb.
  - split; [exact I|]. simpl. specialize (Hv _ _ H). unfold ev in Hv. rewrite closed_eval in Hv by (apply et_closed; auto). auto.
  - split; [exact I|]. apply Hb; auto.
  - split; [exact I|]. apply (r_sym M K R). destruct s; auto; discriminate.
  - assert (HT : isty M (ev M (nobs M) T)) by (apply et_isty; auto).
    split.
    + split; [exact I|]. split; [apply et_swtg; auto|]. apply isty_eq, et_isty; auto.
    + simpl. rewrite closed_eval by (apply et_closed; auto).
      assert (E : ev M (nobs M) (tarrow T (tarrow T tbool)) = arrowd M (ev M (nobs M) T) (arrowd M (ev M (nobs M) T) (bbool M))).
      { unfold ev, tarrow, arrowd. cbn [eval]. apply bind_ext. intros x _. rewrite (closed_eval T) by (apply et_closed; auto). reflexivity. }
      rewrite E. apply (r_eq M K R). apply isty_eq. auto.
  - assert (HT : isty M (ev M (nobs M) T)) by (apply et_isty; auto).
    split.
    + split; [exact I|]. split; [apply et_swtg; auto|]. apply isty_ite, et_isty; auto.
    + simpl. rewrite closed_eval by (apply et_closed; auto).
      assert (E : ev M (nobs M) (tarrow tbool (tarrow T (tarrow T T))) = arrowd M (bbool M) (arrowd M (ev M (nobs M) T) (arrowd M (ev M (nobs M) T) (ev M (nobs M) T)))).
      { unfold ev, tarrow, arrowd. cbn [eval]. apply bind_ext. intros x _. rewrite (closed_eval T) by (apply et_closed; auto). apply bind_ext. intros y _.
        rewrite !(closed_eval T) by (apply et_closed; auto). apply bind_ext. intros z _. apply closed_eval, et_closed; auto. }
      rewrite E. apply (r_ite M K R). apply isty_ite. auto.
  - destruct (IHhas_type1 rho bv Hv Hb) as [S1 M1]. destruct (IHhas_type2 rho bv Hv Hb) as [S2 M2].
    unfold ev in M1. cbn [eval] in M1. split.
    + split; [auto|]. split; [auto|]. exact (pi_appok M _ _ _ _ M1 M2).
    + simpl. pose proof (pi_app M _ _ _ _ M1 M2) as Hp. cbv beta in Hp.
      assert (CB : closed_ty B) by (eapply ht_closed; eapply ht_app; eauto). rewrite (closed_eval B) in Hp; auto.
  - destruct (IHhas_type rho bv Hv Hb) as [S1 M1]. unfold ev in M1. cbn [eval] in M1.
    assert (CT' : closed_ty T) by (eapply arg_closed; eauto).
    assert (MT : mem M (eval M rho bv T) (eval M (nobs M) (nobs M) k)) by (rewrite (closed_eval T); auto; apply H0).
    split.
    + split; [auto|]. split; [eapply arg_swtg; eauto|]. exact (pi_appok M _ _ _ _ M1 MT).
    + simpl. pose proof (pi_app M _ _ _ _ M1 MT) as Hp. cbv beta in Hp. rewrite open_bound_spec in H1. injection H1 as <-.
      unfold ev. rewrite eval_open. rewrite (closed_eval T (nobs M) (nobs M)) by auto. rewrite (closed_eval T rho bv) in Hp |- * by auto. exact Hp.
  - assert (EA : eval M rho bv A = ev M (nobs M) A) by (apply closed_eval, et_closed; auto).
    assert (Hx : forall x, mem M x (eval M rho bv A) -> swtg M (proper_inhabited M) rho (scons x bv) b /\ mem M (eval M rho (scons x bv) b) (ev M (nobs M) B)).
    { intros x Hx. apply IHhas_type; auto. intros [|i] U HU; simpl in *; [injection HU as <-; rewrite <- EA; auto|auto]. }
    split.
    + split; [apply et_swtg; auto|]. split.
      * split; [apply et_isty; auto|]. intros _. split; [rewrite EA; auto|apply et_inhabited; auto].
      * intros x Hm. split; auto. apply Hx; auto.
    + simpl. unfold ev, tarrow. cbn [eval]. rewrite EA in *. apply lam_pi. intros x Hm. rewrite (closed_eval B) by (apply et_closed; auto). apply Hx; auto.
  - assert (EA : eval M rho bv A = ev M (nobs M) A) by (apply closed_eval, et_closed; auto).
    assert (Hx : forall x, mem M x (eval M rho bv A) -> swtg M (proper_inhabited M) rho (scons x bv) b /\ mem M (eval M rho (scons x bv) b) (ev M (nobs M) tbool)).
    { intros x Hx. apply IHhas_type; auto. intros [|i] U HU; simpl in *; [injection HU as <-; rewrite <- EA; auto|auto]. }
    split.
    + split; [apply et_swtg; auto|]. split.
      * split; [apply et_isty; auto|]. intros ->. destruct H; discriminate.
      * intros x Hm. split; [apply Hx; auto|]. destruct H; subst; apply Hx; auto.
    + simpl. destruct H; subst; [apply isb_all|apply isb_ex]; intros; apply Hx; auto.
Qed.
Lemma ht_value G t T rho : ht G [] t T -> valid_env M G rho ->
  swtg M (proper_inhabited M) rho (nobs M) t /\ mem M (ev M rho t) (ev M (nobs M) T).
Proof. intros H Hv. apply (ht_sem G [] t T); auto. intros [|i] U; discriminate. Qed.
End MP.
