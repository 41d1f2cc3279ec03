(** A declared witness: every interpretation has a value for the new constant with which the declared clause holds, if
    something satisfies the condition. *)
From Coq Require Import List Arith NArith Bool Lia Classical ClassicalEpsilon.
Import ListNotations.
From Verif Require Import VariableMap Unifier Inference ClauseSet EqualityGraph Checker CertificateStep TraceChecker.
From Verif Require Import Term LocalContext Semantics TermProofs SemFacts TermNorm TermNormProofs Typing TypingProofs Literal Clause ClauseSem RenumberProofs ClauseProofs ClauseWf InferenceProofs
  VariableMapProofs UnifierProofs BoolReduction BoolReductionProofs CheckerProofs CheckerSem P_TermNorm P_Clause P_Checker Monomorphic MonoProofs MonoNorm MonoReduce MonoUnify MonoRules MonoMatch MonoInfer MonoClaim
  SearchRules SearchProofs SearchSimplify SearchRewrite Witness WitnessProofs WitnessDecl.

(** ** Types do not depend on the values of constants *)
Section Same.
Context (M : Model) (w : N) (v : D M) (K : kctx).
Notation M' := (with_value M w v).
Lemma et_up T : element_type M T -> element_type M' T. Proof. apply et_other. Qed.
Lemma et_down T : element_type M' T -> element_type M T. Proof. apply et_other. Qed.
Lemma arg_up k T : type_arg M k T -> type_arg M' k T. Proof. apply arg_other. Qed.
Lemma arg_down k T : type_arg M' k T -> type_arg M k T. Proof. apply arg_other. Qed.
Lemma ht_up G bs t T : has_type M K G bs t T -> has_type M' K G bs t T.
Proof.
  induction 1.
  - apply ht_var; auto using et_up.
  - apply ht_bound; auto using et_up.
  - apply ht_sym; auto.
  - apply ht_eq; auto using et_up.
  - apply ht_ite; auto using et_up.
  - eapply ht_app; eauto using et_up.
  - eapply ht_inst; eauto using arg_up.
  - apply ht_lam; auto using et_up. rewrite ev_nobs by (apply ground_no_mention, (et_ground M); auto). auto.
  - apply ht_quant; auto using et_up.
Qed.
Lemma ht_down G bs t T : has_type M' K G bs t T -> has_type M K G bs t T.
Proof.
  induction 1.
  - apply ht_var; auto using et_down.
  - apply ht_bound; auto using et_down.
  - apply ht_sym; auto.
  - apply ht_eq; auto using et_down.
  - apply ht_ite; auto using et_down.
  - eapply ht_app; eauto using et_down.
  - eapply ht_inst; eauto using arg_down.
  - apply et_down in H. apply ht_lam; auto using et_down. rewrite ev_nobs in H0 by (apply ground_no_mention, (et_ground M); auto). exact H0.
  - apply ht_quant; auto using et_down.
Qed.
Lemma mt_up c : mono_typed M K c -> mono_typed M' K c.
Proof.
  rewrite !mt_in. intros [H1 H2]. split; [intros i T HT; apply et_up; eapply H1; eauto|].
  intros l Hl. destruct (H2 l Hl) as (T & A & B & C). exists T. auto using et_up, ht_up.
Qed.
Lemma mt_down c : mono_typed M' K c -> mono_typed M K c.
Proof.
  rewrite !mt_in. intros [H1 H2]. split; [intros i T HT; apply et_down; eapply H1; eauto|].
  intros l Hl. destruct (H2 l Hl) as (T & A & B & C). exists T. auto using et_down, ht_down.
Qed.
End Same.

(** ** One declaration *)
Lemma declared_arrows d : declared_type d = WitnessProofs.arrows (d_context d) (d_type d).
Proof. unfold declared_type, d_context. induction (d_args d) as [|T r IH]; simpl; congruence. Qed.
Lemma positive_typed M K G t : mono_literal M K G (lit_positive t) -> has_type M K G [] t tbool.
Proof.
  intros (T & _ & H1 & H2). pose proof (ht_sym M K G [] STrue eq_refl) as HT. change (symbol_type K STrue) with tbool in HT.
  unfold lit_positive, lit_new, lit_new_with_flip in *. destruct (needs_to_flip t ttrue); simpl in *.
  - rewrite (ht_unique_bs M K _ _ _ _ _ HT H1). exact H2.
  - rewrite (ht_unique_bs M K _ _ _ _ _ HT H2). exact H1.
Qed.
Lemma typed_positive M K G t : has_type M K G [] t tbool -> mono_literal M K G (lit_positive t).
Proof.
  intros H. exists tbool. split; [apply et_bool|]. pose proof (ht_sym M K G [] STrue eq_refl) as HT. change (symbol_type K STrue) with tbool in HT.
  unfold lit_positive, lit_new, lit_new_with_flip. destruct (needs_to_flip t ttrue); simpl; auto.
Qed.

Section Declare.
Context (M : Model) (K : kctx) (CT : closed_types K) (R : respects M K).
Context (d : declaration) (w : N) (Hc : mono_typed M K (existence d)) (Nb : mentions w (d_body d) = false) (Nk : forall s, mentions w (symbol_type K s) = false).

Lemma declaring c1 : declared_clause w d = Some c1 ->
  exists v, closed_types (with_scoped K w (declared_type d)) /\ respects (with_value M w v) (with_scoped K w (declared_type d)) /\
    mono_typed (with_value M w v) (with_scoped K w (declared_type d)) c1 /\ (valid M (existence d) -> valid (with_value M w v) c1) /\
    uses_parameters (declared_type d).
Proof.
  intros HO. destruct (proj1 (mt_in M K _) Hc) as [HG HL]. cbn [context existence literals] in HG, HL.
  pose proof (positive_typed M K _ _ (HL _ (or_introl eq_refl))) as H1. set (G := d_context d) in *. set (A := d_type d) in *. set (b := d_body d) in *.
  destruct (inv_quant M K _ _ _ _ _ _ (or_intror eq_refl) H1) as (_ & EA & Hb).
  assert (Dn : dense M G).
  { intros o Ho. unfold G, d_context in Ho. apply in_map_iff in Ho. destruct Ho as (T & <- & HT). exists T. split; auto.
    apply In_nth_error in HT. destruct HT as [i Hi]. apply (HG i). unfold G, d_context. rewrite nth_error_map, Hi. auto. }
  assert (LG : length (d_args d) = length G) by (unfold G, d_context; rewrite map_length; auto).
  unfold declared_clause in HO. fold b in HO. rewrite open_bound_spec in HO. cbn [option_map] in HO. injection HO as <-. fold G.
  unfold declared_witness. rewrite LG. set (order := List.seq 0 (length G)). set (witness := apply_args (TSym (SScoped w)) (map (fun v => TVar v) order)).
  rewrite declared_arrows. fold G A. set (WT := WitnessProofs.arrows G A).
  (* the value *)
  set (Q := fun (rho : nat -> D M) (y : D M) => mem M y (ev M (nobs M) A) /\
    ((exists x, mem M x (ev M (nobs M) A) /\ eval M rho (scons x (nobs M)) b = dsym M STrue) -> eval M rho (scons y (nobs M)) b = dsym M STrue)).
  set (pick := fun rho => epsilon (inhabits (dsym M STrue)) (Q rho)).
  assert (PS : forall rho, Q rho (pick rho)).
  { intros rho. apply epsilon_spec. destruct (classic (exists x, mem M x (ev M (nobs M) A) /\ eval M rho (scons x (nobs M)) b = dsym M STrue)) as [(x & X & Y)|X].
    - exists x. split; auto.
    - destruct (et_inhabited M A (nobs M) (nobs M) EA) as [y Hy]. exists y. split; auto. intros Z. destruct (X Z). }
  set (v := wvalue M pick 0 G (nobs M)).
  assert (EW : element_type M WT) by (apply arrows_et; auto).
  assert (Mv : mem M v (ev M (nobs M) WT)) by (apply wvalue_mem; auto; intros rho; apply PS).
  pose proof (ground_no_mention w WT (et_ground M _ EW)) as NW.
  assert (CT' : closed_types (with_scoped K w WT)).
  { intros s. destruct (mentions w (TSym s)) eqn:E; [|rewrite type_other by auto; apply CT]. destruct s; try discriminate. simpl in E. cbn [symbol_type with_scoped k_scoped]. rewrite E. apply (et_closed M WT EW). }
  assert (R' : respects (with_value M w v) (with_scoped K w WT)).
  { destruct R as [R1 R2 R3 R4]. constructor; auto.
    - intros s Hs rho. destruct (mentions w (TSym s)) eqn:E.
      + destruct s; try discriminate. simpl in E. cbn [symbol_type with_scoped k_scoped dsym with_value other_value]. rewrite E. rewrite ev_other by auto.
        unfold ev. rewrite (closed_eval M) by (apply (et_closed M); auto). exact Mv.
      + rewrite type_other by auto. rewrite ev_other by auto. change (dsym (with_value M w v) s) with (eval (with_value M w v) rho (nobs M) (TSym s)). rewrite eval_other by auto.
        apply R1; auto.
    - intros s rho. destruct (mentions w (TSym s)) eqn:E.
      + destruct s; try discriminate. simpl in E. cbn [symbol_type with_scoped k_scoped]. rewrite E. apply wt_other; auto. apply (et_swtg M); auto.
      + rewrite type_other by auto. apply wt_other; auto. }
  exists v. split; [exact CT'|]. split; [exact R'|].
  assert (HW : has_type (with_value M w v) (with_scoped K w WT) G [] witness A).
  { unfold witness, order. apply ht_apply_vars; auto.
    - intros o Ho. destruct (Dn o Ho) as (U & X & Y). exists U. split; auto. apply et_other; auto.
    - apply et_other; auto.
    - intros j U Hj. unfold get_var_type. simpl. rewrite Hj. auto.
    - pose proof (ht_sym (with_value M w v) (with_scoped K w WT) G [] (SScoped w) eq_refl) as X. cbn [symbol_type with_scoped k_scoped] in X. rewrite N.eqb_refl in X. exact X. }
  assert (Hr : has_type (with_value M w v) (with_scoped K w WT) G [] (open_at 0 witness b) tbool).
  { apply ht_open with A; auto. apply ht_other; auto. }
  split; [|split; [|apply (et_uses M); auto]].
  { apply mt_in. split; [intros i U HU; apply et_other; exact (HG i U HU)|]. intros l0 [<-|[]]. apply typed_positive; auto. }
  intros Vc rho Hrho. eexists. split; [left; reflexivity|]. unfold lit_positive. apply lit_new_holds. unfold lit_holds. cbn [positive left right].
  assert (NG : forall i U, get_var_type G i = Some U -> mentions w U = false).
  { intros i U HU. apply ground_no_mention, (et_ground M). apply (HG i). unfold get_var_type in HU. destruct (nth_error G i) as [[|]|]; congruence. }
  assert (Hv : valid_env M G rho).
  { intros i U HU. specialize (Hrho i U HU). rewrite ev_other in Hrho by (eapply NG; eauto). exact Hrho. }
  assert (Hi : forall j U, nth_error G j = Some (Some U) -> mem M (rho (0 + j)) (ev M (nobs M) U)).
  { intros j U Hj. specialize (Hv j U). unfold get_var_type in Hv. rewrite Hj in Hv. specialize (Hv eq_refl). unfold ev in Hv. rewrite (closed_eval M) in Hv by (apply (et_closed M); apply (HG j); auto). exact Hv. }
  destruct (wvalue_app M pick A EA (fun r => proj1 (PS r)) rho G 0 (nobs M) Dn Hi) as (rho' & X & Y & _).
  assert (Dv : dsym (with_value M w v) (SScoped w) = v) by (simpl; rewrite N.eqb_refl; auto).
  assert (Wv : eval (with_value M w v) rho (nobs (with_value M w v)) witness = pick rho').
  { unfold witness. rewrite eval_apply_vars. cbn [eval]. rewrite Dv. exact X. }
  unfold ev. rewrite eval_open, Wv, eval_other by auto.
  change (eval M rho (scons (pick rho') (nobs M)) b = dsym M STrue).
  assert (Ag : forall x, eval M rho (scons x (nobs M)) b = eval M rho' (scons x (nobs M)) b).
  { intros x. apply eval_ext; auto. intros i Hin. destruct (ht_vars M K _ _ _ _ i Hb Hin) as [U HU]. symmetry. apply Y.
    assert (i < length G); [|lia]. apply nth_error_Some. unfold get_var_type in HU. destruct (nth_error G i); congruence. }
  rewrite Ag. apply (PS rho').
  destruct (Vc rho Hv) as (l1 & Hl1 & L1). destruct Hl1 as [<-|[]]. apply (proj1 (lit_new_holds M rho true (TBind KEx A b) ttrue)) in L1. unfold lit_holds in L1. cbn [positive left right] in L1.
  destruct (ht_value M K CT R G _ _ rho H1 Hv) as [SW _]. destruct SW as (_ & _ & SW).
  pose proof (proj2 (ex_val M (eval M rho (nobs M) A) (fun x => eval M rho (scons x (nobs M)) b) (fun x Hx => proj2 (SW x Hx)))) as EX.
  destruct (proj1 EX L1) as (x & Hx & Bx). rewrite (closed_eval M) in Hx by (apply (et_closed M); auto). exists x. split; auto. rewrite <- Ag. exact Bx.
Qed.
End Declare.

(** ** Several declarations
    [declared M0 K0 K ds]: the constants of [ds] were declared one after the other, the last one first in the list; [K] has
    the types of all constants. *)
Inductive declared (M0 : Model) (K0 : kctx) : kctx -> list (N * declaration) -> Prop :=
  | d_none : declared M0 K0 K0 []
  | d_more : forall K ds w d c1, declared M0 K0 K ds -> (forall s, mentions w (symbol_type K s) = false) ->
      mentions w (d_body d) = false -> (forall x e, In (x, e) ds -> x <> w /\ mentions w (d_body e) = false) ->
      mono_typed M0 K (existence d) -> declared_clause w d = Some c1 ->
      declared M0 K0 (with_scoped K w (declared_type d)) ((w, d) :: ds).
(** Interpretations that differ in the values of the constants *)
Inductive revalued (M0 : Model) : list N -> Model -> Prop :=
  | r_none : revalued M0 [] M0
  | r_more : forall ws M w v, revalued M0 ws M -> revalued M0 (w :: ws) (with_value M w v).

Lemma revalued_types M0 ws M : revalued M0 ws M -> forall K G bs t T, has_type M0 K G bs t T <-> has_type M K G bs t T.
Proof.
  induction 1 as [|ws M w v _ IH]; intros K G bs t T; [tauto|]. rewrite IH. split; [apply ht_up|apply ht_down].
Qed.
Lemma revalued_mt M0 ws M : revalued M0 ws M -> forall K c, mono_typed M0 K c <-> mono_typed M K c.
Proof. induction 1 as [|ws M w v _ IH]; intros K c; [tauto|]. rewrite IH. split; [apply mt_up|apply mt_down]. Qed.
Lemma revalued_eta M0 ws M : revalued M0 ws M -> eta_model M0 -> eta_model M.
Proof. induction 1 as [|ws M w v _ IH]; auto. Qed.
Lemma revalued_valid M0 ws M : revalued M0 ws M -> forall c, (forall w, In w ws -> clause_mentions w c = false) -> (valid M0 c <-> valid M c).
Proof.
  induction 1 as [|ws M w v _ IH]; intros c N; [tauto|]. rewrite IH by (intros x Hx; apply N; right; auto). symmetry. apply valid_other. apply N. left. auto.
Qed.
Lemma revalued_aliases M0 ws M al : revalued M0 ws M -> aliases_ok M0 al ->
  (forall s l s' w, al_lookup al s l = Some s' -> In w ws -> mentions w (apply (TSym s) l) = false /\ s' <> SScoped w) -> aliases_ok M al.
Proof.
  induction 1 as [|ws M w v _ IH]; intros H N; auto. specialize (IH H (fun s l s' x E Hx => N s l s' x E (or_intror Hx))).
  intros s l s' E rho bs. destruct (N s l s' w E (or_introl eq_refl)) as [N1 N2]. rewrite eval_other by auto. rewrite (IH s l s' E rho bs).
  simpl. unfold other_value. destruct s'; auto. destruct (N.eqb_spec i w) as [->|]; congruence.
Qed.

Lemma no_mention_apply w args : forall f, mentions w f = false -> (forall a, In a args -> mentions w a = false) -> mentions w (apply_args f args) = false.
Proof.
  intros f Hf Ha. rewrite mentions_apply, Hf. simpl. destruct (existsb (mentions w) args) eqn:E; auto. apply existsb_exists in E. destruct E as (a & I & X). rewrite Ha in X; auto.
Qed.
Lemma mentions_shift w u : forall c k, mentions w (shift_up c k u) = mentions w u.
Proof. induction u as [[i|i|s]|f IHf a IHa|q A IHA b IHb]; intros c k; simpl; auto; [destruct (Nat.leb c i); auto|rewrite IHf, IHa; auto|rewrite IHA, IHb; auto]. Qed.
Lemma mentions_open w u b : forall k, mentions w u = false -> mentions w b = false -> mentions w (open_at k u b) = false.
Proof.
  induction b as [[i|i|s]|f IHf a IHa|q A IHA b IHb]; intros k Hu Hb; simpl in *; auto.
  - destruct (Nat.ltb i k); auto. destruct (Nat.eqb i k); auto. rewrite mentions_shift. auto.
  - apply orb_false_iff in Hb. rewrite IHf, IHa by tauto. auto.
  - apply orb_false_iff in Hb. rewrite IHA, IHb by tauto. auto.
Qed.
Lemma positive_mentions w t G : mentions w t = false -> (forall T, In (Some T) G -> mentions w T = false) -> clause_mentions w (Clause [lit_positive t] G) = false.
Proof.
  intros H HG. unfold clause_mentions. simpl. apply orb_false_iff. split.
  - unfold lit_positive, lit_new, lit_new_with_flip. destruct (needs_to_flip t ttrue); simpl; rewrite H; auto.
  - destruct (existsb _ G) eqn:E; auto. apply existsb_exists in E. destruct E as ([T|] & I & X); [|discriminate]. rewrite HG in X; auto.
Qed.
Lemma declaration_types M K d : mono_typed M K (existence d) -> (forall w T, In (Some T) (d_context d) -> mentions w T = false) /\ forall w, mentions w (d_type d) = false.
Proof.
  intros H. apply mt_in in H. destruct H as [HG HL]. cbn [context existence literals] in *. split.
  - intros w T HT. apply In_nth_error in HT. destruct HT as [i Hi]. apply ground_no_mention, (et_ground M), (HG i). auto.
  - intros w. apply ground_no_mention, (et_ground M). pose proof (positive_typed M K _ _ (HL _ (or_introl eq_refl))) as X.
    apply (inv_quant M K _ _ _ _ _ _ (or_intror eq_refl) X).
Qed.
Lemma existence_mentions M K w d : mono_typed M K (existence d) -> mentions w (d_body d) = false -> clause_mentions w (existence d) = false.
Proof.
  intros H Hb. destruct (declaration_types M K d H) as [H1 H2]. apply positive_mentions; auto. simpl. rewrite H2, Hb. auto.
Qed.
Lemma declared_mentions M K w x d c : mono_typed M K (existence d) -> mentions w (d_body d) = false -> x <> w -> declared_clause x d = Some c -> clause_mentions w c = false.
Proof.
  intros H Hb Nx E. destruct (declaration_types M K d H) as [H1 _]. unfold declared_clause in E. rewrite open_bound_spec in E. injection E as <-.
  apply positive_mentions; auto. apply mentions_open; auto. apply no_mention_apply.
  - simpl. apply N.eqb_neq. auto.
  - intros a Ha. apply in_map_iff in Ha. destruct Ha as (i & <- & _). reflexivity.
Qed.

(** Every interpretation has values for the declared constants with which all declared clauses hold whose existence holds. *)
Lemma declarations_have_values M0 K0 K ds : declared M0 K0 K ds -> closed_types K0 -> parameters_used K0 -> respects M0 K0 ->
  exists M, revalued M0 (map fst ds) M /\ closed_types K /\ parameters_used K /\ respects M K /\
    (forall w d c, In (w, d) ds -> declared_clause w d = Some c -> mono_typed M K c /\ mono_typed M K (existence d) /\ (valid M (existence d) -> valid M c)) /\
    (forall c, (forall w, In w (map fst ds) -> clause_mentions w c = false) -> mono_typed M0 K0 c -> mono_typed M K c).
Proof.
  intros H CT UP R. induction H as [|K ds w d c1 HD (M & V & C & P & RM & Hd & Hm) Nk Nb Nd Ht Ec].
  - exists M0. split; [constructor|]. split; [auto|]. split; [auto|]. split; [auto|]. split; [intros w d c []|auto].
  - apply (revalued_mt _ _ _ V) in Ht. destruct (declaring M K C RM d w Ht Nb Nk c1 Ec) as (v & X1 & X2 & X3 & X4 & X5).
    exists (with_value M w v). split; [simpl; constructor; auto|]. split; [auto|]. split; [apply scoped_used; auto|]. split; [auto|]. split.
    + intros x e c [E|Hx] Ee.
      * injection E as <- <-. replace c with c1 by congruence. pose proof (existence_mentions M K w d Ht Nb) as Ne.
        split; [auto|]. split; [apply mt_other; auto|]. intros Y. apply X4. apply valid_other in Y; auto.
      * destruct (Hd x e c Hx Ee) as (Y1 & Y2 & Y3). destruct (Nd x e Hx) as [N1 N2].
        pose proof (existence_mentions M K w e Y2 N2) as Ne. pose proof (declared_mentions M K w x e c Y2 N2 N1 Ee) as Nc.
        split; [apply mt_other; auto|]. split; [apply mt_other; auto|]. intros Y. apply valid_other; auto. apply Y3. apply valid_other in Y; auto.
    + intros c N Hc. apply mt_other; [apply N; left; auto|]. apply Hm; auto. intros u Hu. apply N. right. auto.
Qed.
