(** Specialized claims over monomorphic clauses. *)
From Coq Require Import List Arith NArith Bool Lia.
Import ListNotations.
From Verif Require Import VariableMap Unifier Inference ClauseSet EqualityGraph Checker CertificateStep.
From Verif Require Import Term LocalContext Semantics TermProofs SemFacts TermNorm TermNormProofs Typing TypingProofs Literal Clause ClauseSem RenumberProofs ClauseProofs ClauseWf InferenceProofs
  VariableMapProofs P_Instantiation CheckerProofs CheckerSem P_Checker Fragment TraceProofs P_TraceChecker Monomorphic MonoProofs MonoNorm MonoReduce MonoRules.

Section MC.
Context (M : Model) (K : kctx) (CT : closed_types K) (R : respects M K).
Notation et := (element_type M).
Notation ht := (has_type M K).
Notation ml := (mono_literal M K).
Notation mt := (mono_typed M K).
Notation mo := (mono M K).

(** ** canonical instance calls *)
(** The replacement of an instance call has the type of the call. *)
Definition aliases_typed (al : aliases) : Prop := forall s l s', al_lookup al s l = Some s' ->
  forall G bs U, ht G bs (apply (TSym s) l) U -> value_symbol s' = true /\ symbol_type K s' = U.

Lemma ground_canon al T : ground_type T = true -> let '(h, ch, l) := canon_parts al T in
  h = ch /\ (forall m i, h <> TSym (SGlobal m i)) /\ apply ch l = T.
Proof.
  induction T as [[i|i|s]|f IHf a IHa|k A IHA b IHb]; cbn [ground_type canon_parts]; try discriminate.
  - intros H. split; auto. split; [|reflexivity]. intros m i E. injection E as ->. discriminate.
  - intros H. apply andb_prop in H. destruct H as [H1 H2]. specialize (IHf H1). specialize (IHa H2).
    destruct (canon_parts al f) as [[h ch] l]. destruct IHf as (E & N & F). split; auto. split; auto.
    rewrite apply_app, F. simpl. f_equal. destruct (canon_parts al a) as [[h2 ch2] l2]. destruct IHa as (E2 & N2 & F2). subst ch2.
    unfold canon_finish. destruct l2 as [|x l2]; [exact F2|].
    assert (X : try_canonicalize al h2 (x :: l2) = None) by (destruct h2 as [[?|?|[]]|?|?]; try reflexivity; exfalso; eapply N2; reflexivity).
    rewrite X. exact F2.
  - destruct k; try discriminate. intros H. apply andb_prop in H. destruct H as [H1 H2]. specialize (IHA H1). specialize (IHb H2).
    assert (F : forall t, (let '(h, ch, l) := canon_parts al t in h = ch /\ (forall m i, h <> TSym (SGlobal m i)) /\ apply ch l = t) -> canon_finish al (canon_parts al t) = t).
    { intros t Ht. destruct (canon_parts al t) as [[h2 ch2] l2]. destruct Ht as (E2 & N2 & F2). subst ch2.
      unfold canon_finish. destruct l2 as [|x l2]; [exact F2|].
      assert (X : try_canonicalize al h2 (x :: l2) = None) by (destruct h2 as [[?|?|[]]|?|?]; try reflexivity; exfalso; eapply N2; reflexivity).
      rewrite X. exact F2. }
    rewrite (F A IHA), (F b IHb). split; [|split; [discriminate|reflexivity]]. reflexivity.
Qed.
Lemma ground_canonical al T : ground_type T = true -> canonicalize al T = T.
Proof.
  intros H. pose proof (ground_canon al T H) as X. unfold canonicalize. destruct (canon_parts al T) as [[h2 ch2] l2]. destruct X as (E2 & N2 & F2). subst ch2.
  unfold canon_finish. destruct l2 as [|x l2]; [exact F2|].
  assert (X : try_canonicalize al h2 (x :: l2) = None) by (destruct h2 as [[?|?|[]]|?|?]; try reflexivity; exfalso; eapply N2; reflexivity).
  rewrite X. exact F2.
Qed.

Lemma ht_new_head G bs h h' : (forall U, ht G bs h U -> ht G bs h' U) -> (forall s, spine_head h = TSym s -> value_symbol s = true) ->
  forall l T, ht G bs (apply h l) T -> ht G bs (apply h' l) T.
Proof.
  intros H N l. induction l as [|x l IH] using rev_ind; intros T HT; [exact (H T HT)|].
  rewrite apply_app in HT |- *. cbn [apply fold_left] in HT |- *.
  assert (S : forall s, apply h l <> TSym s \/ value_symbol s = true).
  { intros s. destruct (value_symbol s) eqn:E; auto. left. intros X. assert (spine_head (apply h l) = spine_head h).
    { clear. revert h. induction l as [|y l IH]; intros h; [reflexivity|]. simpl. rewrite IH. reflexivity. }
    rewrite X in H0. simpl in H0. rewrite (N s) in E; congruence. }
  inversion HT; subst.
  - destruct (S SEq) as [X|X]; [congruence|discriminate].
  - destruct (S SIte) as [X|X]; [congruence|discriminate].
  - eapply ht_app; eauto.
  - eapply ht_inst; eauto.
Qed.

Lemma ht_canon_finish al G bs h ch l T : aliases_typed al -> (h = ch \/ forall s, h <> TSym s) ->
  ht G bs (apply ch l) T -> ht G bs (canon_finish al (h, ch, l)) T.
Proof.
  intros Ha Hh HT. unfold canon_finish. destruct l as [|x l]; [exact HT|].
  destruct (try_canonicalize al h (x :: l)) as [t|] eqn:E; auto.
  assert (h = ch) as -> by (destruct Hh as [|Hh]; auto; destruct h as [[?|?|s]|?|?]; try discriminate; exfalso; eapply Hh; eauto).
  revert E HT. generalize (x :: l). clear x l. intros l E HT.
  destruct ch as [[i|i|[| | | | | | | | | | |m i|]]|?|?]; simpl in E; try discriminate.
  destruct (al_params al (SGlobal m i)) as [[|n]|]; try discriminate.
  destruct (Nat.ltb (length l) (S n)); [discriminate|].
  destruct (existsb _ _); [discriminate|].
  destruct (al_lookup al (SGlobal m i) (firstn (S n) l)) as [s|] eqn:Es; [|discriminate]. injection E as <-.
  change (match l with [] => [] | _ :: r => skipn n r end) with (skipn (S n) l).
  rewrite <- (firstn_skipn (S n) l), apply_app in HT.
  refine (ht_new_head _ _ _ _ _ _ _ _ HT).
  - intros U HU. destruct (Ha _ _ _ Es _ _ _ HU) as [V <-]. apply ht_sym; auto.
  - intros s0 Hs0. assert (F : forall l h, spine_head (apply h l) = spine_head h).
    { clear. induction l as [|y l IH]; intros h; [reflexivity|]. simpl. rewrite IH. reflexivity. }
    rewrite F in Hs0. simpl in Hs0. injection Hs0 as <-. reflexivity.
Qed.
Lemma ht_canon_parts al G bs t T : aliases_typed al -> ht G bs t T -> let '(h, ch, l) := canon_parts al t in
  (h = ch \/ forall s, h <> TSym s) /\ ht G bs (apply ch l) T.
Proof.
  intros Ha H. induction H; cbn [canon_parts].
  - split; auto. apply ht_var; auto.
  - split; auto. apply ht_bound; auto.
  - split; auto. apply ht_sym; auto.
  - split; auto. change (canon_finish al (canon_parts al T)) with (canonicalize al T). rewrite ground_canonical by (eapply et_ground; eauto).
    simpl. apply ht_eq; auto.
  - split; auto. change (canon_finish al (canon_parts al T)) with (canonicalize al T). rewrite ground_canonical by (eapply et_ground; eauto).
    simpl. apply ht_ite; auto.
  - destruct (canon_parts al f) as [[h ch] l]. destruct IHhas_type1 as [E F]. split; auto. rewrite apply_app. simpl. eapply ht_app; eauto.
    destruct (canon_parts al a) as [[h2 ch2] l2]. destruct IHhas_type2 as [E2 F2]. apply ht_canon_finish; auto.
  - destruct (canon_parts al f) as [[h ch] l]. destruct IHhas_type as [E F]. split; auto. rewrite apply_app. simpl.
    change (canon_finish al (canon_parts al T)) with (canonicalize al T). rewrite ground_canonical by (apply H0). eapply ht_inst; eauto.
  - split; [right; discriminate|]. change (canon_finish al (canon_parts al A)) with (canonicalize al A). rewrite ground_canonical by (eapply et_ground; eauto).
    simpl. apply ht_lam; auto. destruct (canon_parts al b) as [[h2 ch2] l2]. destruct IHhas_type as [E2 F2]. apply ht_canon_finish; auto.
  - split; [right; discriminate|]. change (canon_finish al (canon_parts al A)) with (canonicalize al A). rewrite ground_canonical by (eapply et_ground; eauto).
    simpl. apply ht_quant; auto. destruct (canon_parts al b) as [[h2 ch2] l2]. destruct IHhas_type as [E2 F2]. apply ht_canon_finish; auto.
Qed.
Lemma ht_canonicalize al G bs t T : aliases_typed al -> ht G bs t T -> ht G bs (canonicalize al t) T.
Proof.
  intros Ha H. pose proof (ht_canon_parts al G bs t T Ha H) as X. unfold canonicalize. destruct (canon_parts al t) as [[h ch] l].
  destruct X. apply ht_canon_finish; auto.
Qed.

(** ** the output context *)
Lemma keep_unmapped_inv m c out i T : get_var_type (keep_unmapped m c out) i = Some T ->
  get_var_type out i = Some T \/ get_var_type c i = Some T.
Proof.
  unfold keep_unmapped. revert out. induction (seq 0 (length c)) as [|j l IH]; intros out H; [left; exact H|].
  simpl in H. apply IH in H. destruct H as [H|H]; [|right; exact H].
  destruct (vget m j); [left; exact H|]. destruct (get_var_type c j) as [U|] eqn:E; [|left; exact H].
  rewrite get_var_set_type in H. destruct (Nat.eqb_spec j i) as [->|]; [right; congruence|left; exact H].
Qed.
Definition map_typed (m : vmap) (c : lctx) : Prop :=
  forall i r, vget m i = Some r -> exists T, get_var_type c i = Some T /\ ht c [] r T.

Lemma mono_get c i T : mono_context M c -> get_var_type c i = Some T -> et T.
Proof. intros H E. apply (H i). unfold get_var_type in E. destruct (nth_error c i) as [[]|]; congruence. Qed.
Lemma build_get m c out w : mono_context M c -> build_output_context m c = Some out ->
  ((exists i r, vget m i = Some r /\ In w (vars r)) -> exists T, get_var_type c w = Some T /\ get_var_type out w = Some T) /\
  (forall T, get_var_type out w = Some T -> get_var_type c w = Some T).
Proof.
  intros Mc E. unfold build_output_context in E. destruct (output_context_get _ _ _ _ _ E w) as [A B].
  assert (A' : (exists i r, vget m i = Some r /\ In w (vars r)) -> exists T, get_var_type c w = Some T /\ get_var_type out w = Some T).
  { intros X. destruct (A X) as (T & E1 & E2). exists T. split; auto. rewrite apply_closed in E2; auto. apply (et_vars M). eapply mono_get; eauto. }
  split; auto. intros T HT.
  destruct (existsb (fun o => match o with Some r => existsb (Nat.eqb w) (vars r) | None => false end) m) eqn:Ex.
  - apply existsb_exists in Ex. destruct Ex as ([r|] & Hr & Hw); [|discriminate].
    apply existsb_exists in Hw. destruct Hw as (w' & Hw & Ew). apply Nat.eqb_eq in Ew. subst w'.
    apply In_nth_error in Hr. destruct Hr as [i Hi].
    destruct A' as (U & E1 & E2); [exists i, r; split; auto; unfold vget; rewrite Hi; auto|congruence].
  - rewrite B in HT; [destruct w; discriminate|].
    intros i r Hv Hw. apply Bool.not_true_iff_false in Ex. apply Ex. apply existsb_exists. exists (Some r). split.
    + unfold vget in Hv. destruct (nth_error m i) as [[?|]|] eqn:E'; [|discriminate|discriminate]. injection Hv as ->. eapply nth_error_In; eauto.
    + apply existsb_exists. exists w. split; [auto|apply Nat.eqb_refl].
Qed.

Lemma specialize_typed al m c c' : aliases_typed al -> map_typed m (context c) -> mt c -> specialize_clause al m c = Some c' ->
  mt c' /\ (forall i T, get_var_type (context c) i = Some T -> vget m i = None -> get_var_type (context c') i = Some T) /\
  (forall i r T, vget m i = Some r -> get_var_type (context c) i = Some T -> ht (context c') [] r T).
Proof.
  intros Ha Hm [Mc Ml] E. unfold specialize_clause in E. destruct (build_output_context m (context c)) as [out|] eqn:Eo; [|discriminate].
  simpl in E. injection E as <-. cbn [context literals].
  set (G' := keep_unmapped m (context c) out).
  assert (P1 : forall i T, get_var_type (context c) i = Some T -> vget m i = None -> get_var_type G' i = Some T) by (intros i T H1 H2; apply keep_unmapped_get; auto).
  assert (Inv : forall i T, get_var_type G' i = Some T -> get_var_type (context c) i = Some T).
  { intros i T Hi. apply keep_unmapped_inv in Hi. destruct Hi as [Hi|Hi]; auto. apply (build_get m (context c) out i Mc Eo); auto. }
  assert (Keep : forall i T, get_var_type out i = Some T -> get_var_type G' i = Some T).
  { intros i T Hi. pose proof (proj2 (build_get m (context c) out i Mc Eo) T Hi) as Hc.
    unfold G', keep_unmapped. clear - Hi Hc. revert out Hi. induction (seq 0 (length (context c))) as [|j l IH]; intros out Hi; [exact Hi|].
    simpl. apply IH. destruct (vget m j); auto. destruct (get_var_type (context c) j) as [U|] eqn:E; auto.
    rewrite get_var_set_type. destruct (Nat.eqb_spec j i) as [->|]; [congruence|exact Hi]. }
  assert (P2 : forall i r T, vget m i = Some r -> get_var_type (context c) i = Some T -> ht G' [] r T).
  { intros i r T Hr HT. apply (ht_weaken M K (context c)); [destruct (Hm i r Hr) as (T0 & ET & H0); congruence|]. intros w U Hw HU.
    destruct (proj1 (build_get m (context c) out w Mc Eo)) as (U' & E1 & E2); [eauto|]. apply Keep. congruence. }
  split; [|split; auto]. split.
  - intros i T Hi. apply (mono_get (context c) i); auto. apply Inv. unfold get_var_type. cbn [context] in Hi. fold G' in Hi. rewrite Hi. reflexivity.
  - apply Forall_forall. intros l Hl. cbn [literals] in Hl. apply in_map_iff in Hl. destruct Hl as (l0 & <- & Hl0). rewrite Forall_forall in Ml.
    destruct (Ml l0 Hl0) as (T & HT & H1 & H2). unfold specialize_literal. cbn [context]. fold G'.
    apply (ml_new M K G' (positive l0) _ _ T HT); apply ht_canonicalize; auto; rewrite specialize_apply; apply (ht_apply M K (context c)); auto.
Qed.

Lemma compact_typed c c' : mt c -> compact_var_ids c = Some c' -> mt c'.
Proof.
  intros [Mc Ml] E. unfold compact_var_ids in E. destruct (compact_literals (context c) [] (literals c)) as [[ls ids]|] eqn:E1; [|discriminate].
  destruct (LocalContext.remap (context c) ids) as [c1|] eqn:Rm; [|discriminate]. simpl in E. injection E as <-.
  destruct (compact_spec _ _ _ _ _ E1) as [_ Rn]. split; [exact (remap_mono M _ _ _ Rm Mc)|].
  apply Forall_forall. intros l' Hl'. cbn [literals context] in *.
  destruct (Forall2_in_r _ _ _ Rn l' Hl') as (x & Hx & _ & Y1 & Y2). rewrite Forall_forall in Ml. destruct (Ml x Hx) as (T & HT & H1 & H2).
  exists T. split; auto. split; [exact (proj1 (ht_renumber M K _ _ _ Rm _ _ _ _ Y1 H1))|exact (proj1 (ht_renumber M K _ _ _ Rm _ _ _ _ Y2 H2))].
Qed.

Lemma mono_claim n al cl c' : eta_model M -> aliases_ok M al -> aliases_typed al -> mt (claim_generic cl) ->
  map_typed (clm_map cl) (context (claim_generic cl)) -> claim_specialized n al cl = Ok (Some c') ->
  mo c' /\ (valid M (claim_generic cl) -> valid M c').
Proof.
  intros He Ha Ht Hg Hm E. pose proof E as E0. unfold claim_specialized in E. destruct (map_in_scope cl) eqn:Sc; [|discriminate].
  dob E. apply unwrap_ok in E1. unfold specialize_clause_compact in E1. change (clm_clause cl) with (claim_generic cl) in E1.
  destruct (specialize_clause al (clm_map cl) (claim_generic cl)) as [c|] eqn:Es; [|discriminate].
  dob E. injection E as ->. destruct (specialize_typed _ _ _ _ Ht Hm Hg Es) as (Tc & P1 & P2).
  split.
  - apply (mono_checker_normal M K n a); auto. eapply compact_typed; eauto.
  - apply (specialized_claims_hold_partial n al cl c c' E0 Es M He Ha).
    + apply (mt_suitable M K CT R); auto.
    + intros i r Hr. destruct (Hm i r Hr) as (T & ET & _). eapply (ht_lc0 M K). eapply P2; eauto.
    + intros i T v HT _ Hv. rewrite (et_vars M T) in Hv; [contradiction|]. eapply mono_get; [apply Hg|eauto].
    + intros rho V i T r HT Hr. rewrite apply_closed by (apply (et_vars M); eapply mono_get; [apply Hg|eauto]).
      pose proof (P2 i r T Hr HT) as H1. destruct (ht_value M K CT R (context c) r T rho H1 V) as [_ H2].
      unfold ev at 2. rewrite (closed_eval M T rho (nobs M) (ht_closed M K CT _ _ _ _ H1)). exact H2.
Qed.

(** A claim without arguments is equivalent to its specialized clause. *)
Lemma mono_claim_trivial n al cl c' : eta_model M -> aliases_ok M al -> aliases_typed al -> mt (claim_generic cl) ->
  (forall i, vget (clm_map cl) i = None) -> claim_specialized n al cl = Ok (Some c') -> valid M c' -> valid M (claim_generic cl).
Proof.
  intros He Ha Ht Hg Hm E V. unfold claim_specialized in E. destruct (map_in_scope cl) eqn:Sc; [|discriminate].
  dob E. apply unwrap_ok in E0. unfold specialize_clause_compact in E0. change (clm_clause cl) with (claim_generic cl) in E0.
  destruct (specialize_clause al (clm_map cl) (claim_generic cl)) as [c|] eqn:Es; [|discriminate].
  dob E. injection E as ->. assert (Mt : map_typed (clm_map cl) (context (claim_generic cl))) by (intros i r Hr; rewrite Hm in Hr; discriminate).
  destruct (specialize_typed _ _ _ _ Ht Mt Hg Es) as (Tc & P1 & _). pose proof (mt_suitable M K CT R c Tc) as Sc'.
  destruct (compact_sound M c a Sc' E0) as [[S1 S2 S3] V1].
  apply (normal_reflects M n a c' He S1 E1) in V. apply V1 in V.
  unfold specialize_clause in Es. destruct (build_output_context (clm_map cl) (context (claim_generic cl))) as [out|] eqn:Eo; [|discriminate].
  simpl in Es. injection Es as <-. intros rho Hr.
  assert (Hv : valid_env M (keep_unmapped (clm_map cl) (context (claim_generic cl)) out) rho).
  { intros i T HT. apply Hr. apply keep_unmapped_inv in HT. destruct HT as [HT|HT]; auto.
    apply (build_get (clm_map cl) (context (claim_generic cl)) out i (proj1 Hg) Eo); auto. }
  destruct (V rho Hv) as (l & Hl & Hh). cbn [literals] in Hl. apply in_map_iff in Hl. destruct Hl as (l0 & <- & Hl0).
  exists l0. split; auto. apply (specialize_literal_holds M al (clm_map cl) l0 rho Ha) in Hh; [|intros i r Hr'; rewrite Hm in Hr'; discriminate].
  assert (X : forall i, via M (clm_map cl) rho i = rho i) by (intros i; unfold via; rewrite Hm; reflexivity).
  assert (EV : forall t, ev M (via M (clm_map cl) rho) t = ev M rho t) by (intros t; apply eval_ext; auto).
  unfold lit_holds in Hh |- *. rewrite !EV in Hh. exact Hh.
Qed.
End MC.
