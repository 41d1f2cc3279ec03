(** Meaning of the checker's normalizations: removing variables of types with elements keeps clauses valid. *)
From Coq Require Import List Arith NArith Bool Lia Permutation.
Import ListNotations.
From Verif Require Import Term LocalContext Semantics TermProofs SemFacts TermNorm TermNormProofs Literal Clause ClauseSem RenumberProofs ClauseProofs ClauseWf P_Clause P_TermNorm
  Typing VariableMap Unifier Inference BoolReduction ClauseSet EqualityGraph Checker CheckerProofs.

Lemma swtg_ext M P t : forall rho1 rho2 bs, (forall i, In i (vars t) -> rho1 i = rho2 i) -> swtg M P rho1 bs t -> swtg M P rho2 bs t.
Proof.
  induction t as [[i|i|s]|f IHf a IHa|k A IHA b IHb]; intros rho1 rho2 bs H W; cbn [swtg] in *; auto.
  - rewrite vars_app in H. destruct W as (W1 & W2 & W3).
    assert (Hf : forall i, In i (vars f) -> rho1 i = rho2 i) by (intros; apply H, in_or_app; auto).
    assert (Ha : forall i, In i (vars a) -> rho1 i = rho2 i) by (intros; apply H, in_or_app; auto).
    rewrite <- (eval_ext M f rho1 rho2 bs bs), <- (eval_ext M a rho1 rho2 bs bs); auto. split; [eapply IHf; eauto|]. split; [eapply IHa; eauto|auto].
  - rewrite vars_bind in H. destruct W as (W1 & W2 & W3).
    assert (HA : forall i, In i (vars A) -> rho1 i = rho2 i) by (intros; apply H, in_or_app; auto).
    assert (Hb : forall i, In i (vars b) -> rho1 i = rho2 i) by (intros; apply H, in_or_app; auto).
    rewrite <- (eval_ext M A rho1 rho2 bs bs); auto. split; [eapply IHA; eauto|]. split; auto.
    intros x Hx. destruct (W3 x Hx) as [V1 V2]. rewrite <- (eval_ext M b rho1 rho2 (scons x bs) (scons x bs)); auto. split; [eapply IHb; eauto|auto].
Qed.
Lemma swtg_mono M (P Q : D M -> Prop) t : (forall d, P d -> Q d) -> forall rho bs, swtg M P rho bs t -> swtg M Q rho bs t.
Proof.
  intros PQ. induction t as [[i|i|s]|f IHf a IHa|k A IHA b IHb]; intros rho bs W; cbn [swtg] in *; auto.
  - destruct W as (W1 & W2 & W3). auto.
  - destruct W as (W1 & [W2 W2'] & W3). split; auto. split; [split; auto|]. intros x Hx. destruct (W3 x Hx); auto.
Qed.

(** every literal is well-typed and every lambda in it ranges over a proper type with elements *)
Definition clause_pwt (M : Model) (c : clause) : Prop :=
  forall rho, valid_env M (context c) rho -> forall l, In l (literals c) ->
  swtg M (proper_inhabited M) rho (nobs M) (left l) /\ swtg M (proper_inhabited M) rho (nobs M) (right l).
Lemma pwt_wt M c : clause_pwt M c -> clause_wt M c.
Proof.
  intros H rho He l Hl. destruct (H rho He l Hl) as [H1 H2].
  split; (eapply swtg_mono; [|eassumption]; intros; exact Logic.I).
Qed.

(** ** completing assignments *)
Lemma relevant_rank c (rank : nat -> nat) T k : (forall v d, In d (deps c v) -> rank d < rank v) -> (forall d, In d (vars T) -> rank d < k) ->
  forall w, relevant c [Lit true T T] w -> rank w < k.
Proof.
  intros R H w Hw. induction Hw as [l v [<-|[]] Hv|l v [<-|[]] Hv|v U w Hv IH HU Hd]; simpl in *; auto.
  assert (rank w < rank v) by (apply R; unfold deps; rewrite HU; auto). lia.
Qed.
Lemma erased_completable M c ids : acyclic c -> (forall v d, In v ids -> In d (deps c v) -> In d ids) -> erased_ok M c ids ->
  completable M c (fun v => In v ids).
Proof.
  intros (rank & R) Hd Hi rho H.
  assert (G : forall k, exists rho', (forall i, In i ids -> rho' i = rho i) /\
    forall v U, rank v < k -> get_var_type c v = Some U -> mem M (rho' v) (ev M rho' U)).
  { induction k as [|k (rho1 & A1 & B1)]; [exists rho; split; [auto|lia]|].
    assert (L : forall l, exists rho', (forall i, In i ids -> rho' i = rho i) /\ (forall v, rank v < k -> rho' v = rho1 v) /\
      forall v U, In v l -> rank v = k -> get_var_type c v = Some U -> mem M (rho' v) (ev M rho' U)).
    { induction l as [|w l (rho2 & A2 & K2 & B2)]; [exists rho1; split; auto; split; auto; intros v U []|].
      assert (T2 : forall v U, rank v < k -> get_var_type c v = Some U -> mem M (rho2 v) (ev M rho2 U)).
      { intros v U Hv HU. rewrite K2 by auto. rewrite (ev_vars M rho2 rho1); [apply B1; auto|].
        intros d Hdd. apply K2. assert (rank d < rank v) by (apply R; unfold deps; rewrite HU; auto). lia. }
      destruct (get_var_type c w) as [T|] eqn:ET.
      2:{ exists rho2. split; auto. split; auto. intros v U [<-|Hv]; [congruence|auto]. }
      destruct (in_dec Nat.eq_dec w ids) as [Hw|Hw].
      { exists rho2. split; auto. split; auto. intros v U [<-|Hv] Hr HU; [|auto].
        rewrite (A2 w Hw). rewrite (ev_vars M rho2 rho); [apply H; auto|].
        intros d Hdd. apply A2. apply (Hd w); auto. unfold deps. rewrite HU. exact Hdd. }
      destruct (Nat.eq_dec (rank w) k) as [Hr|Hr].
      2:{ exists rho2. split; auto. split; auto. intros v U [<-|Hv]; [congruence|auto]. }
      destruct (Hi w T Hw ET rho2) as [d Hm].
      { intros v U Hv HU. apply T2; auto. eapply relevant_rank; [exact R| |exact Hv].
        intros e He. rewrite <- Hr. apply R. unfold deps. rewrite ET. exact He. }
      assert (X : forall v U, get_var_type c v = Some U -> rank v <= k ->
                  ev M (fun i => if Nat.eqb i w then d else rho2 i) U = ev M rho2 U).
      { intros v U HU Hv. apply ev_vars. intros e He. assert (rank e < rank v) by (apply R; unfold deps; rewrite HU; auto).
        destruct (Nat.eqb_spec e w); [subst; lia|auto]. }
      exists (fun i => if Nat.eqb i w then d else rho2 i). split; [|split].
      - intros i Hids. destruct (Nat.eqb_spec i w); [subst; tauto|auto].
      - intros v Hv. destruct (Nat.eqb_spec v w); [subst; lia|auto].
      - intros v U Hv Hrv HU. rewrite (X v U HU) by lia. destruct (Nat.eqb_spec v w) as [->|N].
        + rewrite ET in HU. injection HU as <-. exact Hm.
        + destruct Hv as [->|Hv]; [congruence|]. apply B2; auto. }
    destruct (L (seq 0 (length c))) as (rho2 & A2 & K2 & B2). exists rho2. split; auto.
    intros v U Hv HU. destruct (Nat.eq_dec (rank v) k) as [Hr|Hr].
    - apply B2; auto. apply in_seq. split; [lia|]. apply nth_error_Some. unfold get_var_type in HU. destruct (nth_error c v); simpl; congruence.
    - rewrite K2 by lia. rewrite (ev_vars M rho2 rho1); [apply B1; auto; lia|].
      intros d Hdd. apply K2. assert (rank d < rank v) by (apply R; unfold deps; rewrite HU; auto). lia. }
  destruct (G (S (list_max (map rank (seq 0 (length c)))))) as (rho' & A & B). exists rho'. split; auto.
  intros v U HU. apply B; auto. assert (L : In v (seq 0 (length c))).
  { apply in_seq. split; [lia|]. apply nth_error_Some. unfold get_var_type in HU. destruct (nth_error c v); simpl; congruence. }
  assert (X := proj1 (List.list_max_le (map rank (seq 0 (length c))) (list_max (map rank (seq 0 (length c))))) (le_n _)).
  rewrite Forall_forall in X. assert (Y := X (rank v) (in_map rank _ _ L)). lia.
Qed.

(** all types of a context have elements *)
Definition all_inhabited (M : Model) (c : lctx) : Prop := erased_ok M c [].
Lemma all_erased M c ids : all_inhabited M c -> erased_ok M c ids.
Proof. intros H v T _ HT. exact (H v T (fun x => x) HT). Qed.
Lemma all_completable M c ids : acyclic c -> (forall v d, In v ids -> In d (deps c v) -> In d ids) -> all_inhabited M c ->
  completable M c (fun v => In v ids).
Proof. intros A D H. apply erased_completable; auto. apply all_erased; auto. Qed.
Lemma some_valid_env M c : acyclic c -> all_inhabited M c -> exists rho, valid_env M c rho.
Proof.
  intros A H. destruct (all_completable M c [] A ltac:(intros ? ? []) H (fun _ => dsym M STrue)) as (rho & _ & V); [intros ? ? []|eauto].
Qed.

(** ** renumbered contexts *)
Lemma renumber_forward ids t : forall t' v, renumber_variables ids t = Some t' -> In v (vars t) ->
  exists q, nth_error ids q = Some v /\ In q (vars t').
Proof.
  induction t as [[i|i|s]|f IHf a IHa|k A IHA b IHb]; simpl; intros t' v H Hv.
  - destruct (position i ids) as [p|] eqn:E; simpl in H; [|discriminate]. injection H as <-.
    unfold vars in Hv. simpl in Hv. destruct Hv as [<-|[]]. exists p. split; [apply position_some; auto|]. unfold vars; simpl; auto.
  - unfold vars in Hv; simpl in Hv; tauto.
  - unfold vars in Hv; simpl in Hv; tauto.
  - destruct (renumber_variables ids f) as [f'|] eqn:Ef; [|discriminate]. destruct (renumber_variables ids a) as [a'|] eqn:Ea; [|discriminate].
    injection H as <-. rewrite vars_app in *. apply in_app_or in Hv. destruct Hv as [Hv|Hv].
    + destruct (IHf _ _ eq_refl Hv) as (q & Q1 & Q2). exists q. split; auto. apply in_or_app; auto.
    + destruct (IHa _ _ eq_refl Hv) as (q & Q1 & Q2). exists q. split; auto. apply in_or_app; auto.
  - destruct (renumber_variables ids A) as [A'|] eqn:Ef; [|discriminate]. destruct (renumber_variables ids b) as [b'|] eqn:Ea; [|discriminate].
    injection H as <-. rewrite vars_bind in *. apply in_app_or in Hv. destruct Hv as [Hv|Hv].
    + destruct (IHA _ _ eq_refl Hv) as (q & Q1 & Q2). exists q. split; auto. apply in_or_app; auto.
    + destruct (IHb _ _ eq_refl Hv) as (q & Q1 & Q2). exists q. split; auto. apply in_or_app; auto.
Qed.
Lemma relevant_forward c ids c' T T' : LocalContext.remap c ids = Some c' -> renumber_variables ids T = Some T' ->
  forall v, relevant c [Lit true T T] v -> exists q, nth_error ids q = Some v /\ relevant c' [Lit true T' T'] q.
Proof.
  intros R HT v Hv. destruct (remap_get _ _ _ R) as [_ G].
  induction Hv as [l v [<-|[]] Hv|l v [<-|[]] Hv|v U w Hv IH HU Hd]; simpl in *.
  - destruct (renumber_forward _ _ _ _ HT Hv) as (q & Q1 & Q2). exists q. split; auto. eapply rel_left; [left; reflexivity|auto].
  - destruct (renumber_forward _ _ _ _ HT Hv) as (q & Q1 & Q2). exists q. split; auto. eapply rel_left; [left; reflexivity|auto].
  - destruct IH as (p & P1 & P2). destruct (G p v P1) as (U0 & U' & E1 & E2 & E3). rewrite HU in E1. injection E1 as <-.
    destruct (renumber_forward _ _ _ _ E2 Hd) as (q & Q1 & Q2). exists q. split; auto. eapply rel_type; eauto.
Qed.
Lemma inhabited_remap M c ids c' : NoDup ids -> LocalContext.remap c ids = Some c' -> all_inhabited M c -> all_inhabited M c'.
Proof.
  intros N R H p T' _ HT' rho' Hr. destruct (remap_get _ _ _ R) as [L G].
  assert (Hp : p < length ids) by (rewrite <- L; apply nth_error_Some; unfold get_var_type in HT'; destruct (nth_error c' p); congruence).
  destruct (nth_error ids p) as [v|] eqn:Ev; [|apply nth_error_None in Ev; lia].
  destruct (G p v Ev) as (T & T2 & E1 & E2 & E3). rewrite HT' in E3. injection E3 as <-.
  destruct (follows_inv M ids rho' N) as [rho F].
  destruct (H v T (fun x => x) E1 rho) as (d & Hm).
  - intros w U Hw HU. destruct (relevant_forward _ _ _ _ _ R E2 w Hw) as (q & Q1 & Q2).
    destruct (G q w Q1) as (U0 & U' & F1 & F2 & F3). rewrite HU in F1. injection F1 as <-.
    rewrite <- (F q w Q1). unfold ev. rewrite <- (eval_renumber M _ _ _ _ F _ _ F2). apply Hr; auto.
  - exists d. unfold ev. rewrite (eval_renumber M _ _ _ _ F _ _ E2). exact Hm.
Qed.
Lemma ordered_acyclic c : validate_variable_ordering c = true -> acyclic c.
Proof. intros H. exists (fun v => v). apply ordered_deps; auto. Qed.
Lemma renumber_context M c ls ids ls' c' : renumber_literals c [] ls = Some (ls', ids) -> LocalContext.remap c ids = Some c' ->
  NoDup ids /\ acyclic c' /\ (all_inhabited M c -> all_inhabited M c').
Proof.
  intros E R. destruct (renumber_literals_spec _ _ _ _ _ E) as [(_ & N & Dp) _].
  assert (Hn : NoDup ids) by (apply N; constructor). split; auto. split.
  - apply ordered_acyclic. eapply remap_ordered; [exact Hn| |exact R]. apply Dp. intros p v Hp. destruct p; discriminate.
  - eapply inhabited_remap; eauto.
Qed.
Lemma normalized_context M c c' : normalized c = Some c' -> acyclic (context c') /\ (all_inhabited M (context c) -> all_inhabited M (context c')).
Proof.
  unfold normalized, normalize_with_pinned, normalize_var_ids_with_pinned. cbn [literals context seq].
  destruct (renumber_literals (context c) [] (normalize_literals (literals c))) as [[l1 i1]|] eqn:E1; [|discriminate].
  destruct (LocalContext.remap (context c) i1) as [c1|] eqn:R1; cbn [option_map]; [|discriminate]. cbn [literals context].
  destruct (renumber_literals c1 [] (normalize_literals l1)) as [[l2 i2]|] eqn:E2; [|discriminate].
  destruct (LocalContext.remap c1 i2) as [c2|] eqn:R2; cbn [option_map]; [|discriminate]. intros H; injection H as <-. cbn [context].
  destruct (renumber_context M _ _ _ _ _ E1 R1) as (_ & _ & I1). destruct (renumber_context M _ _ _ _ _ E2 R2) as (_ & A2 & I2). auto.
Qed.

(** ** the checker's normal form of an inserted clause *)
Lemma subterms_sound M n c c1 : eta_model M -> clause_pwt M c -> normalize_clause_subterms n c = Some c1 ->
  context c1 = context c /\ clause_pwt M c1 /\ (valid M c <-> valid M c1).
Proof.
  intros He Hw. unfold normalize_clause_subterms. destruct (normalize_literal_subterms n (literals c)) as [ls|] eqn:E; [|discriminate].
  intros H; injection H as <-. split; auto.
  assert (G : forall ls0 ls rho, normalize_literal_subterms n ls0 = Some ls ->
     (forall l, In l ls0 -> swtg M (proper_inhabited M) rho (nobs M) (left l) /\ swtg M (proper_inhabited M) rho (nobs M) (right l)) ->
     (forall l, In l ls -> swtg M (proper_inhabited M) rho (nobs M) (left l) /\ swtg M (proper_inhabited M) rho (nobs M) (right l)) /\
     (cholds M rho ls0 <-> cholds M rho ls)).
  { clear - He. induction ls0 as [|l ls0 IH]; intros ls rho E W; simpl in E.
    - injection E as <-. split; [intros ? []|tauto].
    - destruct (normalize_term n (left l)) as [a|] eqn:Ea; [|discriminate]. destruct (normalize_term n (right l)) as [b|] eqn:Eb; [|discriminate].
      destruct (normalize_literal_subterms n ls0) as [r|] eqn:Er; [|discriminate]. injection E as <-.
      destruct (W l (or_introl eq_refl)) as [W1 W2].
      destruct (normalize_term_sound M (proper_inhabited M) n (fun A h => h) He _ _ rho (nobs M) Ea W1) as [V1 X1].
      destruct (normalize_term_sound M (proper_inhabited M) n (fun A h => h) He _ _ rho (nobs M) Eb W2) as [V2 X2].
      destruct (IH r rho eq_refl) as [I1 I2]; [intros; apply W; right; auto|]. split.
      + intros x [<-|Hx]; auto.
      + assert (Q : lit_holds M rho l <-> lit_holds M rho (Lit (positive l) a b)).
        { unfold lit_holds, ev. simpl. rewrite X1, X2. tauto. }
        unfold cholds in *. split; intros (x & [<-|Hx] & Hh).
        * eexists; split; [left; reflexivity|tauto].
        * destruct (proj1 I2) as (y & Hy & Hy'); [eauto|]. exists y. simpl; auto.
        * exists l. split; [left; auto|tauto].
        * destruct (proj2 I2) as (y & Hy & Hy'); [eauto|]. exists y. simpl; auto. }
  split.
  - intros rho Hv l Hl. exact (proj1 (G _ _ rho E (Hw rho Hv)) l Hl).
  - split; intros V rho Hv; apply (proj2 (G _ _ rho E (Hw rho Hv))); apply V; auto.
Qed.

(** A clause that holds, with well-typed literals and a context of types with elements *)
Record holds_in (M : Model) (c : clause) : Prop := {
  hi_valid : valid M c;
  hi_wt : clause_wt M c;
  hi_acyclic : acyclic (context c);
  hi_inhabited : all_inhabited M (context c)
}.

Lemma normal_holds_in M n c c' : eta_model M -> clause_pwt M c -> acyclic (context c) -> all_inhabited M (context c) ->
  checker_normal n c = Ok c' -> (valid M c -> holds_in M c') /\ clause_wt M c' /\ acyclic (context c') /\ all_inhabited M (context c').
Proof.
  intros He Hw Ha Hi E. unfold checker_normal in E. dob E. apply fueled_ok in E0. apply unwrap_ok in E.
  destruct (subterms_sound M n c a He Hw E0) as (C1 & W1 & V1). destruct (normalize_faithful _ _ _ E) as [ids F].
  rewrite <- C1 in Ha, Hi.
  destruct (faithful_preserves M _ _ ids F (pwt_wt _ _ W1) (all_completable M _ ids Ha (faithful_closed _ _ _ F) Hi)) as [V2 W2].
  destruct (normalized_context M _ _ E) as [A2 I2]. split; [|split; [|split]; auto]. intros V. constructor; auto. apply V2, V1, V.
Qed.
Lemma normal_reflects M n c c' : eta_model M -> clause_pwt M c -> checker_normal n c = Ok c' -> valid M c' -> valid M c.
Proof.
  intros He Hw E V. unfold checker_normal in E. dob E. apply fueled_ok in E0. apply unwrap_ok in E.
  destruct (subterms_sound M n c a He Hw E0) as (C1 & W1 & V1). apply V1.
  eapply normalization_reflects_validity; [left; exists 0; exact E|apply pwt_wt; auto|auto].
Qed.

Lemma ground_lit_wt M rho rho' l : lit_ground l -> lit_wt M rho l -> lit_wt M rho' l.
Proof.
  unfold lit_ground, lit_has_any_variable. rewrite orb_false_iff. intros [H1 H2] [W1 W2]. apply ground_vars in H1, H2.
  split; eapply swtg_ext; try eassumption; rewrite ?H1, ?H2; simpl; tauto.
Qed.
Lemma inhabited_ground_wt M c : acyclic (context c) -> all_inhabited M (context c) -> clause_wt M c -> ground_wt M (literals c).
Proof.
  intros A I W l Hl G rho. destruct (some_valid_env M _ A I) as [r Hr]. eapply ground_lit_wt; eauto.
Qed.
Lemma holds_stored M c : holds_in M c -> stored_ok M c.
Proof.
  intros [V W A I]. constructor; auto; [|apply inhabited_ground_wt; auto].
  intros G rho. destruct (some_valid_env M _ A I) as [r Hr]. destruct (V r Hr) as (l & Hl & Hh). exists l. split; auto.
  eapply ground_holds; [|exact Hh]. eapply existsb_false_in; [exact G|exact Hl].
Qed.
Lemma inhabited_query M c : acyclic (context c) -> all_inhabited M (context c) -> clause_wt M c -> query M c.
Proof.
  intros A I W. constructor; auto; [apply inhabited_ground_wt; auto|].
  intros ls c' Hk E. apply kept_incl in Hk.
  assert (W' : clause_wt M (Clause ls (context c))) by (intros r Hr x Hx; apply W; auto).
  destruct (normalize_faithful _ _ _ E) as [ids F].
  destruct (faithful_preserves M _ _ ids F W' (all_completable M (context c) ids A (faithful_closed _ _ _ F) I)) as [_ W2].
  destruct (normalized_context M _ _ E) as [A2 I2]. apply inhabited_ground_wt; auto.
Qed.

(** ** marking *)
Lemma key_valid M T c T' ids kc rho' : normalize_var_ids c [] T = Some (T', ids) -> LocalContext.remap c ids = Some kc ->
  acyclic c -> all_inhabited M c -> valid_env M kc rho' ->
  exists rho, valid_env M c rho /\ ev M rho' T' = ev M rho T.
Proof.
  intros E R A I V. destruct (normalize_var_ids_spec _ _ _ _ _ E) as [((ext & -> & Hx) & Hn & Hd) Rn]. simpl in *.
  assert (N : NoDup ext) by (apply Hn; constructor).
  destruct (follows_inv M ext rho' N) as [rho0 F].
  assert (Dc : forall v d, In v ext -> In d (deps c v) -> In d ext).
  { intros v d Hv. eapply deps_in_ids; eauto. apply Hd. intros p w Hp. destruct p; discriminate. }
  destruct (all_completable M c ext A Dc I rho0) as (rho & Ha & Hv).
  { intros v U Hv HU. apply (proj1 (valid_remap M _ _ _ _ _ R F) V); auto. }
  exists rho. split; auto. unfold ev. apply (eval_renumber M ext); auto. intros p v Hp. rewrite (F p v Hp). symmetry. apply Ha. eapply nth_error_In; eauto.
Qed.
Lemma key_empty M T c k : inhabited_type_key T c = Some k -> acyclic c -> all_inhabited M c ->
  (forall rho, valid_env M c rho -> exists d, mem M d (ev M rho T)) <-> key_inhabited M k.
Proof.
  unfold inhabited_type_key. destruct (normalize_var_ids c [] T) as [[T' ids]|] eqn:E; [|discriminate].
  destruct (LocalContext.remap c ids) as [kc|] eqn:R; [|discriminate]. intros H A I; injection H as <-. split.
  - intros H rho' V. simpl in *. destruct (key_valid M _ _ _ _ _ _ E R A I V) as (rho & Hv & ->). auto.
  - intros H rho V. apply (key_type M T c (T', kc)); auto.
    unfold inhabited_type_key. rewrite E, R. auto.
Qed.
Lemma holds_basic M K : basic K M (holds_in M).
Proof.
  constructor.
  - intros c. apply holds_stored.
  - intros c k [V W A I] E. unfold inhabited_type_from_clause in E. destruct (literals c) as [|l [|]] eqn:El; try discriminate.
    dob E. apply unwrap_ok in E0. destruct (negb (term_eqb a tbool)); [discriminate|].
    destruct (is_true (right l)) eqn:Et; simpl in E; [|discriminate]. destruct (positive l) eqn:Ep; simpl in E; [|discriminate].
    destruct (left l) as [|?|[] T b] eqn:Eb; try discriminate. dob E. injection E as <-. apply unwrap_ok in E1.
    apply (key_empty M T (context c)); auto. intros rho Hv. destruct (W rho Hv l) as [W1 W2]; [rewrite El; left; auto|].
    destruct (V rho Hv) as (l' & Hl & Hh). rewrite El in Hl. destruct Hl as [<-|[]]. unfold lit_holds in Hh. rewrite Ep, Eb in Hh.
    rewrite (is_true_eq M (anydom M) rho (nobs M) _ W2 Et) in Hh. unfold ev in Hh. simpl in Hh.
    rewrite Eb in W1. destruct W1 as (_ & _ & W1). apply ex_val in Hh; [|intros x Hx; apply W1; auto]. destruct Hh as (x & Hx & _). exists x. exact Hx.
  - intros c k [V W A I] E Hk. unfold negated_exists_true_type in E. destruct (literals c) as [|l [|]] eqn:El; try discriminate.
    destruct (positive l) eqn:Ep; simpl in E; [discriminate|]. destruct (is_true (right l)) eqn:Et; simpl in E; [|discriminate].
    destruct (left l) as [|?|[] T b] eqn:Eb; try discriminate. destruct (is_true b) eqn:Etb; [|discriminate]. dob E. injection E as <-. apply unwrap_ok in E0.
    destruct (some_valid_env M _ A I) as [rho Hv]. destruct (proj2 (key_empty M T (context c) a E0 A I) Hk rho Hv) as [d Hd].
    destruct (W rho Hv l) as [W1 W2]; [rewrite El; left; auto|].
    destruct (V rho Hv) as (l' & Hl & Hh). rewrite El in Hl. destruct Hl as [<-|[]]. unfold lit_holds in Hh. rewrite Ep, Eb in Hh.
    rewrite (is_true_eq M (anydom M) rho (nobs M) _ W2 Et) in Hh. apply Hh. unfold ev. simpl.
    rewrite Eb in W1. destruct W1 as (_ & _ & W1). apply ex_val; [intros x Hx; apply W1; auto|]. exists d. split; [exact Hd|].
    rewrite (is_true_eq M (anydom M) _ _ b (proj1 (W1 d Hd)) Etb). reflexivity.
Qed.

(** ** traces *)
Lemma renumber_backward ids t : forall t' q, renumber_variables ids t = Some t' -> In q (vars t') ->
  exists v, nth_error ids q = Some v /\ In v (vars t).
Proof.
  induction t as [[i|i|s]|f IHf a IHa|k A IHA b IHb]; simpl; intros t' v H Hv.
  - destruct (position i ids) as [p|] eqn:E; simpl in H; [|discriminate]. injection H as <-.
    unfold vars in Hv. simpl in Hv. destruct Hv as [<-|[]]. exists i. split; [apply position_some; auto|]. unfold vars; simpl; auto.
  - injection H as <-. unfold vars in Hv; simpl in Hv; tauto.
  - injection H as <-. unfold vars in Hv; simpl in Hv; tauto.
  - destruct (renumber_variables ids f) as [f'|] eqn:Ef; [|discriminate]. destruct (renumber_variables ids a) as [a'|] eqn:Ea; [|discriminate].
    injection H as <-. rewrite vars_app in *. apply in_app_or in Hv. destruct Hv as [Hv|Hv].
    + destruct (IHf _ _ eq_refl Hv) as (q & Q1 & Q2). exists q. split; auto. apply in_or_app; auto.
    + destruct (IHa _ _ eq_refl Hv) as (q & Q1 & Q2). exists q. split; auto. apply in_or_app; auto.
  - destruct (renumber_variables ids A) as [A'|] eqn:Ef; [|discriminate]. destruct (renumber_variables ids b) as [b'|] eqn:Ea; [|discriminate].
    injection H as <-. rewrite vars_bind in *. apply in_app_or in Hv. destruct Hv as [Hv|Hv].
    + destruct (IHA _ _ eq_refl Hv) as (q & Q1 & Q2). exists q. split; auto. apply in_or_app; auto.
    + destruct (IHb _ _ eq_refl Hv) as (q & Q1 & Q2). exists q. split; auto. apply in_or_app; auto.
Qed.
Lemma remap_acyclic c ids c' : LocalContext.remap c ids = Some c' -> acyclic c -> acyclic c'.
Proof.
  intros R [rank Hr]. destruct (remap_get _ _ _ R) as [L G]. exists (fun p => rank (nth p ids 0)).
  intros p q Hq. unfold deps in Hq. destruct (get_var_type c' p) as [T'|] eqn:HT'; [|destruct Hq].
  assert (Hp : p < length ids) by (rewrite <- L; apply nth_error_Some; unfold get_var_type in HT'; destruct (nth_error c' p); congruence).
  destruct (nth_error ids p) as [v|] eqn:Ev; [|apply nth_error_None in Ev; lia].
  destruct (G p v Ev) as (T & T2 & E1 & E2 & E3). rewrite HT' in E3. injection E3 as <-.
  destruct (renumber_backward _ _ _ _ E2 Hq) as (w & Ew & Hw).
  rewrite (nth_error_nth _ _ _ Ev), (nth_error_nth _ _ _ Ew). apply Hr. unfold deps. rewrite E1. exact Hw.
Qed.
Lemma step_valid M ls c ids0 t : normalize_with_var_ids_prefilled ls c ids0 = Some t -> NoDup ids0 -> acyclic c -> erased_ok M c (snd t) ->
  clause_wt M (Clause ls c) -> acyclic (context (fst t)) /\ clause_wt M (fst t) /\ (valid M (Clause ls c) <-> valid M (fst t)).
Proof.
  intros E N A I W. destruct t as [c' ids]. simpl in *.
  pose proof (prefilled_faithful _ _ _ _ _ N E) as F.
  destruct (faithful_preserves M _ _ ids F W (erased_completable M c ids A (faithful_closed _ _ _ F) I)) as [V W'].
  split; [|split; [auto|split; [auto|apply (faithful_reflects M _ _ _ F W)]]].
  unfold normalize_with_var_ids_prefilled in E.
  destruct (renumber_literals c ids0 (normalize_literals ls)) as [[l i]|] eqn:E1; [|discriminate].
  destruct (LocalContext.remap c i) as [c1|] eqn:R; [|discriminate]. simpl in E. injection E as <- <-. simpl.
  exact (remap_acyclic _ _ _ R A).
Qed.
Definition lit_pwt (M : Model) (rho : nat -> D M) (l : literal) : Prop :=
  swtg M (proper_inhabited M) rho (nobs M) (left l) /\ swtg M (proper_inhabited M) rho (nobs M) (right l).
Lemma lit_new_pwt M rho pos a b : lit_pwt M rho (lit_new pos a b) <-> lit_pwt M rho (Lit pos a b).
Proof. unfold lit_new, lit_new_with_flip, lit_pwt. destruct (needs_to_flip a b); simpl; tauto. Qed.
Lemma normalize_literal_pwt M rho l : lit_pwt M rho l -> lit_pwt M rho (normalize_literal l).
Proof.
  intros [W1 W2]. unfold normalize_literal.
  destruct (clause_term_sound M (proper_inhabited M) (right l) rho (nobs M) W2) as [V2 E2].
  destruct (is_true (normalize_clause_term (right l))) eqn:Et.
  - pose proof (signed_clause_term_sound M (proper_inhabited M) (left l) (positive l) rho (nobs M) W1) as Hs.
    cbv zeta in Hs. destruct (normalize_signed_clause_term (left l) (positive l)) as [a pos].
    destruct Hs as [Va _]. simpl in Va.
    assert (Hd : lit_pwt M rho (from_signed_term a pos)) by (unfold from_signed_term; rewrite lit_new_pwt; split; [exact Va|exact Logic.I]).
    destruct (clause_split a SEq 3) as [[|T [|x [|y [|? ?]]]]|] eqn:Es; auto.
    apply clause_split_some in Es. destruct Es as [-> _].
    change (fold_left TApp [T; x; y] (TSym SEq)) with (teq T x y) in *.
    rewrite lit_new_pwt. apply swt_eq in Va. destruct Va as (? & ? & ? & ? & ? & ?). split; assumption.
  - rewrite lit_new_pwt. split; auto. apply clause_term_sound; auto.
Qed.
Lemma renumbered_pwt M ids rho rho' l l' : follows M ids rho rho' -> renumbered ids l l' -> lit_pwt M rho l -> lit_pwt M rho' l'.
Proof.
  intros Hf (a & b & Ha & Hb & ->) [W1 W2]. rewrite lit_new_pwt. split; [apply (swt_renumber M _ _ _ _ _ Hf _ _ Ha)|apply (swt_renumber M _ _ _ _ _ Hf _ _ Hb)]; auto.
Qed.
Lemma Forall2_in_r {A B} (R : A -> B -> Prop) l l' : Forall2 R l l' -> forall y, In y l' -> exists x, In x l /\ R x y.
Proof.
  induction 1 as [|x y l l' H _ IH]; intros z; [intros []|]. intros [<-|Hz]; [exists x; simpl; auto|].
  destruct (IH z Hz) as (w & ? & ?). exists w. simpl; auto.
Qed.
Lemma step_pwt M ls c ids0 t : normalize_with_var_ids_prefilled ls c ids0 = Some t -> NoDup ids0 -> acyclic c -> erased_ok M c (snd t) ->
  clause_pwt M (Clause ls c) -> clause_pwt M (fst t).
Proof.
  intros E N0 A I W. assert (F0 : faithful (Clause ls c) (fst t) (snd t)) by (destruct t; eapply prefilled_faithful; eauto).
  unfold normalize_with_var_ids_prefilled in E.
  destruct (renumber_literals c ids0 (normalize_literals ls)) as [[ls1 ids]|] eqn:E1; [|discriminate].
  destruct (LocalContext.remap c ids) as [c1|] eqn:R; [|discriminate]. simpl in E. injection E as <-. simpl in *.
  destruct (renumber_literals_spec _ _ _ _ _ E1) as [_ Rn].
  intros rho' Hv l Hl. simpl in Hv, Hl. rewrite dedup_in in Hl. unfold sort_literals in Hl. rewrite sort_in in Hl.
  destruct (follows_inv M ids rho' (f_nodup _ _ _ F0)) as [rho0 F].
  destruct (erased_completable M c ids A (faithful_closed _ _ _ F0) I rho0) as (rho & Ha & V).
  { intros v U Hi HU. apply (proj1 (valid_remap M _ _ _ _ _ R F) Hv); auto. }
  assert (F' : follows M ids rho rho').
  { intros p v Hp. rewrite (F p v Hp). symmetry. apply Ha. eapply nth_error_In; eauto. }
  destruct (Forall2_in_r _ _ _ Rn l Hl) as (x & Hx1 & Hx2). eapply renumbered_pwt; [exact F'|exact Hx2|].
  unfold normalize_literals in Hx1. rewrite dedup_in in Hx1. unfold sort_literals in Hx1.
  rewrite sort_in, filter_In, in_map_iff in Hx1. destruct Hx1 as ((y & <- & Hy) & _). apply normalize_literal_pwt. exact (W rho V y Hy).
Qed.
Lemma checked_trace_sound M n ls c ids0 t c' : eta_model M -> acyclic c -> NoDup ids0 -> clause_pwt M (Clause ls c) ->
  normalize_with_var_ids_prefilled ls c ids0 = Some t -> checked_trace M n (fst t, snd t, c) c' ->
  acyclic (context c') /\ clause_pwt M c' /\ (valid M (Clause ls c) <-> valid M c').
Proof.
  intros He A N W E (I & c1 & t1 & t2 & E1 & E2 & I2 & E3 & I3 & ->). simpl in *.
  destruct (step_valid M _ _ _ _ E N A I (pwt_wt _ _ W)) as (A0 & _ & V0). pose proof (step_pwt M _ _ _ _ E N A I W) as W0.
  destruct (subterms_sound M n _ _ He W0 E1) as (C1 & W1 & V1). rewrite <- C1 in A0.
  assert (W1' : clause_pwt M (Clause (literals c1) (context c1))) by (destruct c1; auto).
  assert (V1' : valid M c1 <-> valid M (Clause (literals c1) (context c1))) by (destruct c1; tauto).
  pose proof (NoDup_nil nat) as N1.
  destruct (step_valid M _ _ _ _ E2 N1 A0 I2 (pwt_wt _ _ W1')) as (A2 & _ & V2). pose proof (step_pwt M _ _ _ _ E2 N1 A0 I2 W1') as W2.
  assert (W2' : clause_pwt M (Clause (literals (fst t1)) (context (fst t1)))) by (destruct (fst t1); auto).
  assert (V2' : valid M (fst t1) <-> valid M (Clause (literals (fst t1)) (context (fst t1)))) by (destruct (fst t1); tauto).
  destruct (step_valid M _ _ _ _ E3 N1 A2 I3 (pwt_wt _ _ W2')) as (A3 & _ & V3). pose proof (step_pwt M _ _ _ _ E3 N1 A2 I3 W2') as W3.
  split; [exact A3|]. split; [exact W3|]. tauto.
Qed.
Lemma checked_sound M n ls c c' : eta_model M -> acyclic c -> clause_pwt M (Clause ls c) -> checked_result M n ls c c' ->
  acyclic (context c') /\ clause_pwt M c' /\ (valid M (Clause ls c) <-> valid M c').
Proof. intros He A W (t & E & H). exact (checked_trace_sound M n ls c [] t c' He A (NoDup_nil _) W E H). Qed.
