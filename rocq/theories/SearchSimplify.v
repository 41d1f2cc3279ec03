(** Simplification of waiting clauses with a known literal, for monomorphic clauses. *)
From Coq Require Import List Arith NArith Bool Lia.
Import ListNotations.
From Verif Require Import Pdt PdtProofs VariableMap Unifier Inference ClauseSet EqualityGraph Checker.
From Verif Require Import Term LocalContext Semantics TermProofs SemFacts TermNorm TermNormProofs Typing TypingProofs Literal Clause ClauseSem RenumberProofs ClauseProofs ClauseWf InferenceProofs
  VariableMapProofs UnifierProofs CheckerProofs CheckerSem P_TermNorm P_Checker P_LiteralSet Monomorphic MonoProofs MonoNorm MonoReduce MonoUnify MonoRules MonoMatch SearchRules SearchProofs.

Section SS.
Context (M : Model) (K : kctx) (CT : closed_types K) (R : respects M K).
Notation et := (element_type M).
Notation ht := (has_type M K).
Notation ml := (mono_literal M K).
Notation mt := (mono_typed M K).
Notation tm := (tm M K).

(** The environment of the general clause that the map gives *)
Lemma match_env gc sc m rho : mono_context M gc -> tm gc sc m -> closed_map m -> valid_env M sc rho ->
  exists rho', valid_env M gc rho' /\ forall t, covers m t -> ev M rho' t = ev M rho (apply_to_term m t).
Proof.
  intros HG Tm Cm Vr.
  assert (S : suitable M (Clause [] gc)) by (apply (mt_suitable M K CT R); split; [exact HG|constructor]).
  destruct S as [_ S2 S3]. simpl in S2, S3.
  set (ids := filter (fun i => match vget m i with Some _ => true | None => false end) (List.seq 0 (length gc))).
  assert (Ty : forall i T r, get_var_type gc i = Some T -> vget m i = Some r -> mem M (ev M rho r) (ev M (nobs M) T)).
  { intros i T r HT Hr. destruct (Tm i r Hr) as (T' & HT' & X). assert (T' = T) by congruence. subst. apply (ht_value M K CT R _ _ _ rho X Vr). }
  destruct (all_completable M gc ids S2) with (via M m rho) as (rho' & A & V'); auto.
  - intros v d _ Hd. rewrite (mc_deps M) in Hd by auto. destruct Hd.
  - intros v T Hv HT. apply filter_In in Hv. destruct Hv as [_ Hv]. unfold via at 1. destruct (vget m v) as [r|] eqn:E; [|discriminate].
    pose proof (et_closed M T (mc_get M _ _ _ HG HT)) as Cl. unfold ev at 2. rewrite (closed_eval M T _ _ Cl). eapply Ty; eauto.
  - exists rho'. split; auto. intros t C. rewrite (ev_apply M _ _ _ Cm). apply eval_ext; auto. intros i Hi. specialize (C i Hi).
    destruct (vget m i) as [r|] eqn:E; [|contradiction]. apply A. apply filter_In. rewrite E. split; auto. apply in_seq. split; [lia|].
    destruct (Tm i r E) as (T & HT & _). unfold get_var_type in HT. apply nth_error_Some. destruct (nth_error gc i); congruence.
Qed.

(** The sides of a literal that is known, under the types of its variables *)
Definition known_pair (gc : lctx) (a b : term) (pos : bool) : Prop := forall rho, valid_env M gc rho -> lit_holds M rho (Lit pos a b).
Lemma match_truth gc sc a b pos a' b' m T T' : mono_context M gc -> ht gc [] a T -> ht gc [] b T -> ht sc [] a' T' -> ht sc [] b' T' ->
  match_sides K gc sc [] a b a' b' = Some (Some m) ->
  tm gc sc m /\ (known_pair gc a b pos -> forall rho, valid_env M sc rho -> lit_holds M rho (Lit pos a' b')).
Proof.
  intros HG Ha Hb Ha' Hb' H.
  assert (Nt : tm gc sc []) by (intros [|i] r; discriminate). assert (Nc : closed_map []) by (intros [|i] r; discriminate).
  destruct (sides_typed M K CT _ _ _ _ _ _ _ _ _ _ HG Ha Hb Ha' Hb' Nt H) as (Tm & _ & C1 & C2 & S1 & S2 & Cm).
  split; auto. intros Kn rho Vr. destruct (match_env gc sc m rho HG Tm (Cm Nc) Vr) as (r1 & V1 & A).
  specialize (Kn r1 V1). unfold lit_holds in *. cbn [positive left right] in *. rewrite (A _ C1), (A _ C2) in Kn.
  assert (Sw : forall x y, swapeq x y -> ht sc [] y T' -> ev M rho x = ev M rho y).
  { intros x y Hxy Wy. apply (swapeq_sound M (proper_inhabited M) _ _ (swapeq_sym _ _ Hxy) rho (nobs M) (proj1 (ht_value M K CT R _ _ _ rho Wy Vr))). }
  rewrite (Sw _ _ S1 Ha'), (Sw _ _ S2 Hb') in Kn. exact Kn.
Qed.

Definition keys_fit (gc : lctx) (ids : option (list nat)) : Prop := match ids with None => True | Some l => length gc = length l end.
Lemma remap_keys_fits gc sc m ids : tm gc sc m -> keys_fit gc ids -> remap_keys ids m <> None.
Proof.
  intros Tm F. destruct ids as [l|]; [|discriminate]. simpl in *.
  assert (G : forall r i acc, (forall j t, vget r j = Some t -> i + j < length l) -> remap_keys_from i l r acc <> None).
  { induction r as [|[t|] r IH]; intros i acc H; simpl; [discriminate| |].
    - pose proof (H 0 t eq_refl) as H0. rewrite Nat.add_0_r in H0. apply nth_error_Some in H0. destruct (nth_error l i) as [v|]; [|congruence].
      apply IH. intros j t' E. specialize (H (S j) t' E). lia.
    - apply IH. intros j t' E. specialize (H (S j) t' E). lia. }
  apply G. intros j t E. destruct (Tm j t E) as (T & HT & _). simpl. rewrite <- F. unfold get_var_type in HT. apply nth_error_Some. destruct (nth_error gc j); congruence.
Qed.
Lemma opposite rho pos a b l : Bool.eqb (positive l) pos = false -> lit_holds M rho (Lit pos a b) -> (a = left l /\ b = right l) \/ (a = right l /\ b = left l) -> ~ lit_holds M rho l.
Proof.
  intros E H S L. unfold lit_holds in *. cbn [positive left right] in H. apply Bool.eqb_false_iff in E.
  destruct (positive l), pos; try congruence; destruct S as [[-> ->]|[-> ->]]; congruence.
Qed.
Lemma same_sign rho pos a b l : Bool.eqb (positive l) pos = true -> lit_holds M rho (Lit pos a b) -> (a = left l /\ b = right l) \/ (a = right l /\ b = left l) -> lit_holds M rho l.
Proof.
  intros E H S. unfold lit_holds in *. cbn [positive left right] in H. apply Bool.eqb_prop in E. subst pos.
  destruct (positive l); destruct S as [[-> ->]|[-> ->]]; congruence.
Qed.

Lemma remaining_sound gc sc a b pos ids T : mono_context M gc -> ht gc [] a T -> ht gc [] b T -> keys_fit gc ids ->
  forall ls res, (forall l, In l ls -> ml sc l) -> remaining K gc sc a b pos ids ls = Some res ->
  match res with
  | Some ls' => incl ls' ls /\ (known_pair gc a b pos -> forall rho, valid_env M sc rho -> cholds M rho ls -> cholds M rho ls')
  | None => known_pair gc a b pos -> forall rho, valid_env M sc rho -> cholds M rho ls
  end.
Proof.
  intros HG Ha Hb Kf. induction ls as [|l r IH]; intros res Hl H; cbn [remaining] in H.
  - injection H as <-. split; [intros x []|auto].
  - cbv zeta in H. destruct (Hl l (or_introl eq_refl)) as (U & HU & L1 & L2). assert (Hr : forall x, In x r -> ml sc x) by (intros; apply Hl; simpl; auto).
    assert (Elim : forall a' b' m, (a' = left l /\ b' = right l) \/ (a' = right l /\ b' = left l) -> match_sides K gc sc [] a b a' b' = Some (Some m) ->
      (if Bool.eqb (positive l) pos then Some None else match remap_keys ids m with None => Some None | Some _ => remaining K gc sc a b pos ids r end) = Some res ->
      match res with
      | Some ls' => incl ls' (l :: r) /\ (known_pair gc a b pos -> forall rho, valid_env M sc rho -> cholds M rho (l :: r) -> cholds M rho ls')
      | None => known_pair gc a b pos -> forall rho, valid_env M sc rho -> cholds M rho (l :: r)
      end).
    { intros a' b' m Sd Em E.
      assert (Sa : ht sc [] a' U /\ ht sc [] b' U) by (destruct Sd as [[-> ->]|[-> ->]]; auto). destruct Sa as [Sa Sb].
      destruct (match_truth gc sc a b pos a' b' m T U HG Ha Hb Sa Sb Em) as [Tm Tr].
      destruct (Bool.eqb (positive l) pos) eqn:Es.
      - injection E as <-. intros Kn rho Vr. exists l. split; [simpl; auto|]. eapply same_sign; eauto.
      - destruct (remap_keys ids m) eqn:Ek; [|exfalso; eapply remap_keys_fits; eauto]. specialize (IH res Hr E). destruct res as [ls'|].
        + destruct IH as [I1 I2]. split; [intros x Hx; right; auto|]. intros Kn rho Vr (x & [<-|Hx] & Hh); [exfalso; eapply opposite; eauto|]. apply I2; auto. exists x. auto.
        + intros Kn rho Vr. destruct (IH Kn rho Vr) as (x & Hx & Hh). exists x. simpl. auto. }
    assert (Keep : option_map (option_map (cons l)) (remaining K gc sc a b pos ids r) = Some res ->
      match res with
      | Some ls' => incl ls' (l :: r) /\ (known_pair gc a b pos -> forall rho, valid_env M sc rho -> cholds M rho (l :: r) -> cholds M rho ls')
      | None => known_pair gc a b pos -> forall rho, valid_env M sc rho -> cholds M rho (l :: r)
      end).
    { intros E. destruct (remaining K gc sc a b pos ids r) as [[ls'|]|] eqn:Er; simpl in E; try discriminate; injection E as <-; specialize (IH _ Hr eq_refl); cbn beta iota in IH.
      - destruct IH as [I1 I2]. split; [intros x [<-|Hx]; simpl; auto|]. intros Kn rho Vr (x & [<-|Hx] & Hh); [exists l; simpl; auto|].
        destruct (I2 Kn rho Vr (ex_intro _ x (conj Hx Hh))) as (y & Hy & Gh). exists y. simpl. auto.
      - intros Kn rho Vr. destruct (IH Kn rho Vr) as (x & Hx & Hh). exists x. simpl. auto. }
    destruct (match_sides K gc sc [] a b (left l) (right l)) as [[m|]|] eqn:E1; [exact (Elim _ _ m (or_introl (conj eq_refl eq_refl)) E1 H)| |discriminate].
    destruct (match_sides K gc sc [] a b (right l) (left l)) as [[m0|]|] eqn:E2; [exact (Elim _ _ m0 (or_intror (conj eq_refl eq_refl)) E2 H)|exact (Keep H)|discriminate].
Qed.

Lemma simplify_waiting_sound inhabited gc a b pos ids assumption c i w T : mono_context M gc -> ht gc [] a T -> ht gc [] b T -> keys_fit gc ids -> mt c ->
  simplify_waiting K inhabited gc a b pos ids assumption c i = Some w ->
  match w with
  | Replaced c' => mt c' /\ (known_pair gc a b pos -> valid M c -> valid M c') /\ (valid M c' -> valid M c)
  | Implied => known_pair gc a b pos -> valid M c
  | _ => True
  end.
Proof.
  intros HG Ha Hb Kf Hc H. pose proof Hc as Hc0. apply mt_in in Hc. destruct Hc as [Gc Lc]. unfold simplify_waiting in H.
  destruct (nth_error (literals c) i) as [l|] eqn:El; [|discriminate]. apply nth_error_In in El. destruct (Lc l El) as (U & HU & L1 & L2).
  destruct (match_sides K gc (context c) [] a b (left l) (right l)) as [[m|]|] eqn:E1; [|injection H as <-; exact I|discriminate].
  destruct (match_truth gc _ a b pos _ _ m T U HG Ha Hb L1 L2 E1) as [Tm Tr].
  destruct (Bool.eqb pos (positive l)) eqn:Es.
  - destruct assumption; injection H as <-; [exact I|]. intros Kn rho Vr. exists l. split; auto. apply Bool.eqb_prop in Es. subst pos.
    specialize (Tr Kn rho Vr). destruct l; exact Tr.
  - unfold make_simplified in H. destruct (remaining K gc (context c) a b pos ids (literals c)) as [res|] eqn:Er; [|discriminate].
    pose proof (remaining_sound gc (context c) a b pos ids T HG Ha Hb Kf _ _ Lc Er) as S. destruct res as [ls'|].
    + destruct S as [S1 S2]. destruct (normalize_with_trace ls' (context c)) as [[c' ids']|] eqn:En; [|discriminate]. simpl in H.
      assert (Hm : mt (Clause ls' (context c))) by (apply mt_in; split; [exact Gc|]; simpl; auto).
      destruct (trace_keeps M K CT R _ _ _ _ En Hm) as [K1 K2].
      assert (P : w = Replaced c' -> match w with Replaced c' => mt c' /\ (known_pair gc a b pos -> valid M c -> valid M c') /\ (valid M c' -> valid M c) | _ => True end).
      { intros ->. split; auto. split.
        - intros Kn Vc. apply K2. intros rho Vr. apply S2; auto.
        - intros Vc' rho Vr. destruct (proj2 K2 Vc' rho Vr) as (x & Hx & Hh). exists x. split; auto. }
      destruct (literals c'); [destruct (_ && _)|]; injection H as H; destruct w; try discriminate; try exact I; apply P; symmetry; auto.
    + injection H as <-. exact S.
Qed.

Lemma reversed_known c l r a c' ids : mono_context M c -> ml c l -> normalized_reversed c l = Some (r, a, c', ids) ->
  mono_context M c' /\ length c' = length ids /\ (exists T, ht c' [] r T /\ ht c' [] a T) /\
  (valid M (Clause [l] c) -> known_pair c' r a (positive l)).
Proof.
  intros HG (T & HT & L1 & L2) H. apply reversed_spec in H. destruct H as (Nd & Rr & Ra & Rm).
  split; [eapply remap_mono; eauto|]. split; [apply (proj1 (remap_get _ _ _ Rm))|].
  split. { exists T. split; [apply (ht_renumber M K _ _ _ Rm _ _ _ _ Rr L2)|apply (ht_renumber M K _ _ _ Rm _ _ _ _ Ra L1)]. }
  assert (Hm : mt (Clause [Lit (positive l) (right l) (left l)] c)).
  { apply mt_in. split; [exact HG|]. intros x [<-|[]]. exists T. auto. }
  destruct (mt_suitable M K CT R _ Hm) as [S1 S2 S3]. set (cl := Clause [Lit (positive l) (right l) (left l)] c) in *.
  assert (F : faithful cl (Clause [lit_new (positive l) r a] c') ids).
  { constructor; cbn [literals context].
    - exact Nd.
    - apply (proj1 (remap_get _ _ _ Rm)).
    - apply (remap_typed _ _ _ Rm).
    - intros M' rho rho' Hf. apply valid_remap; auto.
    - intros M' rho rho' Hf Hw. destruct (renumbered_list_sound M' ids rho rho' (literals cl) [lit_new (positive l) r a] Hf) as [W Hh].
      { constructor; [|constructor]. exists r, a. simpl. auto. }
      split; auto. apply W, Hw. }
  assert (W : clause_wt M cl) by (intros rho Hr x Hx; apply (pwt_wt _ _ S1); auto).
  destruct (faithful_preserves M _ _ ids F W (all_completable M c ids S2 (faithful_closed _ _ _ F) S3)) as [V _].
  intros Vl rho Vr. destruct V with rho as (x & [E|[]] & Hh); auto.
  - intros r0 V0. destruct (Vl r0 V0) as (x & [<-|[]] & Hh). eexists. split; [left; reflexivity|]. unfold lit_holds in *. cbn [positive left right]. destruct (positive l); congruence.
  - apply (proj1 (lit_new_holds M rho (positive l) r a)). rewrite E. exact Hh.
Qed.

Lemma simplify_passive_sound inhabited act reverse assumption c i w : mt act -> mt c ->
  simplify_passive K inhabited act reverse assumption c i = Some w ->
  match w with
  | Replaced c' => mt c' /\ (valid M act -> valid M c -> valid M c') /\ (valid M c' -> valid M c)
  | Implied => valid M act -> valid M c
  | _ => True
  end.
Proof.
  intros Ha Hc H. apply mt_in in Ha. destruct Ha as [Ga La]. unfold simplify_passive in H. destruct act as [[|l [|]] ca]; try discriminate. cbn [literals context] in *.
  destruct (La l (or_introl eq_refl)) as (T & HT & L1 & L2).
  destruct reverse; cbn [negb] in H.
  - destruct (normalized_reversed ca l) as [[[[r a] gc] ids]|] eqn:E; [|discriminate].
    destruct (reversed_known ca l r a gc ids Ga (La l (or_introl eq_refl)) E) as (G1 & G2 & (T' & G3 & G4) & G5).
    pose proof (simplify_waiting_sound inhabited gc r a (positive l) (Some ids) assumption c i w T' G1 G3 G4 G2 Hc H) as S.
    destruct w; auto. destruct S as (S1 & S2 & S3). auto.
  - pose proof (simplify_waiting_sound inhabited ca (left l) (right l) (positive l) None assumption c i w T Ga L1 L2 I Hc H) as S.
    assert (G : valid M (Clause [l] ca) -> known_pair ca (left l) (right l) (positive l)).
    { intros V rho Vr. destruct (V rho Vr) as (x & [<-|[]] & Hh). destruct l; exact Hh. }
    destruct w; auto. destruct S as (S1 & S2 & S3). auto.
Qed.

(** ** The index of known literals *)
(** A map with typed values turns a typed term into a typed term only when the types are those of the variables. *)
Lemma map_typed c0 q ext m : mono_context M c0 -> forall g bs T T', hq M K c0 bs g T -> hq M K q bs (apply_to_term m g) T' ->
  (forall v U, In v (vars g) -> get_var_type c0 v = Some U -> exists t, vget m v = Some t /\ lc t /\ get_type K (q ++ ext) t = Some U) ->
  (forall v, In v (vars g) -> exists t U, vget m v = Some t /\ get_var_type c0 v = Some U /\ ht q [] t U) /\ T = T'.
Proof.
  intros HG. induction g as [[i|i|x]|f IHf a IHa|k A IHA b IHb]; intros bs T T' Hg Hi Hm; cbn [apply_to_term] in Hi.
  - destruct Hg as [Hg|[[E _]|[E _]]]; try discriminate. assert (Gi : get_var_type c0 i = Some T) by (inversion Hg; auto).
    assert (Iv : In i (vars (TAtom (FreeVar i)))) by (unfold vars; simpl; auto).
    destruct (Hm i T Iv Gi) as (t & Et & Lt & Ty). rewrite Et in Hi.
    pose proof (hq_nobs M K _ _ _ _ Hi Lt) as Hi0.
    assert (E : get_type K (q ++ ext) t = Some T').
    { apply (hq_type M K CT). eapply hq_weaken; eauto. intros j U Hj. unfold get_var_type in *. destruct (nth_error q j) eqn:En; [|discriminate]. rewrite nth_error_app1, En; auto. apply nth_error_Some. congruence. }
    assert (T = T') by congruence. subst T'. split; auto. intros v Hv. unfold vars in Hv. simpl in Hv. destruct Hv as [<-|[]].
    exists t, T. split; auto. split; auto. apply (hq_ground M K) in Hi0; auto. eapply et_ground. eapply mc_get; eauto.
  - split; [unfold vars; simpl; tauto|]. destruct Hg as [Hg|[[E _]|[E _]]], Hi as [Hi|[[E' _]|[E' _]]]; try discriminate. inversion Hg; inversion Hi; subst; congruence.
  - split; [unfold vars; simpl; tauto|].
    destruct Hg as [Tg|[[E ->]|[E ->]]], Hi as [Ts|[[E' ->]|[E' ->]]]; try congruence.
    + inversion Tg; inversion Ts; congruence.
    + injection E' as ->. inversion Tg; discriminate.
    + injection E' as ->. inversion Tg; discriminate.
    + injection E as ->. inversion Ts; discriminate.
    + injection E as ->. inversion Ts; discriminate.
  - apply (hq_app M K) in Hg. apply (hq_app M K) in Hi. rewrite vars_app in Hm |- *.
    destruct Hg as [(A & F1 & EA & HA)|(k & B & F1 & Hk & Ga & Ho)], Hi as [(A' & F2 & EA' & HA')|(k' & B' & F2 & Hk' & Ga' & Ho')];
      (destruct (IHf bs _ _ F1 F2) as [V1 Q]; [intros; apply Hm; auto; apply in_or_app; auto|]; injection Q as -> ->).
    + destruct (IHa bs A' A' (or_introl HA) (or_introl HA')) as [V2 _]; [intros; apply Hm; auto; apply in_or_app; auto|].
      split; auto. intros v Hv. apply in_app_or in Hv. destruct Hv; auto.
    + apply et_not_kind in EA. congruence.
    + apply et_not_kind in EA'. congruence.
    + rewrite (apply_closed m a) in Ho' by (apply ground_vars; auto). split; [|congruence].
      intros v Hv. apply in_app_or in Hv. destruct Hv as [Hv|Hv]; auto. rewrite (ground_vars a Ga) in Hv. destruct Hv.
  - apply hq_bind in Hg. apply hq_bind in Hi. destruct Hg as (B1 & EA1 & Hb1 & -> & N1), Hi as (B2 & EA2 & Hb2 & -> & N2). rewrite vars_bind in Hm |- *.
    rewrite (apply_closed m A) in * by (eapply et_vars; eauto).
    destruct (IHb (A :: bs) B1 B2 (or_introl Hb1) (or_introl Hb2)) as [V2 ->]; [intros; apply Hm; auto; apply in_or_app; auto|].
    split; auto. intros v Hv. apply in_app_or in Hv. destruct Hv as [Hv|Hv]; auto. rewrite (et_vars M A) in Hv by auto. destruct Hv.
Qed.

Definition kept_for (vs : list nat) (m : vmap) : vmap := map (fun i => if existsb (Nat.eqb i) vs then vget m i else None) (List.seq 0 (length m)).
Lemma kept_for_get vs m i : vget (kept_for vs m) i = if existsb (Nat.eqb i) vs then vget m i else None.
Proof.
  unfold kept_for, vget. destruct (Nat.lt_ge_cases i (length m)) as [L|L].
  - assert (N : nth_error (List.seq 0 (length m)) i = Some i) by (rewrite (nth_error_nth' _ 0) by (rewrite seq_length; auto); rewrite seq_nth by auto; reflexivity).
    rewrite (map_nth_error _ i _ N). destruct (existsb (Nat.eqb i) vs); auto. destruct (nth_error m i) as [[|]|]; auto.
  - assert (N : nth_error m i = None) by (apply nth_error_None; auto). rewrite N.
    replace (nth_error (map _ (List.seq 0 (length m))) i) with (@None (option term)); [destruct (existsb _ _); auto|].
    symmetry. apply nth_error_None. rewrite map_length, seq_length. auto.
Qed.
Context (be : bool) (mi : lctx -> term -> lctx -> term -> bool) (mi_closed : forall pc T qc T', vars T = [] -> mi pc T qc T' = true -> T' = T).
Definition fitting (l : literal) : Prop := fits (left l) /\ fits (right l).
(** the clauses of the literals of the index *)
Definition unit_clauses (ops : list insertion) : list clause := map (fun o => Clause [fst (fst o)] (snd o)) ops.

Lemma value_sound ops index l q v id : Forall op_fits ops -> insert_all be pdt_new ops = Some index -> (forall c, In c (unit_clauses ops) -> mt c) ->
  ml q l -> fitting l -> value_of_literal K be mi index l q = Hit _ (v, id) ->
  (forall c, In c (unit_clauses ops) -> valid M c) -> forall rho, valid_env M q rho -> (if v then lit_holds M rho l else ~ lit_holds M rho l).
Proof.
  intros Fo Ins Ho (T & HT & L1 & L2) [F1 F2] H Hv rho Vr. unfold value_of_literal in H.
  destruct (term_eqb (left l) (right l)) eqn:Eq.
  - apply term_eqb_eq in Eq. injection H as <- _. unfold lit_holds. rewrite Eq. destruct (positive l); auto.
  - destruct (find_generalization_with_map be K mi index l q) as [[[[same i] flipped] m]| |] eqn:E; try discriminate. injection H as <- _.
    destruct (found_literals_are_generalizations be K mi mi_closed ops index l q same i flipped m Fo Ins F1 F2 E) as (l0 & c0 & ext & Io & -> & Ap & Ty).
    assert (Ic : In (Clause [l0] c0) (unit_clauses ops)) by (apply in_map_iff; exists (l0, i, c0); auto).
    pose proof (Ho _ Ic) as Hm. apply mt_in in Hm. destruct Hm as [G0 Hl0]. destruct (Hl0 l0 (or_introl eq_refl)) as (U & HU & K1 & K2). cbn [context] in *.
    assert (Ty' : forall v U, In v (vars (left l0) ++ vars (right l0)) -> get_var_type c0 v = Some U -> exists t, vget m v = Some t /\ lc t /\ get_type K (q ++ ext) t = Some U).
    { intros v W Iv Gv. apply Ty; auto. pose proof (mc_get M _ _ _ G0 Gv) as Et. split; [apply (et_vars M); auto|]. intros ? ? ->. apply (et_ground M) in Et. discriminate. }
    assert (Sd : exists x y, ht q [] x T /\ ht q [] y T /\ apply_to_term m (left l0) = x /\ apply_to_term m (right l0) = y /\ ((x = left l /\ y = right l) \/ (x = right l /\ y = left l))).
    { destruct flipped; destruct Ap as [A1 A2]; eexists; eexists; (split; [|split; [|split; [exact A1|split; [exact A2|]]]]) || (split; [|split; [|split; [exact A2|split; [exact A1|]]]]); auto. }
    destruct Sd as (x & y & Hx & Hy & Ax & Ay & Sd).
    destruct (map_typed c0 q ext m G0 (left l0) [] U T (or_introl K1)) as [V1 _]; [rewrite Ax; left; auto|intros; apply Ty'; auto; apply in_or_app; auto|].
    destruct (map_typed c0 q ext m G0 (right l0) [] U T (or_introl K2)) as [V2 _]; [rewrite Ay; left; auto|intros; apply Ty'; auto; apply in_or_app; auto|].
    set (vs := vars (left l0) ++ vars (right l0)) in *. set (m2 := kept_for vs m).
    assert (Ge : forall j t, vget m2 j = Some t -> In j vs /\ vget m j = Some t).
    { intros j t. unfold m2. rewrite kept_for_get. destruct (existsb (Nat.eqb j) vs) eqn:Ex; [|discriminate]. apply existsb_exists in Ex. destruct Ex as (j' & Ij & Ej). apply Nat.eqb_eq in Ej. subst j'. auto. }
    assert (Gi : forall j, In j vs -> vget m2 j = vget m j).
    { intros j Ij. unfold m2. rewrite kept_for_get. replace (existsb (Nat.eqb j) vs) with true; auto. symmetry. apply existsb_exists. exists j. split; auto. apply Nat.eqb_refl. }
    assert (Al : forall j, In j vs -> exists t W, vget m j = Some t /\ get_var_type c0 j = Some W /\ ht q [] t W) by (intros j Ij; apply in_app_or in Ij; destruct Ij; auto).
    assert (Tm : tm c0 q m2).
    { intros j t E2. apply Ge in E2. destruct E2 as [Ij Ej]. destruct (Al j Ij) as (t' & W & A1 & A2 & A3). exists W. split; auto. congruence. }
    assert (Cm : closed_map m2).
    { intros j t E2. apply Ge in E2. destruct E2 as [Ij Ej]. destruct (Al j Ij) as (t' & W & A1 & A2 & A3). destruct (Ty' j W Ij A2) as (t2 & B1 & B2 & _). congruence. }
    destruct (match_env c0 q m2 rho G0 Tm Cm Vr) as (r1 & Vr1 & A).
    assert (Cov : forall g, incl (vars g) vs -> covers m2 g /\ apply_to_term m2 g = apply_to_term m g).
    { intros g Hg. split; [intros j Ij; rewrite Gi by auto; destruct (Al j (Hg j Ij)) as (t & W & -> & _); discriminate|]. apply apply_agree. intros j Ij. apply Gi; auto. }
    destruct (Cov (left l0)) as [C1 E1]; [intros j; unfold vs; rewrite in_app_iff; auto|]. destruct (Cov (right l0)) as [C2 E2]; [intros j; unfold vs; rewrite in_app_iff; auto|].
    destruct (Hv _ Ic r1 Vr1) as (z & [<-|[]] & Hz). unfold lit_holds in Hz. rewrite (A _ C1), (A _ C2), E1, E2, Ax, Ay in Hz.
    destruct (Bool.eqb (positive l0) (positive l)) eqn:Es.
    + apply Bool.eqb_prop in Es. rewrite Es in Hz. apply (same_sign rho (positive l) x y l); [destruct (positive l); auto|exact Hz|exact Sd].
    + apply (opposite rho (positive l0) x y l); [apply Bool.eqb_false_iff; apply Bool.eqb_false_iff in Es; congruence|exact Hz|exact Sd].
Qed.

Lemma unknown_sound ops index kd q : Forall op_fits ops -> insert_all be pdt_new ops = Some index -> (forall c, In c (unit_clauses ops) -> mt c) ->
  forall ls res, (forall l, In l ls -> ml q l /\ fitting l) -> unknown_literals K be mi index kd q ls = Some res ->
  match res with
  | Some ls' => incl ls' ls /\ length ls' <= length ls /\ (length ls' = length ls -> ls' = ls) /\
      ((forall c, In c (unit_clauses ops) -> valid M c) -> forall rho, valid_env M q rho -> cholds M rho ls -> cholds M rho ls')
  | None => (forall c, In c (unit_clauses ops) -> valid M c) -> forall rho, valid_env M q rho -> cholds M rho ls
  end.
Proof.
  intros Fo Ins Ho. induction ls as [|l r IH]; intros res Hl H; cbn [unknown_literals] in H.
  - injection H as <-. split; [intros x []|]. auto.
  - assert (Hr : forall x, In x r -> ml q x /\ fitting x) by (intros; apply Hl; simpl; auto). destruct (Hl l (or_introl eq_refl)) as [Hml Hf].
    assert (Keep : option_map (option_map (cons l)) (unknown_literals K be mi index kd q r) = Some res ->
      match res with
      | Some ls' => incl ls' (l :: r) /\ length ls' <= length (l :: r) /\ (length ls' = length (l :: r) -> ls' = l :: r) /\
          ((forall c, In c (unit_clauses ops) -> valid M c) -> forall rho, valid_env M q rho -> cholds M rho (l :: r) -> cholds M rho ls')
      | None => (forall c, In c (unit_clauses ops) -> valid M c) -> forall rho, valid_env M q rho -> cholds M rho (l :: r)
      end).
    { intros E. destruct (unknown_literals K be mi index kd q r) as [[ls'|]|] eqn:Er; simpl in E; try discriminate; injection E as <-; specialize (IH _ Hr eq_refl); cbn beta iota in IH.
      - destruct IH as (I1 & I2 & I3 & I4). split; [intros x [<-|Hx]; simpl; auto|]. split; [simpl; lia|]. split; [simpl; intros E; f_equal; apply I3; lia|].
        intros Kn rho Vr (x & [<-|Hx] & Hh); [exists l; simpl; auto|]. destruct (I4 Kn rho Vr (ex_intro _ x (conj Hx Hh))) as (y & Hy & Gh). exists y. simpl. auto.
      - intros Kn rho Vr. destruct (IH Kn rho Vr) as (x & Hx & Hh). exists x. simpl. auto. }
    destruct (value_of_literal K be mi index l q) as [[[] id]| |] eqn:Ev; [| |exact (Keep H)|discriminate].
    + destruct (match id with Some i => kd i | None => false end); [exact (Keep H)|]. injection H as <-.
      intros Kn rho Vr. exists l. split; [simpl; auto|]. exact (value_sound _ _ _ _ _ _ Fo Ins Ho Hml Hf Ev Kn rho Vr).
    + specialize (IH res Hr H). destruct res as [ls'|].
      * destruct IH as (I1 & I2 & I3 & I4). split; [intros x Hx; right; auto|]. split; [simpl; lia|]. split; [simpl; intros; lia|].
        intros Kn rho Vr (x & [<-|Hx] & Hh); [exfalso; exact (value_sound _ _ _ _ _ _ Fo Ins Ho Hml Hf Ev Kn rho Vr Hh)|]. apply I4; auto. exists x. auto.
      * intros Kn rho Vr. destruct (IH Kn rho Vr) as (x & Hx & Hh). exists x. simpl. auto.
Qed.

Lemma tautology_valid c : mt c -> negatives_first (literals c) -> is_tautology c = true -> valid M c.
Proof. intros Hc N T rho Vr. apply tautology_sound; auto. Qed.
Lemma trace_sorted ls c cl ids : normalize_with_trace ls c = Some (cl, ids) -> negatives_first (literals cl).
Proof.
  unfold normalize_with_trace, normalize_with_var_ids_prefilled. destruct (renumber_literals _ _ _) as [[x i]|]; [|discriminate]. destruct (remap c i); [|discriminate].
  intros E. injection E as <- _. simpl. apply dedup_negatives_first, sort_negatives_first.
Qed.
Lemma known_long_in long c : known_long long c = true -> In c long.
Proof. unfold known_long. intros H. apply andb_prop in H. destruct H as [_ H]. apply existsb_exists in H. destruct H as (x & Hx & E). apply clause_eqb_true in E. subst. auto. Qed.

Lemma simplify_active_sound inhabited ops index long kd c res : Forall op_fits ops -> insert_all be pdt_new ops = Some index -> (forall c, In c (unit_clauses ops) -> mt c) ->
  mt c -> negatives_first (literals c) -> (forall l, In l (literals c) -> fitting l) ->
  simplify_active K inhabited be mi index long kd c = Some res ->
  match res with
  | Result c' => mt c' /\ (valid M c' -> valid M c) /\ ((forall x, In x (unit_clauses ops) -> valid M x) -> valid M c -> valid M c')
  | Known => (forall x, In x (unit_clauses ops) -> valid M x) -> (forall x, In x long -> valid M x) -> valid M c
  | GivenUp => True
  end.
Proof.
  intros Fo Ins Ho Hc Nc Fc H. pose proof Hc as Hc0. apply mt_in in Hc0. destruct Hc0 as [Gc Lc]. unfold simplify_active in H.
  destruct (is_tautology c || known_long long c) eqn:E1.
  { injection H as <-. intros _ Hl. apply orb_prop in E1. destruct E1 as [E1|E1]; [apply tautology_valid; auto|]. apply Hl, known_long_in. auto. }
  destruct (unknown_literals _ _ _ _ _ _ _) as [r|] eqn:E2 in H; [|discriminate].
  pose proof (unknown_sound ops index _ (context c) Fo Ins Ho (literals c) r (fun l Hl => conj (Lc l Hl) (Fc l Hl)) E2) as S. destruct r as [ls|].
  - destruct S as (S1 & S2 & S3 & S4). destruct (negb (elimination_ok inhabited (context c) ls)); [injection H as <-; exact I|].
    destruct (Nat.eqb (length ls) (length (literals c))); [injection H as <-; auto|].
    destruct (normalize_with_trace ls (context c)) as [[c' ids]|] eqn:En; [|discriminate].
    assert (Hm : mt (Clause ls (context c))) by (apply mt_in; split; [exact Gc|]; simpl; auto).
    destruct (trace_keeps M K CT R _ _ _ _ En Hm) as [K1 K2].
    assert (Back : valid M c' -> valid M c). { intros V rho Vr. destruct (proj2 K2 V rho Vr) as (x & Hx & Hh). exists x. split; auto. }
    destruct (is_tautology c' || known_long long c') eqn:E3; injection H as <-.
    + intros _ Hl. apply Back. apply orb_prop in E3. destruct E3 as [E3|E3]; [apply tautology_valid; auto; eapply trace_sorted; eauto|]. apply Hl, known_long_in. auto.
    + split; auto. split; auto. intros Kn Vc. apply K2. intros rho Vr. apply S4; auto.
  - injection H as <-. intros Kn _ rho Vr. apply S; auto.
Qed.
End SS.
