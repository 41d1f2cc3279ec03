(** Opening the leading quantifiers, and the clause built from the literals. *)
From Coq Require Import List Arith NArith Bool Lia.
Import ListNotations.
From Verif Require Import Term LocalContext Semantics TermProofs SemFacts Typing TypingProofs Monomorphic PolyTyped Literal Clause ClauseSem ClauseProofs RenumberProofs ClauseWf P_Clause TermNorm Clausifier ClausifierProofs ClausifierConv ClausifierExt ClausifierLits.

Section Main.
Context (K : kctx) (ME : symbol -> option (list symbol)).
Notation typed := (PolyTyped.typed K).
Notation ptype g := (ptm K g 0).

(** [u] in [g'] is the matrix of [t] in [g] *)
Definition matrix_of (g g' : tenv) (t u : term) : Prop :=
  typed g' [] u tbool /\
  (forall M rho, wt M rho t -> isb M (ev M rho t) -> new_ok M g g' rho ->
    wt M rho u /\ isb M (ev M rho u) /\ (ev M rho t = tv M true -> ev M rho u = tv M true)) /\
  (forall M rho, wt M rho t -> isb M (ev M rho t) -> ev M rho t = tv M false ->
    ~ ~ exists rho', agree M g rho rho' /\ new_ok M g g' rho' /\ ev M rho' u = tv M false).

Lemma gupd_steps g c A : gctx g c -> ptype g A = true -> steps K g (gupd g (length c) A) c (push_type c A).
Proof.
  intros G P. split; [apply more_push; auto|]. split; [apply gctx_push; auto|]. split; [apply gsub_upd; eapply gctx_fresh; eauto|].
  intros i T E. unfold gupd. destruct (Nat.eqb_spec i (length c)) as [->|]; [intros [= <-]; auto|congruence].
Qed.

Lemma open_foralls_ok n : forall g c t u c', open_foralls_fuel n c t = (u, c') -> gctx g c -> typed g [] t tbool ->
  exists g', steps K g g' c c' /\ matrix_of g g' t u.
Proof.
  assert (base : forall g c t, gctx g c -> typed g [] t tbool -> exists g', steps K g g' c c /\ matrix_of g g' t t).
  { intros g c t G H. exists g. split; [apply steps_refl; auto; apply more_refl|]. split; auto. split; [auto|].
    intros M rho W B E NE. apply NE. exists rho. split; [intros v U _; auto|]. split; [intros i T; congruence|auto]. }
  induction n as [|n IH]; intros g c t u c' E G H; simpl in E; [injection E as <- <-; auto|].
  destruct t as [a|f a|k A b]; try (injection E as <- <-; apply base; auto; fail).
  destruct k; try (injection E as <- <-; apply base; auto; fail). rewrite open_body_eq in E.
  assert (HH : ptype g A = true /\ typed g [A] b tbool) by (inversion H; auto). destruct HH as [PA Hb].
  assert (N : g (length c) = None) by (eapply gctx_fresh; eauto).
  pose proof (gupd_steps g c A G PA) as ST. set (g1 := gupd g (length c) A) in *. set (v := length c) in *.
  assert (NV : ~ In v (vars b)). { intros Hv. destruct (typed_vars K _ _ _ _ _ Hb Hv) as [U HU]. congruence. }
  pose proof (typed_push K g v A b tbool N PA Hb) as Tb. fold g1 in Tb.
  destruct (IH _ _ _ _ _ E (proj1 (proj2 ST)) Tb) as (g' & ST' & T' & F' & R').
  exists g'. split; [eapply steps_trans; eauto|]. pose proof ST as (_ & _ & S1 & _). pose proof ST' as (_ & _ & S2 & _).
  assert (BODY : forall M rho x, wt M rho (TBind KAll A b) -> mem M x (ev M rho A) -> rho v = x ->
    wt M rho (open_at 0 (TVar v) b) /\ ev M rho (open_at 0 (TVar v) b) = eval M rho (scons x (nobs M)) b /\ isb M (ev M rho (open_at 0 (TVar v) b))).
  { intros M rho x (W1 & W2 & W3) Hx Ex. destruct (W3 x Hx) as [W4 W5].
    assert (EE : ev M rho (open_at 0 (TVar v) b) = eval M rho (scons x (nobs M)) b) by (unfold ev; rewrite eval_open; simpl; rewrite Ex; auto).
    split; [apply swt_open; [exact I|]; simpl; rewrite Ex; exact W4|]. split; auto. unfold ev in EE. unfold isb, ev. rewrite EE. exact W5. }
  split; [exact T'|]. split.
  - intros M rho W B NO.
    assert (Hx : mem M (rho v) (ev M rho A)). { apply (NO v A); auto. apply S2. unfold g1, gupd. rewrite Nat.eqb_refl. auto. }
    destruct (BODY M rho (rho v) W Hx eq_refl) as (Wo & Eo & Bo).
    destruct (F' M rho Wo Bo (new_ok_right _ _ _ _ _ S1 NO)) as (U1 & U2 & U3). split; auto. split; auto.
    intros Et. apply U3. rewrite Eo. destruct W as (W1 & W2 & W3).
    assert (AV := proj2 (all_val M (ev M rho A) (fun x => eval M rho (scons x (nobs M)) b) (fun x Hx => proj2 (W3 x Hx)))).
    apply (proj1 AV); auto.
  - intros M rho W B Ef NE. destruct W as (W1 & W2 & W3).
    assert (AV := proj2 (all_val M (ev M rho A) (fun x => eval M rho (scons x (nobs M)) b) (fun x Hx => proj2 (W3 x Hx)))).
    assert (X : ev M rho (TBind KAll A b) = dsym M STrue); [|rewrite X in Ef; exact (bool_diff M Ef)].
    apply AV. intros x Hx. destruct (isb_cases M _ (proj2 (W3 x Hx))) as [Y|Y]; auto. exfalso.
    set (rho1 := upd M rho v x).
    assert (AG1 : agree M g rho rho1). { intros i U HU. unfold rho1, upd. destruct (Nat.eqb_spec i v) as [->|]; auto. congruence. }
    assert (TT : typed g [] (TBind KAll A b) tbool) by auto.
    assert (Ww : wt M rho1 (TBind KAll A b)) by (apply (typed_agree K M g _ _ _ _ AG1 TT); split; auto).
    assert (EA : ev M rho A = ev M rho1 A) by (apply (ptype_agree K M g); auto).
    assert (Hx1 : mem M x (ev M rho1 A)) by (rewrite <- EA; auto).
    assert (Er : rho1 v = x) by (unfold rho1, upd; rewrite Nat.eqb_refl; auto).
    destruct (BODY M rho1 x Ww Hx1 Er) as (Wo & Eo & Bo).
    assert (Eb : eval M rho1 (scons x (nobs M)) b = eval M rho (scons x (nobs M)) b).
    { apply eval_ext; auto. intros i Hi. destruct (typed_vars K _ _ _ _ _ Hb Hi) as [U HU]. symmetry. apply (AG1 i U HU). }
    apply (R' M rho1 Wo Bo); [rewrite Eo, Eb; exact Y|]. intros (rho2 & AG2 & N2 & E2). apply NE. exists rho2. split; [|split; auto].
    + intros i U HU. rewrite (AG1 i U HU). apply (AG2 i U). auto.
    + intros i T Hi HT. destruct (g1 i) as [U|] eqn:Ei.
      * pose proof (S2 _ _ Ei) as Q. rewrite HT in Q. injection Q as <-. unfold g1, gupd in Ei. destruct (Nat.eqb_spec i v) as [->|]; [|congruence].
        injection Ei as <-. assert (Gv : g1 v = Some A) by (unfold g1, gupd; rewrite Nat.eqb_refl; auto).
        rewrite <- (AG2 v A Gv), Er. rewrite <- (ptype_agree K M g A rho1 rho2); auto. intros j U HU. apply (AG2 j U). auto.
      * apply N2; auto.
Qed.

(** ** the environment of the type variables *)
Definition kinds_env (kinds : list term) : tenv := fun i => nth_error kinds i.
Lemma kinds_gctx kinds : gctx (kinds_env kinds) (map Some kinds).
Proof. intros i T H. unfold get_var_type. rewrite nth_error_map. unfold kinds_env in H. rewrite H. reflexivity. Qed.

(** every type over the type variables has an element, as has every kind *)
Definition all_inhabited (M : Model) (kinds : list term) : Prop :=
  forall rho, (forall k, In k kinds -> exists d, mem M d (ev M rho k)) /\
  (valid_env M (map Some kinds) rho -> forall T, ptype (kinds_env kinds) T = true -> exists d, mem M d (ev M rho T)).

Section Kinds.
Context (kinds : list term) (KK : Forall (fun k => is_type_param_kind k = true) kinds).
Notation g0 := (kinds_env kinds).
Lemma kind_closed k : is_type_param_kind k = true -> vars k = [].
Proof. destruct k as [[i|i|[]]|?|?]; try discriminate; reflexivity. Qed.

Lemma more_get c' i T : more K g0 (map Some kinds) c' -> get_var_type c' i = Some T ->
  (i < length kinds /\ nth_error kinds i = Some T) \/ (length kinds <= i /\ ptype g0 T = true).
Proof.
  intros (r & -> & F) H. unfold get_var_type in H. destruct (Nat.lt_ge_cases i (length kinds)) as [L|L].
  - left. split; auto. rewrite nth_error_app1 in H by (rewrite map_length; auto). rewrite nth_error_map in H. destruct (nth_error kinds i); [injection H as ->; auto|discriminate].
  - right. split; auto. rewrite nth_error_app2, map_length, nth_error_map in H by (rewrite map_length; auto).
    destruct (nth_error r _) as [U|] eqn:E; [|discriminate]. injection H as ->. rewrite Forall_forall in F. apply F. eapply nth_error_In; eauto.
Qed.
Lemma more_deps c' i T v : more K g0 (map Some kinds) c' -> get_var_type c' i = Some T -> In v (vars T) -> length kinds <= i /\ v < length kinds.
Proof.
  intros Mo H Hv. destruct (more_get _ _ _ Mo H) as [[L E]|[L P]].
  - exfalso. rewrite Forall_forall in KK. apply nth_error_In in E. rewrite kind_closed in Hv by auto. destruct Hv.
  - split; auto. destruct (ptype_vars _ _ P _ Hv) as (k & E & _). apply nth_error_Some. unfold kinds_env in E. congruence.
Qed.
Lemma more_ordered c' : more K g0 (map Some kinds) c' -> validate_variable_ordering c' = true.
Proof.
  intros Mo. unfold validate_variable_ordering.
  assert (W : forall l i, (forall p T', nth_error l p = Some (Some T') -> least_unused T' <= i + p) -> ordering_from i l = true).
  { induction l as [|[U|] l IH]; simpl; intros i H; auto.
    - apply andb_true_iff. split; [apply Nat.leb_le; specialize (H 0 U eq_refl); lia|]. apply IH. intros p T' E. specialize (H (S p) T' E). lia.
    - apply IH. intros p T' E. specialize (H (S p) T' E). lia. }
  apply W. intros p T E. unfold least_unused. apply RenumberProofs.list_max_le. intros v Hv.
  assert (G : get_var_type c' p = Some T) by (unfold get_var_type; rewrite E; auto). destruct (more_deps _ _ _ _ Mo G Hv). lia.
Qed.
Lemma more_inhabited M c' : more K g0 (map Some kinds) c' -> all_inhabited M kinds -> inhabited_in_order M c'.
Proof.
  intros Mo AI rho i T H ET. destruct (AI rho) as [A1 A2]. destruct (more_get _ _ _ Mo ET) as [[L E]|[L P]].
  - apply A1. eapply nth_error_In; eauto.
  - apply A2; auto. intros j U HU. apply H.
    + unfold get_var_type in HU. rewrite nth_error_map in HU. assert (j < length kinds); [|lia]. apply nth_error_Some. destruct (nth_error kinds j); simpl in *; congruence.
    + destruct Mo as (r & -> & _). unfold get_var_type in *. rewrite nth_error_app1; auto. apply nth_error_Some. destruct (nth_error (map Some kinds) j); congruence.
Qed.
Lemma more_prefix M c' rho : more K g0 (map Some kinds) c' -> valid_env M c' rho -> valid_env M (map Some kinds) rho.
Proof.
  intros (r & -> & _) V i T H. apply V. unfold get_var_type in *. rewrite nth_error_app1; auto. apply nth_error_Some. destruct (nth_error (map Some kinds) i); congruence.
Qed.
Lemma steps_new M g c' rho : steps K g0 g (map Some kinds) c' -> valid_env M c' rho -> new_ok M g0 g rho.
Proof. intros (_ & G & _) V i T _ H. apply V. auto. Qed.

(** an assignment for the live variables extends to the whole context *)
Lemma complete_live M g c' rho : steps K g0 g (map Some kinds) c' -> all_inhabited M kinds -> valid_env M (map Some kinds) rho -> new_ok M g0 g rho ->
  exists rho', agree M g rho rho' /\ valid_env M c' rho'.
Proof.
  intros (Mo & G & S & N) AI V0 NO.
  set (live := filter (fun i => match g i with Some _ => true | None => false end) (seq 0 (length c'))).
  assert (LV : forall i, In i live <-> exists U, g i = Some U).
  { intros i. unfold live. rewrite filter_In, in_seq. destruct (g i) as [U|] eqn:E.
    - split; [eauto|]. intros _. split; auto. apply G in E. split; [lia|]. simpl. unfold get_var_type in E. apply nth_error_Some. destruct (nth_error c' i); congruence.
    - split; [intros [_ X]; discriminate|]. intros [U X]. discriminate. }
  assert (K0 : forall j, j < length kinds -> exists k, g0 j = Some k).
  { intros j Hj. unfold kinds_env. destruct (nth_error kinds j) as [k|] eqn:E; [eauto|]. apply nth_error_None in E. lia. }
  destruct (inhabited_completable M c' live (more_ordered c' Mo) (more_inhabited M c' Mo AI)) with (rho := rho) as (rho' & R1 & R2).
  - intros v d Hv Hd. unfold deps in Hd. destruct (get_var_type c' v) as [T|] eqn:E; [|destruct Hd]. destruct (more_deps _ _ _ _ Mo E Hd) as [_ L].
    apply LV. destruct (K0 d L) as [k Ek]. exists k. auto.
  - intros i T Hi HT. apply LV in Hi. destruct Hi as [U HU]. pose proof (G _ _ HU) as X. rewrite HT in X. injection X as ->.
    destruct (g0 i) as [k|] eqn:Ek; [|apply NO; auto]. pose proof (S _ _ Ek) as Y. rewrite HU in Y. injection Y as ->.
    apply V0. apply kinds_gctx. auto.
  - exists rho'. split; auto. intros v U HU. symmetry. apply R1. apply LV. eauto.
Qed.

(** ** one clause *)
Lemma plain_lowering n t u c1 ls c' cls :
  open_foralls (map Some kinds) t = (u, c1) -> disjunctive K ME n c1 u true = Some (ls, c') -> one_clause ls c' (length kinds) = Some cls ->
  typed g0 [] t tbool -> forall M, all_inhabited M kinds ->
  (forall rho, valid_env M (map Some kinds) rho -> wt M rho t /\ isb M (ev M rho t)) ->
  ((forall rho, valid_env M (map Some kinds) rho -> ev M rho t = tv M true) <-> Forall (valid M) cls) /\ Forall (clause_wt M) cls.
Proof.
  intros EO ED EC HT M AI WT. destruct (open_foralls_ok _ _ _ _ _ _ EO (kinds_gctx kinds) HT) as (g1 & ST1 & Tu & F1 & R1).
  destruct (disjunctive_ok K ME _ _ _ _ _ _ _ ED (proj1 (proj2 ST1)) Tu) as (g2 & ST2 & L1 & L2 & L3).
  pose proof (steps_trans _ _ _ _ _ _ _ ST1 ST2) as ST. pose proof ST as (Mo & G2 & S02 & N02).
  pose proof ST1 as (Mo1 & G1 & S1 & _). pose proof ST2 as (_ & _ & S2 & _).
  assert (CW : clause_wt M (Clause ls c')).
  { intros rho V l Hl. simpl in *. pose proof (more_prefix _ _ _ Mo V) as V0. destruct (WT rho V0) as [W B].
    pose proof (steps_new _ _ _ _ ST V) as NO. destruct (F1 M rho W B (new_ok_left _ _ _ _ _ S2 NO)) as (Wu & Bu & _).
    destruct (L2 M rho Wu (new_ok_right _ _ _ _ _ S1 NO)) as [X _]. rewrite Forall_forall in X. auto. }
  assert (EQ : (forall rho, valid_env M (map Some kinds) rho -> ev M rho t = tv M true) <-> valid M (Clause ls c')).
  { split.
    - intros Ht rho V. simpl in *. pose proof (more_prefix _ _ _ Mo V) as V0. destruct (WT rho V0) as [W B].
      pose proof (steps_new _ _ _ _ ST V) as NO. destruct (F1 M rho W B (new_ok_left _ _ _ _ _ S2 NO)) as (Wu & Bu & Eu).
      destruct (L2 M rho Wu (new_ok_right _ _ _ _ _ S1 NO)) as [_ X]. auto.
    - intros HV rho V0. destruct (WT rho V0) as [W B]. destruct (isb_tv M _ B) as [E|E]; auto. exfalso.
      apply (R1 M rho W B E). intros (rho1 & AG1 & N1 & E1).
      assert (V1 : valid_env M (map Some kinds) rho1).
      { intros i T H. pose proof H as H'. unfold get_var_type in H'. rewrite nth_error_map in H'.
        assert (X : kinds_env kinds i = Some T) by (unfold kinds_env; destruct (nth_error kinds i); [injection H' as ->; auto|discriminate]).
        rewrite <- (AG1 i T X). replace (ev M rho1 T) with (ev M rho T); [apply V0; auto|].
        apply eval_agree with 0; auto.
        - intros v Hv. exfalso. rewrite Forall_forall in KK. apply nth_error_In in X. rewrite kind_closed in Hv by auto. destruct Hv.
        - rewrite Forall_forall in KK. apply nth_error_In in X. apply KK in X. destruct T as [[?|?|[]]|?|?]; try discriminate; reflexivity. }
      destruct (WT rho1 V1) as [W1 B1].
      destruct (F1 M rho1 W1 B1 N1) as (Wu & Bu & _).
      apply (L3 M rho1 Wu Bu E1). intros (rho2 & AG2 & N2 & C2).
      assert (AG02 : agree M (kinds_env kinds) rho1 rho2) by (intros v U HU; apply (AG2 v U); auto).
      assert (V2 : valid_env M (map Some kinds) rho2).
      { intros i T H. pose proof H as H'. unfold get_var_type in H'. rewrite nth_error_map in H'.
        assert (X : kinds_env kinds i = Some T) by (unfold kinds_env; destruct (nth_error kinds i); [injection H' as ->; auto|discriminate]).
        rewrite <- (AG02 i T X). replace (ev M rho2 T) with (ev M rho1 T); [apply V1; auto|].
        apply eval_agree with 0; auto.
        - intros v Hv. exfalso. rewrite Forall_forall in KK. apply nth_error_In in X. rewrite kind_closed in Hv by auto. destruct Hv.
        - rewrite Forall_forall in KK. apply nth_error_In in X. apply KK in X. destruct T as [[?|?|[]]|?|?]; try discriminate; reflexivity. }
      assert (N02' : new_ok M (kinds_env kinds) g2 rho2).
      { intros i T Hi HT'. destruct (g1 i) as [U|] eqn:Ei; [|apply N2; auto].
        pose proof (S2 _ _ Ei) as Q. rewrite HT' in Q. injection Q as <-. rewrite <- (AG2 i T Ei).
        assert (PT : ptype (kinds_env kinds) T = true) by (apply ST1 in Ei; tauto).
        rewrite <- (ptype_agree K M (kinds_env kinds) T rho1 rho2); auto. }
      destruct (complete_live M g2 c' rho2 ST AI V2 N02') as (rho3 & AG3 & V3).
      apply C2. destruct (HV rho3 V3) as (l & Hl & HH). exists l. split; auto. simpl in Hl. rewrite Forall_forall in L1. destruct (L1 l Hl) as (T & X1 & X2).
      unfold lit_holds in *. rewrite (proj2 (typed_agree K M g2 _ _ _ _ AG3 X1)), (proj2 (typed_agree K M g2 _ _ _ _ AG3 X2)). exact HH. }
  unfold one_clause, obind in EC. destruct (clause_new_with_pinned ls c' (length kinds)) as [cl|] eqn:EN; [|discriminate]. injection EC as <-.
  unfold clause_new_with_pinned in EN.
  destruct (normalization_keeps_models_partial (Clause ls c') cl) with (M := M) as [NV NW]; auto.
  - left. eauto.
  - apply more_ordered. auto.
  - simpl. apply more_inhabited; auto.
  - rewrite EQ, NV. destruct (is_tautology cl) eqn:ET.
    + split; auto. split; auto. intros _ rho _. eapply tautologies_hold; eauto.
    + split; auto. split; [auto|]. intros H. inversion H; auto.
Qed.
End Kinds.
End Main.
