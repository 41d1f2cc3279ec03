(** C07: equality resolution and equality factoring are sound. *)
From Coq Require Import List Arith NArith Bool Lia.
Import ListNotations.
From Verif Require Import Term LocalContext Semantics TermProofs SemFacts TermNormProofs FiniteModel Literal Clause ClauseSem ClauseProofs
  InferenceProofs Typing TypingProofs FiniteTyping VariableMap VariableMapProofs Unifier UnifierProofs P_Unifier.

(** The result's map gives every variable of the premise a well-typed value of the right type. *)
Record well_typed_result (M : Model) (cl : clause) (out : lctx) (m : vmap) : Prop := {
  wr_all : forall i T, get_var_type (context cl) i = Some T -> vget m i <> None;
  wr_type : forall rho, valid_env M out rho -> forall i T r, get_var_type (context cl) i = Some T -> vget m i = Some r ->
              mem M (ev M rho r) (ev M rho (apply_to_term m T));
  wr_wt : forall rho, valid_env M out rho -> forall i r, vget m i = Some r -> wt M rho r
}.
Definition kind_free (cl : clause) (m : vmap) : Prop :=
  (forall l, In l (literals cl) -> nokind (left l) = true /\ nokind (right l) = true) /\
  (forall i r, vget m i = Some r -> nokind r = true).

Lemma nokind_app f a : nokind (TApp f a) = nokind f && nokind a.
Proof. unfold nokind; simpl; apply forallb_app. Qed.
Lemma nokind_bind k f a : nokind (TBind k f a) = nokind f && nokind a.
Proof. unfold nokind; simpl; apply forallb_app. Qed.
Lemma nokind_apply m t : (forall i r, vget m i = Some r -> nokind r = true) -> nokind t = true -> nokind (apply_to_term m t) = true.
Proof.
  intros H. induction t as [[i|i|s]|f IHf a IHa|k A IHA b IHb]; cbn [apply_to_term]; intros N; auto.
  - destruct (vget m i) eqn:E; auto. eauto.
  - rewrite nokind_app in *. apply andb_true_iff in N. destruct N. rewrite IHf, IHa; auto.
  - rewrite nokind_bind in *. apply andb_true_iff in N. destruct N. rewrite IHA, IHb; auto.
Qed.

Lemma apply_literals_spec n : forall ls st ls' st', uwf st -> uapply_literals n st ls = Some (ls', st') ->
  ufresh st st' /\ ls' = map (fun l => lit_new (positive l) (sigma st' 1 (left l)) (sigma st' 1 (right l))) ls /\
  forall l, In l ls -> cov st' 1 (left l) /\ cov st' 1 (right l).
Proof.
  assert (KS : forall st1 st2 s x, s <> 0 -> ufresh st1 st2 -> cov st1 s x -> sigma st2 s x = sigma st1 s x /\ cov st2 s x).
  { intros st1 st2 s x N F C. split.
    - unfold sigma. apply apply_agree. intros j Hj.
      specialize (C N j Hj). destruct (vget (umap st1 s) j) as [r|] eqn:E; [|contradiction]. apply (uf_keep _ _ F s j r E).
    - intros _ j Hj. specialize (C N j Hj). destruct (vget (umap st1 s) j) as [r|] eqn:E; [|contradiction].
      rewrite (uf_keep _ _ F s j r E). discriminate. }
  induction ls as [|x r IH]; intros st ls' st' W H; cbn [uapply_literals] in H.
  - injection H as <- <-. split; [apply ufresh_refl|]. split; auto. intros l [].
  - unfold uapply_literal in H. destruct (uapply n st 1 (left x)) as [[a st1]|] eqn:Ea; [|discriminate].
    destruct (uapply_fresh _ _ _ _ _ _ W Ea) as (F1 & -> & C1). pose proof (ufresh_wf _ _ W F1) as W1.
    destruct (uapply n st1 1 (right x)) as [[b st2]|] eqn:Eb; [|discriminate].
    destruct (uapply_fresh _ _ _ _ _ _ W1 Eb) as (F2 & -> & C2). pose proof (ufresh_wf _ _ W1 F2) as W2.
    destruct (uapply_literals n st2 r) as [[r' st3]|] eqn:Er; [|discriminate]. injection H as <- <-.
    destruct (IH _ _ _ W2 Er) as (F3 & -> & C3).
    pose proof (ufresh_trans _ _ _ F2 F3) as F23.
    destruct (KS st1 st3 1 (left x)) as [S1 D1]; auto. destruct (KS st2 st3 1 (right x)) as [S2 D2]; auto.
    split; [apply (ufresh_trans _ _ _ F1 F23)|]. split.
    + cbn [map]. rewrite S1, S2. auto.
    + intros l [<-|Hl]; auto.
Qed.

Section Sound.
Context (M : Model).

Lemma result_env cl out m rho : closed_map m -> well_typed_result M cl out m -> valid_env M out rho ->
  valid_env M (context cl) (via M m rho).
Proof.
  intros L W V i T HT. rewrite <- (ev_apply M m T rho L). unfold via.
  destruct (vget m i) as [r|] eqn:E; [|destruct (wr_all _ _ _ _ W i T HT E)]. apply (wr_type _ _ _ _ W rho V i T r HT E).
Qed.

Lemma side_value m rho t : closed_map m -> ev M rho (apply_to_term m t) = ev M (via M m rho) t.
Proof. apply ev_apply. Qed.
Lemma sides_equal cl out m rho a b : closed_map m -> well_typed_result M cl out m -> valid_env M out rho ->
  ueq (apply_to_term m a) (apply_to_term m b) -> nokind (apply_to_term m a) = true ->
  wt M (via M m rho) a -> ev M (via M m rho) a = ev M (via M m rho) b.
Proof.
  intros L W V Q N Wa. rewrite <- !(ev_apply M m _ rho L). apply ueq_swapeq in Q; auto.
  assert (Wa' : wt M rho (apply_to_term m a)).
  { apply (swt_apply M (anydom M) m a L rho (nobs M)); auto. intros i r _ Hr. apply (wr_wt _ _ _ _ W rho V i r Hr). }
  symmetry. apply (swapeq_sound M (anydom M) _ _ Q rho (nobs M) Wa').
Qed.
Lemma instance_holds m rho pos a b : closed_map m ->
  lit_holds M rho (lit_new pos (apply_to_term m a) (apply_to_term m b)) <-> lit_holds M (via M m rho) (Lit pos a b).
Proof.
  intros L. rewrite lit_new_holds. unfold lit_holds. cbn [positive left right]. rewrite !(ev_apply M m _ rho L). tauto.
Qed.
End Sound.

(** ** Equality resolution *)
Lemma resolutions_from K ts n c : forall post pre rs, equality_resolutions_from K ts n c pre post = Some rs ->
  forall ls out m f, In (ls, out, m, f) rs -> exists p l r st st',
    pre ++ post = p ++ l :: r /\ positive l = false /\
    unify K ts n (inference_start c) 1 (left l) 1 (right l) = Some (Some st) /\
    uapply_literals n st (p ++ r) = Some (ls, st') /\ out = u_out st' /\ m = umap st' 1 /\ f = u_clash st'.
Proof.
  induction post as [|l r IH]; intros pre rs H ls out m f Hin; cbn [equality_resolutions_from] in H; [injection H as <-; destruct Hin|].
  destruct (positive l) eqn:Ep; [injection H as <-; destruct Hin|].
  assert (Sh : pre ++ l :: r = (pre ++ [l]) ++ r) by (rewrite <- app_assoc; auto).
  destruct (unify K ts n (inference_start c) 1 (left l) 1 (right l)) as [[st|]|] eqn:Eu; [| |discriminate].
  - destruct (uapply_literals n st (pre ++ r)) as [[ls' st']|] eqn:Ea; [|discriminate].
    destruct (equality_resolutions_from K ts n c (pre ++ [l]) r) as [rs'|] eqn:Er; simpl in H; [|discriminate]. injection H as <-.
    destruct Hin as [E|Hin].
    + injection E as <- <- <- <-. exists pre, l, r, st, st'. repeat split; auto.
    + rewrite Sh. eapply IH; eauto.
  - rewrite Sh. eapply IH; eauto.
Qed.

Lemma start_wf c : uwf (inference_start c).
Proof. apply (reachable_wf (Build_kctx (fun _ _ => tbool) (fun _ _ => tbool) (fun _ => tbool) (fun _ _ _ => false) (fun _ _ => false) (fun _ => false)) (Build_tstore (fun _ _ => 0) (fun _ _ => []))).
  apply re_input; [apply re_new|simpl]; lia.
Qed.

Lemma apply_literals_clash n : forall ls st ls' st', uapply_literals n st ls = Some (ls', st') -> u_clash st' = u_clash st.
Proof.
  induction ls as [|x r IH]; intros st ls' st' H; cbn [uapply_literals] in H; [injection H as _ <-; auto|].
  unfold uapply_literal in H. destruct (uapply n st 1 (left x)) as [[a st1]|] eqn:Ea; [|discriminate].
  destruct (uapply n st1 1 (right x)) as [[b st2]|] eqn:Eb; [|discriminate].
  destruct (uapply_literals n st2 r) as [[r' st3]|] eqn:Er; [|discriminate]. injection H as _ <-.
  apply uapply_clash in Ea. apply uapply_clash in Eb. apply IH in Er. congruence.
Qed.
Lemma kept st st' s t : s <> 0 -> ufresh st st' -> cov st s t -> sigma st' s t = sigma st s t.
Proof.
  intros N F C. unfold sigma. apply apply_agree. intros j Hj.
  specialize (C N j Hj). destruct (vget (umap st s) j) as [r|] eqn:E; [|contradiction]. apply (uf_keep _ _ F s j r E).
Qed.
Lemma result_wt M cl out m rho pos a b : closed_map m -> well_typed_result M cl out m -> valid_env M out rho ->
  wt M (via M m rho) a -> wt M (via M m rho) b -> lit_wt M rho (lit_new pos (apply_to_term m a) (apply_to_term m b)).
Proof.
  intros L W V Wa Wb. rewrite lit_new_wt.
  split; apply (swt_apply M (anydom M) m _ L rho (nobs M)); auto; intros i r _ Hr; apply (wr_wt _ _ _ _ W rho V i r Hr).
Qed.

(** Every resolvent, in every model: if the premise is well typed and holds, the resolvent holds and is
    well typed.
    Partial: the values given to the variables must have the right types in the model, and neither the
    premise nor the values may contain kinds (a typeclass is unified with [Type0]). *)
Theorem equality_resolution_sound_partial : forall K ts n cl rs, find_equality_resolutions K ts n cl = Some rs ->
  forall ls out m, In (ls, out, m, false) rs -> kind_free cl m ->
  forall M, well_typed_result M cl out m -> clause_wt M cl -> valid M cl ->
    valid M (Clause ls out) /\ clause_wt M (Clause ls out).
Proof.
  intros K ts n cl rs H ls out m Hin [N1 N2] M W Hw Hv.
  destruct (resolutions_from _ _ _ _ _ _ _ H _ _ _ _ Hin) as (p & l & r & st & st' & Sh & Pl & Hu & Ha & -> & -> & Hf).
  simpl in Sh. cbn [unify] in Hu. pose proof (start_wf (context cl)) as W0.
  assert (Hc : u_clash st = false) by (rewrite <- (apply_literals_clash _ _ _ _ _ Ha); auto).
  destruct (proj1 (unify_spec K ts n) _ _ _ _ _ _ W0 Hu Hc) as [W1 _ C1 C2 Q].
  destruct (apply_literals_spec _ _ _ _ _ W1 Ha) as (F & -> & Cv).
  pose proof (ufresh_wf _ _ W1 F) as W2. pose proof (uw_lc _ W2 1) as L.
  rewrite <- (kept st st' 1 (left l)) in Q by auto. rewrite <- (kept st st' 1 (right l)) in Q by auto.
  assert (Il : forall x, In x (literals cl) <-> x = l \/ In x (p ++ r)).
  { intros x. rewrite Sh, !in_app_iff. simpl. intuition. }
  split.
  - intros rho V. cbn [context literals] in *. pose proof (result_env M _ _ _ _ L W V) as V'.
    destruct (Hv _ V') as (x & Hx & Hh). apply Il in Hx. destruct Hx as [->|Hx].
    + exfalso. unfold lit_holds in Hh. rewrite Pl in Hh. apply Hh.
      eapply (sides_equal M cl); eauto.
      * apply nokind_apply; auto. apply N1, Il. auto.
      * apply (Hw _ V' l). apply Il. auto.
    + eexists. split; [apply in_map_iff; exists x; split; [reflexivity|auto]|].
      apply (instance_holds M _ _ _ _ _ L). destruct x; auto.
  - intros rho V l' Hl'. cbn [context literals] in *. pose proof (result_env M _ _ _ _ L W V) as V'.
    apply in_map_iff in Hl'. destruct Hl' as (x & <- & Hx).
    destruct (Hw _ V' x) as [Wx1 Wx2]; [apply Il; auto|]. eapply result_wt; eauto.
Qed.
Print Assumptions equality_resolution_sound_partial.

(** ** Equality factoring *)
Lemma ocons_in {A} (x : option (option A)) l r a : ocons x l = Some r -> In a r ->
  x = Some (Some a) \/ exists r', l = Some r' /\ In a r'.
Proof.
  destruct x as [[y|]|], l as [r'|]; simpl; intros H Hin; try discriminate; injection H as <-; [destruct Hin as [->|Hin]|]; eauto.
Qed.
Lemma factorings_in K ts n c s t : forall post pre rs, factorings_over K ts n c s t pre post = Some rs ->
  forall x, In x rs -> exists p l r, pre ++ post = p ++ l :: r /\ positive l = true /\
    (equality_factoring K ts n c s t (left l) (right l) (p ++ r) = Some (Some x) \/
     equality_factoring K ts n c s t (right l) (left l) (p ++ r) = Some (Some x)).
Proof.
  induction post as [|l r IH]; intros pre rs H x Hin; cbn [factorings_over] in H; [injection H as <-; destruct Hin|].
  assert (Sh : pre ++ l :: r = (pre ++ [l]) ++ r) by (rewrite <- app_assoc; auto).
  assert (Next : forall rs', factorings_over K ts n c s t (pre ++ [l]) r = Some rs' -> In x rs' ->
    exists p l0 r0, pre ++ l :: r = p ++ l0 :: r0 /\ positive l0 = true /\
    (equality_factoring K ts n c s t (left l0) (right l0) (p ++ r0) = Some (Some x) \/
     equality_factoring K ts n c s t (right l0) (left l0) (p ++ r0) = Some (Some x))).
  { intros rs' H' Hin'. rewrite Sh. eapply IH; eauto. }
  destruct (positive l) eqn:Ep; cbn [negb] in H; [|eauto].
  destruct (is_boolean_equality K l c) as [[|]|]; [eauto| |discriminate].
  destruct (ocons_in _ _ _ _ H Hin) as [E|(r1 & E & Hin1)]; [exists pre, l, r; auto|].
  destruct (ocons_in _ _ _ _ E Hin1) as [E'|(r2 & E' & Hin2)]; [exists pre, l, r; auto|eauto].
Qed.

Lemma factoring_sound K ts n cl s t u v rest ls out m : equality_factoring K ts n (context cl) s t u v rest = Some (Some (ls, out, m, false)) ->
  (forall x, nokind x = true -> nokind (apply_to_term m x) = true) -> nokind s = true -> nokind u = true ->
  forall M, well_typed_result M cl out m ->
  (forall rho, valid_env M (context cl) rho -> wt M rho s /\ wt M rho t /\ wt M rho u /\ wt M rho v /\ forall l, In l rest -> lit_wt M rho l) ->
  (forall rho, valid_env M (context cl) rho -> ev M rho s = ev M rho t \/ ev M rho u = ev M rho v \/ cholds M rho rest) ->
  valid M (Clause ls out) /\ clause_wt M (Clause ls out).
Proof.
  intros H Nm Ns Nu M W Hw Hv. unfold equality_factoring in H. pose proof (start_wf (context cl)) as W0.
  destruct (unify K ts n (inference_start (context cl)) 1 s 1 u) as [[st|]|] eqn:Hu; [|discriminate|discriminate]. cbn [unify] in Hu.
  destruct (uapply n st 1 t) as [[t' st1]|] eqn:E1; [|discriminate].
  destruct (uapply n st1 1 v) as [[v' st2]|] eqn:E2; [|discriminate].
  destruct (uapply n st2 1 u) as [[u' st3]|] eqn:E3; [|discriminate].
  destruct (uapply n st3 1 v) as [[v'' st4]|] eqn:E4; [|discriminate].
  destruct (uapply_literals n st4 rest) as [[ls' st5]|] eqn:E5; [|discriminate]. injection H as <- <- <- Hf.
  assert (Hc : u_clash st = false).
  { rewrite <- (uapply_clash _ _ _ _ _ _ E1), <- (uapply_clash _ _ _ _ _ _ E2), <- (uapply_clash _ _ _ _ _ _ E3),
      <- (uapply_clash _ _ _ _ _ _ E4), <- (apply_literals_clash _ _ _ _ _ E5). auto. }
  destruct (proj1 (unify_spec K ts n) _ _ _ _ _ _ W0 Hu Hc) as [W1 _ C1 C2 Q].
  destruct (uapply_fresh _ _ _ _ _ _ W1 E1) as (F1 & -> & Ct). pose proof (ufresh_wf _ _ W1 F1) as W2.
  destruct (uapply_fresh _ _ _ _ _ _ W2 E2) as (F2 & -> & Cv). pose proof (ufresh_wf _ _ W2 F2) as W3.
  destruct (uapply_fresh _ _ _ _ _ _ W3 E3) as (F3 & -> & Cu). pose proof (ufresh_wf _ _ W3 F3) as W4.
  destruct (uapply_fresh _ _ _ _ _ _ W4 E4) as (F4 & -> & Cv2). pose proof (ufresh_wf _ _ W4 F4) as W5.
  destruct (apply_literals_spec _ _ _ _ _ W5 E5) as (F5 & -> & _). pose proof (ufresh_wf _ _ W5 F5) as W6.
  pose proof (uw_lc _ W6 1) as L.
  pose proof (ufresh_trans _ _ _ F4 F5) as G4. pose proof (ufresh_trans _ _ _ F3 G4) as G3.
  pose proof (ufresh_trans _ _ _ F2 G3) as G2. pose proof (ufresh_trans _ _ _ F1 G2) as G1.
  assert (N1 : 1 <> 0) by lia.
  rewrite <- (kept st st5 1 s) in Q by auto. rewrite <- (kept st st5 1 u) in Q by auto.
  rewrite <- (kept st1 st5 1 t) by auto. rewrite <- (kept st2 st5 1 v) by auto.
  rewrite <- (kept st3 st5 1 u) by auto. rewrite <- (kept st4 st5 1 v) by auto.
  split.
  - intros rho V. cbn [context literals] in *. pose proof (result_env M _ _ _ _ L W V) as V'.
    destruct (Hw _ V') as (Ws & _ & Wu & _ & _).
    pose proof (sides_equal M cl _ _ rho s u L W V Q (Nm s Ns) Ws) as E.
    destruct (Hv _ V') as [H1|[H1|(x & Hx & Hh)]].
    + destruct (val_dec M (ev M (via M (umap st5 1) rho) t) (ev M (via M (umap st5 1) rho) v)) as [E'|E'].
      * exists (lit_new true (sigma st5 1 u) (sigma st5 1 v)). split; [simpl; auto|].
        apply (instance_holds M _ _ _ _ _ L). unfold lit_holds. simpl. congruence.
      * exists (lit_new false (sigma st5 1 t) (sigma st5 1 v)). split; [simpl; auto|].
        apply (instance_holds M _ _ _ _ _ L). exact E'.
    + exists (lit_new true (sigma st5 1 u) (sigma st5 1 v)). split; [simpl; auto|].
      apply (instance_holds M _ _ _ _ _ L). exact H1.
    + eexists. split; [right; right; apply in_map_iff; exists x; split; [reflexivity|auto]|].
      apply (instance_holds M _ _ _ _ _ L). destruct x; auto.
  - intros rho V l' Hl'. cbn [context literals] in *. pose proof (result_env M _ _ _ _ L W V) as V'.
    destruct (Hw _ V') as (Ws & Wt & Wu & Wv & Wr).
    destruct Hl' as [<-|[<-|Hl']]; [eapply result_wt; eauto|eapply result_wt; eauto|].
    apply in_map_iff in Hl'. destruct Hl' as (x & <- & Hx). destruct (Wr x Hx). eapply result_wt; eauto.
Qed.

(** Every factoring, in every model; partial in the same way. *)
Theorem equality_factoring_sound_partial : forall K ts n cl rs, find_equality_factorings K ts n cl = Some rs ->
  forall ls out m, In (ls, out, m, false) rs -> kind_free cl m ->
  forall M, well_typed_result M cl out m -> clause_wt M cl -> valid M cl ->
    valid M (Clause ls out) /\ clause_wt M (Clause ls out).
Proof.
  intros K ts n cl rs H ls out m Hin [N1 N2] M W Hw Hv. unfold find_equality_factorings in H.
  destruct (literals cl) as [|l0 r0] eqn:El; [injection H as <-; destruct Hin|].
  destruct (positive l0) eqn:P0; cbn [negb] in H; [|injection H as <-; destruct Hin].
  destruct (is_boolean_equality K l0 (context cl)) as [[|]|]; [injection H as <-; destruct Hin| |discriminate].
  destruct (factorings_over K ts n (context cl) (left l0) (right l0) [] r0) as [ra|] eqn:Ea; [|discriminate].
  destruct (factorings_over K ts n (context cl) (right l0) (left l0) [] r0) as [rb|] eqn:Eb; [|discriminate].
  injection H as <-. apply in_app_iff in Hin.
  assert (G : forall s t, (s = left l0 /\ t = right l0) \/ (s = right l0 /\ t = left l0) ->
    forall p l r, r0 = p ++ l :: r -> positive l = true -> forall u v, (u = left l /\ v = right l) \/ (u = right l /\ v = left l) ->
    equality_factoring K ts n (context cl) s t u v (p ++ r) = Some (Some (ls, out, m, false)) ->
    valid M (Clause ls out) /\ clause_wt M (Clause ls out)).
  { intros s t Hst p l r Hr Pl u v Huv He.
    assert (Il : forall x, In x (literals cl) <-> x = l0 \/ x = l \/ In x (p ++ r)).
    { intros x. rewrite El, Hr. simpl. rewrite !in_app_iff. simpl. intuition. }
    assert (N0 : nokind (left l0) = true /\ nokind (right l0) = true) by (apply N1; simpl; auto).
    assert (Nl : nokind (left l) = true /\ nokind (right l) = true).
    { apply N1. rewrite <- El. apply Il. auto. }
    apply (factoring_sound K ts n cl s t u v (p ++ r) ls out m He).
    - intros x Nx. apply nokind_apply; auto.
    - destruct Hst as [[-> _]|[-> _]]; apply N0.
    - destruct Huv as [[-> _]|[-> _]]; apply Nl.
    - exact W.
    - intros rho V. destruct (Hw rho V l0) as [A1 A2]; [apply Il; auto|]. destruct (Hw rho V l) as [B1 B2]; [apply Il; auto|].
      destruct Hst as [[-> ->]|[-> ->]], Huv as [[-> ->]|[-> ->]]; repeat (split; [assumption|]);
        intros x Hx; apply (Hw rho V); apply Il; auto.
    - intros rho V. destruct (Hv rho V) as (x & Hx & Hh). apply Il in Hx. destruct Hx as [->|[->|Hx]].
      + left. unfold lit_holds in Hh. rewrite P0 in Hh. destruct Hst as [[-> ->]|[-> ->]]; auto.
      + right. left. unfold lit_holds in Hh. rewrite Pl in Hh. destruct Huv as [[-> ->]|[-> ->]]; auto.
      + right. right. exists x. auto. }
  destruct Hin as [Hin|Hin].
  - destruct (factorings_in _ _ _ _ _ _ _ _ _ Ea _ Hin) as (p & l & r & Hr & Pl & [He|He]); simpl in Hr.
    + exact (G _ _ (or_introl (conj eq_refl eq_refl)) p l r Hr Pl _ _ (or_introl (conj eq_refl eq_refl)) He).
    + exact (G _ _ (or_introl (conj eq_refl eq_refl)) p l r Hr Pl _ _ (or_intror (conj eq_refl eq_refl)) He).
  - destruct (factorings_in _ _ _ _ _ _ _ _ _ Eb _ Hin) as (p & l & r & Hr & Pl & [He|He]); simpl in Hr.
    + exact (G _ _ (or_intror (conj eq_refl eq_refl)) p l r Hr Pl _ _ (or_introl (conj eq_refl eq_refl)) He).
    + exact (G _ _ (or_intror (conj eq_refl eq_refl)) p l r Hr Pl _ _ (or_intror (conj eq_refl eq_refl)) He).
Qed.
Print Assumptions equality_factoring_sound_partial.

(** ** Concrete cases *)
Definition ei_A := TSym (SType 1 1).
Definition ei_c := TSym (SGlobal 0 0).
Definition ei_f (t : term) := TApp (TSym (SGlobal 0 1)) t.
Definition ei_K : kctx :=
  {| k_type := fun _ _ => type0;
     k_global := fun _ i => if N.eqb i 1 then TBind KPi ei_A ei_A else ei_A;
     k_scoped := fun _ => tbool;
     k_instance := fun _ _ _ => false; k_extends := fun _ _ => false; k_value_params := fun _ => false |}.
(** two elements; [f] swaps them, [c] is the first *)
Definition ei_e0 := VElt 0 0 2 0.
Definition ei_e1 := VElt 0 0 2 1.
Definition ei_I (s : symbol) : V :=
  match s with
  | SType _ _ => VBase 0 0 2
  | SGlobal _ i => if N.eqb i 1 then VFun (VBase 0 0 2) [ei_e1; ei_e0] else ei_e0
  | STypeclass _ _ => VSort 1
  | _ => VTrue
  end.
Definition ei_M : Model := fin_model (fun k => if N.eqb k 0 then [VBool; VBase 0 0 2] else [VBase 0 0 2]) ei_I.

(** [x0 != c or f(f(x0)) = c] gives [f(f(c)) = c] *)
Definition ei_cl := Clause [Lit false (TVar 0) ei_c; Lit true (ei_f (ei_f (TVar 0))) ei_c] [Some ei_A].
Lemma ei_env rho c : valid_env ei_M (Some ei_A :: c) rho -> rho 0 = ei_e0 \/ rho 0 = ei_e1.
Proof. intros H. specialize (H 0 _ eq_refl). vm_compute in H. intuition. Qed.
Example equality_resolution_case : exists rs ls out m,
  find_equality_resolutions ei_K un_ts 30 ei_cl = Some rs /\ In (ls, out, m, false) rs /\
  ls = [Lit true (ei_f (ei_f ei_c)) ei_c] /\ kind_free ei_cl m /\ well_typed_result ei_M ei_cl out m /\
  clause_wt ei_M ei_cl /\ valid ei_M ei_cl.
Proof.
  do 4 eexists. split; [vm_compute; reflexivity|]. split; [left; reflexivity|]. split; [reflexivity|].
  split; [|split; [|split]].
  - split.
    + intros l [<-|[<-|[]]]; split; reflexivity.
    + intros [|[|i]] r H; unfold vget in H; simpl in H; try discriminate. injection H as <-. reflexivity.
  - constructor.
    + intros [|[|i]] T H; unfold get_var_type in H; simpl in H; discriminate.
    + intros rho V [|[|i]] T r H1 H2; unfold get_var_type in H1; unfold vget in H2; simpl in *; try discriminate.
      injection H1 as <-. injection H2 as <-. vm_compute. tauto.
    + intros rho V [|[|i]] r H; unfold vget in H; simpl in H; try discriminate. injection H as <-. exact Logic.I.
  - intros rho V l [<-|[<-|[]]]; split; unfold wt, swt, ei_f; cbn [swtg left right eval]; try exact Logic.I;
      destruct (ei_env _ _ V) as [E|E]; rewrite ?E; vm_compute; tauto.
  - intros rho V. destruct (ei_env _ _ V) as [E|E].
    + eexists. split; [right; left; reflexivity|]. unfold lit_holds, ev, ei_f. cbn [positive left right eval]. rewrite E. reflexivity.
    + eexists. split; [left; reflexivity|]. unfold lit_holds, ev, ei_f. cbn [positive left right eval]. rewrite E. vm_compute. discriminate.
Qed.

(** [f(x0) = c or f(x0) = f(c)] factors to [f(c) != c or f(c) = f(x0)], among others *)
Definition ei_cl2 := Clause [Lit true (ei_f (TVar 0)) ei_c; Lit true (ei_f (TVar 0)) (ei_f ei_c)] [Some ei_A].
Example equality_factoring_case : exists rs ls out m,
  find_equality_factorings ei_K un_ts 30 ei_cl2 = Some rs /\ In (ls, out, m, false) rs /\
  ls = [Lit false (ei_f ei_c) ei_c; Lit true (ei_f ei_c) (ei_f (TVar 0))] /\ kind_free ei_cl2 m /\ well_typed_result ei_M ei_cl2 out m /\
  clause_wt ei_M ei_cl2 /\ valid ei_M ei_cl2.
Proof.
  do 4 eexists. split; [vm_compute; reflexivity|]. split; [left; reflexivity|]. split; [reflexivity|].
  split; [|split; [|split]].
  - split.
    + intros l [<-|[<-|[]]]; split; reflexivity.
    + intros [|[|i]] r H; unfold vget in H; simpl in H; try discriminate. injection H as <-. reflexivity.
  - constructor.
    + intros [|[|i]] T H; unfold get_var_type in H; simpl in H; discriminate.
    + intros rho V [|[|i]] T r H1 H2; unfold get_var_type in H1; unfold vget in H2; simpl in *; try discriminate.
      injection H1 as <-. injection H2 as <-. exact (V 0 _ eq_refl).
    + intros rho V [|[|i]] r H; unfold vget in H; simpl in H; try discriminate. injection H as <-. exact Logic.I.
  - intros rho V l [<-|[<-|[]]]; split; unfold wt, swt, ei_f; cbn [swtg left right eval]; try exact Logic.I;
      destruct (ei_env _ _ V) as [E|E]; rewrite ?E; vm_compute; tauto.
  - intros rho V. destruct (ei_env _ _ V) as [E|E].
    + eexists. split; [right; left; reflexivity|]. unfold lit_holds, ev, ei_f. cbn [positive left right eval]. rewrite E. reflexivity.
    + eexists. split; [left; reflexivity|]. unfold lit_holds, ev, ei_f. cbn [positive left right eval]. rewrite E. reflexivity.
Qed.

(** ** With kinds the statement is false
    [lambda(T: Type0) { true } != lambda(T: C) { true }] holds, the two functions having different domains,
    but it resolves to the empty clause, [unify] taking the typeclass [C] for [Type0]. *)
Definition ek_cl := Clause [Lit false (TBind KLam (TSym (STypeclass 0 0)) ttrue) (TBind KLam type0 ttrue)] [].
Theorem equality_resolution_sound_refuted : exists K ts M cl ls out m,
  find_equality_resolutions K ts 30 cl = Some [(ls, out, m, false)] /\ respects M K /\
  well_typed_result M cl out m /\ clause_wt M cl /\ valid M cl /\ ~ valid M (Clause ls out).
Proof.
  exists ei_K, un_ts, ei_M, ek_cl. do 3 eexists. split; [vm_compute; reflexivity|]. split; [|split; [|split; [|split]]].
  - apply fin_respects.
    + left; reflexivity.
    + intros x Hx. vm_compute in Hx. repeat (destruct Hx as [<-|Hx]; [exact Logic.I|]). contradiction.
    + intros; exact Logic.I.
    + intros m i rho. cbn [ei_K k_global]. destruct (N.eqb i 1); vm_compute; tauto.
    + intros; exact Logic.I.
    + intros m i rho. vm_compute. tauto.
    + intros m i rho. cbn [ei_I ei_K k_global]. destruct (N.eqb_spec i 1) as [->|H0]; vm_compute; tauto.
    + intros i rho. vm_compute; tauto.
  - constructor.
    + intros [|i] T H; discriminate.
    + intros rho V [|i] T r H; discriminate.
    + intros rho V [|i] r H; discriminate.
  - intros rho V l [<-|[]]. split; vm_compute; intuition.
  - intros rho V. eexists. split; [left; reflexivity|]. vm_compute. discriminate.
  - intros H. destruct (H (fun _ => VTrue)) as (l & [] & _). intros [|i] T Hi; discriminate.
Qed.
Print Assumptions equality_resolution_sound_refuted.
