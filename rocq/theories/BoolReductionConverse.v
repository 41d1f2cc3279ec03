(** The converse of boolean reduction: a clause follows from the reductions of one of its literals. *)
From Coq Require Import List Arith NArith Bool Lia.
Import ListNotations.
From Verif Require Import Term LocalContext Semantics TermProofs SemFacts TermNorm TermNormProofs Kbo
  Literal Clause ClauseSem RenumberProofs ClauseProofs ClauseWf Typing TypingProofs InferenceProofs BoolReduction BoolReductionProofs Checker.

(** [exists(x: A) { x = t }] compares values of type [A] *)
Definition witness_typed (l : literal) : Prop :=
  forall A body T a b, left l = TBind KEx A body -> clause_split body SEq 3 = Some [T; a; b] ->
  a = TBound 0 \/ b = TBound 0 -> T = A.
Definition first_half (k : kind) : bool :=
  match k with
  | IteSplitLeftThenBranch | IteSplitRightThenBranch | PositiveAndLeft | NegativeOrLeft
  | BooleanEqualityLeftOrNotRight | BooleanInequalityNotLeftOrNotRight => true
  | _ => false
  end.

Section Converse.
Context (M : Model).
Notation tt := (dsym M STrue).
Notation isb d := (mem M d (dsym M SBool)).

Ltac fin := match goal with
  | H : Some None = Some (Some _) |- _ => discriminate
  | H : None = Some (Some _) |- _ => discriminate
  | H : Some (Some (_, _)) = Some (Some (_, _)) |- _ => injection H as <- <-
  end.
Ltac sgn H :=
  match type of H with
  | match bool_left ?K ?c ?l with _ => _ end = _ =>
    let b := fresh "b" in let EB := fresh "EB" in let E0 := fresh "E0" in
    destruct (bool_left K c l) as [b|] eqn:EB; [|discriminate];
    match type of H with (if ?x then _ else _) = _ => destruct x eqn:E0; [|discriminate] end;
    rewrite ?andb_true_r, ?andb_true_iff in E0
  end.

Lemma complete_one fuel K cl k l r c' rho :
  replacement fuel K cl k l = Some (Some (r, c')) -> first_half k = false -> is_second_half k = false ->
  respects M K -> ctx_closed (context cl) -> (forall v, In v (lit_vars l) -> v < length (context cl)) ->
  typed_literal K (context cl) l -> (k = PositiveExistsObviousWitness -> witness_typed l) ->
  valid_env M (context cl) rho -> tctx_wt M (context cl) rho -> lit_wt M rho l ->
  (forall rho', valid_env M c' rho' -> (forall v, v < length (context cl) -> rho' v = rho v) ->
     (forall x, In x r -> lit_wt M rho' x) /\ cholds M rho' r) ->
  lit_holds M rho l.
Proof.
  intros H F1 F2 R Hc Hs HT Wi Hv Ht [WL WR] G.
  destruct k; try discriminate F1; try discriminate F2; cbn [replacement] in H.
  - (* false literal *)
    destruct (negb (is_signed_term l) || (negb (is_true (left l)) && negb (term_eqb (left l) tfalse))); [discriminate|].
    destruct (if is_true (left l) then positive l else negb (positive l)); [discriminate|]. fin.
    destruct (G rho Hv (fun _ _ => eq_refl)) as [_ (x & [] & _)].
  - destruct (simplify_ite fuel (left l)) as [t|] eqn:E1; [|discriminate]. destruct (term_eqb t (left l)); [discriminate|]. fin.
    destruct (simplify_ite_sound M _ _ _ rho (nobs M) (anydom M) E1 WL) as [Wt Et].
    destruct (G rho Hv (fun _ _ => eq_refl)) as [_ Hh]. rewrite one_holds, lit_new_holds in Hh. unfold lit_holds, ev in *; simpl in Hh. rewrite Et in Hh. exact Hh.
  - destruct (simplify_ite fuel (right l)) as [t|] eqn:E1; [|discriminate]. destruct (term_eqb t (right l)); [discriminate|]. fin.
    destruct (simplify_ite_sound M _ _ _ rho (nobs M) (anydom M) E1 WR) as [Wt Et].
    destruct (G rho Hv (fun _ _ => eq_refl)) as [_ Hh]. rewrite one_holds, lit_new_holds in Hh. unfold lit_holds, ev in *; simpl in Hh. rewrite Et in Hh. exact Hh.
  - (* function inequality *)
    destruct (reduce_function_inequality K (context cl) l) as [[t|]|] eqn:E1; try discriminate. fin.
    destruct (G rho Hv (fun _ _ => eq_refl)) as [W Hh]. rewrite one_holds, pos_holds in Hh.
    pose proof (W _ (or_introl eq_refl)) as Wt. apply pos_wt in Wt.
    unfold reduce_function_inequality in E1. destruct (positive l) eqn:Ep; [discriminate|].
    destruct HT as ((T & TL & TR) & VL & VR & LL & LR). rewrite TL, TR in E1.
    destruct (negb (term_eqb T T)); [discriminate|]. destruct T as [|?|[] A B]; try discriminate. injection E1 as <-.
    unfold lit_holds. rewrite Ep. intros E. unfold wt, swt in Wt. cbn [swtg] in Wt. destruct Wt as (_ & _ & WB).
    unfold ev in Hh. cbn [eval] in Hh. apply ex_true in Hh; [|intros x Hx; apply (proj2 (WB x Hx))].
    destruct Hh as (x & Hx & Hh). destruct (WB x Hx) as [W1 _].
    change (TApp (TSym SNot) (TApp (TApp (TApp (TSym SEq) B) (TApp (left l) (TBound 0))) (TApp (right l) (TBound 0)))) with
      (tnot (teq B (TApp (left l) (TBound 0)) (TApp (right l) (TBound 0)))) in *.
    apply swt_not in W1. destruct W1 as [W1 B1]. cbn [tnot eval] in Hh. apply bnot_true in Hh; [|exact B1].
    apply Hh. apply (eq_true M (anydom M)); auto. cbn [eval scons].
    rewrite (eval_lc M rho _ (nobs M) _ LL), (eval_lc M rho _ (nobs M) _ LR). unfold ev in E. congruence.
  - (* not *)
    sgn H. destruct E0 as [-> Er]. destruct (clause_split (left l) SNot 1) as [[|x [|]]|] eqn:E1; try discriminate. fin.
    apply clause_split_not in E1. apply (is_true_eq M (anydom M) rho (nobs M)) in Er; [|exact WR]. rewrite E1 in WL. apply swt_not in WL. destruct WL as [Wx Bx].
    destruct (G rho Hv (fun _ _ => eq_refl)) as [_ Hh]. rewrite one_holds in Hh. unfold from_signed_term in Hh. rewrite lit_new_holds in Hh.
    unfold lit_holds, ev in *. rewrite E1, Er. cbn [positive left right tnot eval] in *. pose proof (bnot_true M _ Bx) as Hn.
    destruct (positive l); simpl in Hh; [tauto|]. intros N. apply Hn in N. tauto.
  - (* eq *)
    sgn H. destruct E0 as [-> Er]. destruct (clause_split (left l) SEq 3) as [[|T [|x [|y [|]]]]|] eqn:E1; try discriminate. fin.
    apply clause_split_eq in E1. apply (is_true_eq M (anydom M) rho (nobs M)) in Er; [|exact WR]. rewrite E1 in WL.
    pose proof (eq_true M (anydom M) rho (nobs M) T x y WL) as Hq.
    destruct (G rho Hv (fun _ _ => eq_refl)) as [_ Hh]. rewrite one_holds, lit_new_holds in Hh.
    unfold lit_holds, ev in *. rewrite E1, Er. cbn [positive left right] in *.
    destruct (positive l); [apply Hq; exact Hh|]. intros N. apply Hh, Hq, N.
  - (* forall *)
    sgn H. destruct E0 as [[-> Er] Ep]. apply eqb_prop in Ep.
    unfold open_quantifier in H. destruct (left l) as [|?|kk A body] eqn:EL; try discriminate.
    destruct (bkind_eq_dec kk KAll) as [->|]; [|discriminate]. rewrite open_bound_spec in H. cbn [option_map] in H. fin.
    apply (is_true_eq M (anydom M) rho (nobs M)) in Er; [|exact WR]. destruct WL as (WA & TA & WB).
    unfold lit_holds. rewrite Ep, EL, Er. unfold ev. cbn [eval]. apply all_true; [intros x Hx; apply (proj2 (WB x Hx))|]. intros x Hx.
    assert (Sb : forall w, In w (vars A ++ vars body) -> w < length (context cl)).
    { intros w Hw. apply Hs. unfold lit_vars. rewrite EL, vars_bind. apply in_or_app; auto. }
    destruct (G (upd M rho (length (context cl)) x)) as [_ Hh].
    + apply push_valid; auto. intros w Hw. apply Sb. apply in_or_app; auto.
    + intros v Hl. unfold upd. destruct (Nat.eqb_spec v (length (context cl))); [lia|auto].
    + rewrite one_holds, pos_holds in Hh. unfold ev in Hh. rewrite eval_open in Hh. cbn [eval] in Hh. rewrite <- Hh. unfold upd at 2. rewrite Nat.eqb_refl.
      apply eval_ext; auto. intros w Hw. unfold upd. destruct (Nat.eqb_spec w (length (context cl))) as [->|]; auto.
      specialize (Sb (length (context cl))). rewrite in_app_iff in Sb. intuition lia.
  - (* obvious witness *)
    sgn H. destruct E0 as [[-> Er] Ep]. apply eqb_prop in Ep.
    match type of H with (if ?x then _ else _) = _ => destruct x; [discriminate|] end.
    destruct (reduce_exists_with_obvious_witness (left l)) as [[t|]|] eqn:E1; try discriminate. fin.
    specialize (Wi eq_refl). apply (is_true_eq M (anydom M) rho (nobs M)) in Er; [|exact WR].
    destruct (G rho Hv (fun _ _ => eq_refl)) as [W Hh]. rewrite one_holds, pos_holds in Hh.
    pose proof (W _ (or_introl eq_refl)) as Wt. apply pos_wt in Wt.
    unfold reduce_exists_with_obvious_witness in E1. destruct (left l) as [|?|[] A body] eqn:EL; try discriminate.
    destruct (clause_split body SEq 3) as [[|T [|a [|b [|]]]]|] eqn:Es; try discriminate.
    specialize (Wi A body T a b EL Es). apply clause_split_eq in Es. subst body.
    destruct HT as (_ & _ & _ & LL & _). rewrite EL in LL. apply lc_bind in LL. destruct LL as [LA _].
    set (w := if term_eqb a (TBound 0) then Some b else if term_eqb b (TBound 0) then Some a else None) in E1.
    assert (Hw : forall v, w = Some v -> (a = TBound 0 /\ v = b) \/ (b = TBound 0 /\ v = a)).
    { unfold w. intros v. destruct (term_eqb a (TBound 0)) eqn:Ea; [apply term_eqb_eq in Ea; intros X; injection X as <-; auto|].
      destruct (term_eqb b (TBound 0)) eqn:Eb; [apply term_eqb_eq in Eb; intros X; injection X as <-; auto|discriminate]. }
    destruct w as [v|]; [|discriminate]. specialize (Hw v eq_refl).
    assert (ET : T = A) by (apply Wi; tauto). subst T. clear Wi.
    destruct (has_bound_variable v) eqn:Hb; [discriminate|]. rewrite open_bound_spec in E1. change (Some (Some (open_at 0 v (teq A a b))) = Some (Some t)) in E1. assert (Et : t = open_at 0 v (teq A a b)) by congruence. clear E1. subst t.
    change (fold_left TApp [A; a; b] (TSym SEq)) with (teq A a b) in *.
    assert (Lv : lc v) by (apply no_bound_lc; auto).
    destruct WL as (WA & TA & WB). unfold lit_holds. rewrite Ep, EL, Er.
    unfold ev. cbn [eval]. apply (ex_true M _ (fun x => eval M rho (scons x (nobs M)) (teq A a b))).
    { intros x Hx. apply (proj2 (WB x Hx)). }
    unfold ev in Hh. rewrite eval_open in Hh. exists (eval M rho (nobs M) v). split; [|exact Hh].
    change (open_at 0 v (teq A a b)) with (teq (open_at 0 v A) (open_at 0 v a) (open_at 0 v b)) in Wt.
    apply swt_eq in Wt. destruct Wt as (_ & _ & _ & _ & Ma & Mb). rewrite !eval_open in Ma, Mb.
    rewrite (eval_lc M rho _ (nobs M) A LA) in Ma, Mb. 
    destruct Hw as [[-> ->]|[-> ->]]; cbn [eval scons] in Ma, Mb; auto.
  - discriminate.
  - (* negated forall *)
    sgn H. destruct E0 as [[-> Er] Ep]. apply eqb_prop in Ep.
    unfold reduce_negated_forall in H. destruct (left l) as [|?|[] A body] eqn:EL; try discriminate. fin.
    apply (is_true_eq M (anydom M) rho (nobs M)) in Er; [|exact WR]. destruct WL as (WA & TA & WB).
    destruct (G rho Hv (fun _ _ => eq_refl)) as [_ Hh]. rewrite one_holds, pos_holds in Hh.
    unfold lit_holds. rewrite Ep, EL, Er. unfold ev in *. cbn [eval tnot] in *.
    rewrite <- not_all in Hh by (intros x Hx; apply (proj2 (WB x Hx))).
    apply bnot_true in Hh; auto. apply isb_all. intros x Hx. apply (proj2 (WB x Hx)).
  - (* negated exists *)
    sgn H. destruct E0 as [[-> Er] Ep]. apply eqb_prop in Ep.
    unfold open_quantifier in H. destruct (left l) as [|?|kk A body] eqn:EL; try discriminate.
    destruct (bkind_eq_dec kk KEx) as [->|]; [|discriminate]. rewrite open_bound_spec in H. cbn [option_map] in H. fin.
    apply (is_true_eq M (anydom M) rho (nobs M)) in Er; [|exact WR]. destruct WL as (WA & TA & WB).
    unfold lit_holds. rewrite Ep, EL, Er. unfold ev. cbn [eval]. intros Hx0.
    apply ex_true in Hx0; [|intros x Hx; apply (proj2 (WB x Hx))]. destruct Hx0 as (x & Hx & Ex).
    assert (Sb : forall w, In w (vars A ++ vars body) -> w < length (context cl)).
    { intros w Hw. apply Hs. unfold lit_vars. rewrite EL, vars_bind. apply in_or_app; auto. }
    destruct (G (upd M rho (length (context cl)) x)) as [_ Hh].
    + apply push_valid; auto. intros w Hw. apply Sb. apply in_or_app; auto.
    + intros v Hl. unfold upd. destruct (Nat.eqb_spec v (length (context cl))); [lia|auto].
    + rewrite one_holds, neg_holds in Hh. apply Hh. unfold ev. rewrite eval_open. cbn [eval]. rewrite <- Ex. unfold upd at 2. rewrite Nat.eqb_refl.
      apply eval_ext; auto. intros w Hw. unfold upd. destruct (Nat.eqb_spec w (length (context cl))) as [->|]; auto.
      specialize (Sb (length (context cl))). rewrite in_app_iff in Sb. intuition lia.
  - (* not and *)
    sgn H. destruct E0 as [[-> Er] Ep]. apply eqb_prop in Ep.
    destruct (clause_split (left l) SAnd 2) as [[|x [|y [|]]]|] eqn:E1; try discriminate. fin. apply clause_split_and in E1.
    apply (is_true_eq M (anydom M) rho (nobs M)) in Er; [|exact WR]. rewrite E1 in WL. apply swt_and in WL. destruct WL as (Wx & Wy & Bx & By).
    destruct (G rho Hv (fun _ _ => eq_refl)) as [_ Hh]. rewrite two_holds, !neg_holds in Hh.
    unfold lit_holds, ev in *. rewrite Ep, E1, Er. cbn [eval tand]. rewrite band_true by auto. tauto.
  - (* or *)
    sgn H. destruct E0 as [[-> Er] Ep]. apply eqb_prop in Ep.
    destruct (clause_split (left l) SOr 2) as [[|x [|y [|]]]|] eqn:E1; try discriminate. fin. apply clause_split_or in E1.
    apply (is_true_eq M (anydom M) rho (nobs M)) in Er; [|exact WR]. rewrite E1 in WL. apply swt_or in WL. destruct WL as (Wx & Wy & Bx & By).
    destruct (G rho Hv (fun _ _ => eq_refl)) as [_ Hh]. rewrite two_holds, !pos_holds in Hh.
    unfold lit_holds, ev in *. rewrite Ep, E1, Er. cbn [eval tor]. rewrite bor_true by auto. tauto.
Qed.

Lemma complete_two fuel K cl k k' l r r' c1 c2 rho :
  replacement fuel K cl k l = Some (Some (r, c1)) -> replacement fuel K cl k' l = Some (Some (r', c2)) -> paired k k' = true ->
  respects M K -> ctx_closed (context cl) -> (forall v, In v (lit_vars l) -> v < length (context cl)) ->
  typed_literal K (context cl) l -> valid_env M (context cl) rho -> lit_wt M rho l ->
  c1 = context cl /\ c2 = context cl /\ (cholds M rho r -> cholds M rho r' -> lit_holds M rho l).
Proof.
  intros H H' Pr R Hc Hs HT Hv W.
  assert (B : bool_left K (context cl) l = Some true -> isb (ev M rho (left l)) /\ isb (ev M rho (right l))).
  { destruct W as [WL WR]. intros HB. destruct HT as ((T & TL & TR) & VL & VR & _). unfold bool_left in HB. rewrite TL in HB.
    injection HB as HB. apply term_eqb_eq in HB. subst T. split.
    - apply (typing_sound M _ K _ _ _ TL R Hc) with (rho := rho); auto. intros; apply Hs; unfold lit_vars; apply in_or_app; auto.
    - apply (typing_sound M _ K _ _ _ TR R Hc) with (rho := rho); auto. intros; apply Hs; unfold lit_vars; apply in_or_app; auto. }
  destruct W as [WL WR].
  destruct k; try discriminate Pr; destruct k'; try discriminate Pr; cbn [replacement] in H, H'.
  - destruct (clause_split (left l) SIte 4) as [[|T [|cond [|a [|b [|]]]]]|] eqn:E1; try discriminate. fin. fin.
    apply clause_split_ite in E1. split; auto. split; auto. rewrite E1 in WL.
    rewrite !two_holds, neg_holds, pos_holds, !lit_new_holds. unfold lit_holds, ev. rewrite E1. cbn [positive left right].
    destruct (ite_cases M (anydom M) rho (nobs M) T cond a b WL) as [[Ec Ei]|[Ec Ei]]; rewrite Ei; tauto.
  - destruct (clause_split (right l) SIte 4) as [[|T [|cond [|a [|b [|]]]]]|] eqn:E1; try discriminate. fin. fin.
    apply clause_split_ite in E1. split; auto. split; auto. rewrite E1 in WR.
    rewrite !two_holds, neg_holds, pos_holds, !lit_new_holds. unfold lit_holds, ev. rewrite E1. cbn [positive left right].
    destruct (ite_cases M (anydom M) rho (nobs M) T cond a b WR) as [[Ec Ei]|[Ec Ei]]; rewrite Ei; tauto.
  - sgn H. destruct E0 as [[-> Er] Ep]. apply eqb_prop in Ep.
    destruct (clause_split (left l) SAnd 2) as [[|x [|y [|]]]|] eqn:E1; try discriminate. fin. fin. split; auto. split; auto. apply clause_split_and in E1.
    apply (is_true_eq M (anydom M) rho (nobs M)) in Er; [|exact WR]. rewrite E1 in WL. apply swt_and in WL. destruct WL as (Wx & Wy & Bx & By).
    rewrite !one_holds, !pos_holds. unfold lit_holds, ev in *. rewrite Ep, E1, Er. cbn [eval tand]. rewrite band_true by auto. tauto.
  - sgn H. destruct E0 as [[-> Er] Ep]. apply eqb_prop in Ep.
    destruct (clause_split (left l) SOr 2) as [[|x [|y [|]]]|] eqn:E1; try discriminate. fin. fin. split; auto. split; auto. apply clause_split_or in E1.
    apply (is_true_eq M (anydom M) rho (nobs M)) in Er; [|exact WR]. rewrite E1 in WL. apply swt_or in WL. destruct WL as (Wx & Wy & Bx & By).
    rewrite !one_holds, !neg_holds. unfold lit_holds, ev in *. rewrite Ep, E1, Er. cbn [eval tor]. rewrite bor_true by auto. tauto.
  - sgn H. destruct E0 as [[-> Er] Ep]. apply eqb_prop in Ep. fin. fin. split; auto. split; auto.
    destruct (B eq_refl) as [BL BR]. rewrite !two_holds, !pos_holds, !neg_holds. unfold lit_holds. rewrite Ep. intros X Y.
    destruct (isb_dec M _ BL) as [EL|NL]; [destruct Y as [Y|Y]; [tauto|congruence]|].
    destruct X as [X|X]; [tauto|]. apply isb_not_true in NL; auto. apply isb_not_true in X; auto. congruence.
  - sgn H. destruct E0 as [[-> Er] Ep]. apply eqb_prop in Ep. fin. fin. split; auto. split; auto.
    destruct (B eq_refl) as [BL BR]. rewrite !two_holds, !pos_holds, !neg_holds. unfold lit_holds. rewrite Ep. intros X Y E. rewrite E in *. tauto.
Qed.
End Converse.
