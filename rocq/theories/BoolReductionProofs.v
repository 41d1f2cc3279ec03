From Coq Require Import List Arith NArith Bool Lia.
Import ListNotations.
From Verif Require Import Term LocalContext Semantics TermProofs SemFacts TermNorm TermNormProofs Kbo
  Literal Clause ClauseSem RenumberProofs ClauseProofs ClauseWf Typing TypingProofs InferenceProofs BoolReduction.

(** What the kernel keeps true of the clauses it reduces: the sides of a literal have one type and are
    values, not types or bare built-ins, and no bound variable escapes. *)
Definition typed_literal (K : kctx) (c : lctx) (l : literal) : Prop :=
  (exists T, get_type K c (left l) = Some T /\ get_type K c (right l) = Some T) /\
  valterm (left l) = true /\ valterm (right l) = true /\ lc (left l) /\ lc (right l).

Lemma clause_split_not t x : clause_split t SNot 1 = Some [x] -> t = tnot x.
Proof. intros H. apply clause_split_some in H. exact (proj1 H). Qed.
Lemma clause_split_and t x y : clause_split t SAnd 2 = Some [x; y] -> t = tand x y.
Proof. intros H. apply clause_split_some in H. exact (proj1 H). Qed.
Lemma clause_split_or t x y : clause_split t SOr 2 = Some [x; y] -> t = tor x y.
Proof. intros H. apply clause_split_some in H. exact (proj1 H). Qed.
Lemma clause_split_eq t T x y : clause_split t SEq 3 = Some [T; x; y] -> t = teq T x y.
Proof. intros H. apply clause_split_some in H. exact (proj1 H). Qed.
Lemma clause_split_ite t T c x y : clause_split t SIte 4 = Some [T; c; x; y] -> t = tite T c x y.
Proof. intros H. apply clause_split_some in H. exact (proj1 H). Qed.

Section BR.
Context (M : Model).
Notation tt := (dsym M STrue).
Notation isb d := (mem M d (dsym M SBool)).

Lemma simplify_ite_sound n : forall t t' rho bs P,
  simplify_ite n t = Some t' -> swtg M P rho bs t -> swtg M P rho bs t' /\ eval M rho bs t' = eval M rho bs t.
Proof.
  induction n as [|n IH]; intros t t' rho bs P; cbn [simplify_ite]; [discriminate|]. unfold obind.
  destruct (map_children (simplify_ite n) t) as [u|] eqn:E1; [|discriminate].
  intros H Hw.
  assert (S1 : same M P rho bs t u).
  { eapply map_children_sound; [|exact E1|exact Hw]. intros a a' bs' Ha Wa. exact (IH a a' rho bs' P Ha Wa). }
  apply (same_trans M P rho bs t u t'); auto. destruct S1 as [Wu Eu]. clear E1 Hw Eu.
  destruct (beta_head u) as [r|] eqn:E2.
  - assert (S2 : same M P rho bs u r) by (eapply beta_sound; eauto).
    apply (same_trans M P rho bs u r t'); auto. destruct S2 as [Wr _]. exact (IH r t' rho bs P H Wr).
  - destruct (clause_split u SIte 4) as [[|T [|cond [|a [|b [|]]]]]|] eqn:Es; try (injection H as <-; split; auto).
    + apply clause_split_ite in Es. subst u. pose proof Wu as Wu'. apply swt_ite in Wu'.
      destruct Wu' as (_ & Wc & Wa & Wb & _ & Bc & _).
      destruct (is_true cond) eqn:Et; [exact Wa|]. destruct (term_eqb cond tfalse); [exact Wb|].
      destruct (term_eqb a b); [exact Wa|exact Wu].
    + apply clause_split_ite in Es. subst u. pose proof Wu as Wu'. apply swt_ite in Wu'.
      destruct Wu' as (_ & Wc & Wa & Wb & _ & Bc & _). pose proof (bool_diff M) as BD.
      destruct (ite_cases M P rho bs T cond a b Wu) as [[Ec Ei]|[Ec Ei]]; rewrite Ei.
      * destruct (is_true cond); auto. destruct (term_eqb cond tfalse) eqn:Ef.
        { apply term_eqb_eq in Ef. subst. simpl in Ec. congruence. }
        destruct (term_eqb a b); auto.
      * destruct (is_true cond) eqn:Et.
        { apply (is_true_eq M P rho bs) in Et; auto. subst. simpl in Ec. congruence. }
        destruct (term_eqb cond tfalse); auto. destruct (term_eqb a b) eqn:Eab; auto.
        apply term_eqb_eq in Eab. congruence.
Qed.

Lemma pos_holds rho t : lit_holds M rho (lit_positive t) <-> ev M rho t = tt.
Proof. unfold lit_positive. rewrite lit_new_holds. reflexivity. Qed.
Lemma neg_holds rho t : lit_holds M rho (lit_negative t) <-> ev M rho t <> tt.
Proof. unfold lit_negative. rewrite lit_new_holds. reflexivity. Qed.
Lemma pos_wt rho t : lit_wt M rho (lit_positive t) <-> wt M rho t.
Proof. unfold lit_positive. rewrite lit_new_wt. split; [tauto|]. intros; split; auto. exact I. Qed.
Lemma neg_wt rho t : lit_wt M rho (lit_negative t) <-> wt M rho t.
Proof. unfold lit_negative. rewrite lit_new_wt. split; [tauto|]. intros; split; auto. exact I. Qed.

Lemma one_holds rho l : cholds M rho [l] <-> lit_holds M rho l.
Proof. unfold cholds. split; [intros (x & [<-|[]] & H); auto|]. intros H; exists l; simpl; auto. Qed.
Lemma two_holds rho l1 l2 : cholds M rho [l1; l2] <-> lit_holds M rho l1 \/ lit_holds M rho l2.
Proof.
  unfold cholds. split; [intros (x & [<-|[<-|[]]] & H); auto|].
  intros [H|H]; [exists l1|exists l2]; simpl; auto.
Qed.

Lemma push_env c A rho : valid_env M (push_type c A) rho ->
  valid_env M c rho /\ mem M (rho (length c)) (ev M rho A).
Proof.
  intros H. split.
  - intros i T HT. apply H. rewrite get_push. destruct (Nat.eqb_spec i (length c)) as [->|]; auto.
    unfold get_var_type in HT. rewrite (proj2 (nth_error_None c (length c))) in HT by lia. discriminate.
  - apply H. rewrite get_push, Nat.eqb_refl. reflexivity.
Qed.

Lemma function_inequality_sound K c l t rho :
  reduce_function_inequality K c l = Some (Some t) ->
  respects M K -> ctx_closed c -> (forall v, In v (lit_vars l) -> v < length c) -> typed_literal K c l ->
  valid_env M c rho -> tctx_wt M c rho -> lit_wt M rho l ->
  wt M rho t /\ (lit_holds M rho l -> ev M rho t = tt).
Proof.
  unfold reduce_function_inequality. destruct (positive l) eqn:Ep; [discriminate|].
  intros H R Hc Hs ((T & TL & TR) & VL & VR & LL & LR) Hv Ht [WL WR]. rewrite TL, TR in H.
  destruct (negb (term_eqb T T)); [discriminate|]. destruct T as [|?|[] A B]; try discriminate. injection H as <-.
  assert (SL : forall w, In w (vars (left l)) -> w < length c) by (intros; apply Hs; unfold lit_vars; apply in_or_app; auto).
  assert (SR : forall w, In w (vars (right l)) -> w < length c) by (intros; apply Hs; unfold lit_vars; apply in_or_app; auto).
  pose proof (typing_sound M _ K c _ _ TL R Hc SL VL rho Hv WL) as ML.
  pose proof (typing_sound M _ K c _ _ TR R Hc SR VR rho Hv WR) as MR.
  destruct (typing_wt M _ K c _ _ TL R Hc SL VL rho Hv Ht WL) as (WA & TA & WB).
  unfold ev in ML at 2, MR at 2. cbn [eval] in ML, MR.
  set (dA := eval M rho (nobs M) A) in *.
  assert (EL : forall x, eval M rho (scons x (nobs M)) (left l) = ev M rho (left l)) by (intros; apply eval_lc; auto).
  assert (ER : forall x, eval M rho (scons x (nobs M)) (right l) = ev M rho (right l)) by (intros; apply eval_lc; auto).
  assert (WE : forall x, mem M x dA ->
    swt M rho (scons x (nobs M)) (teq B (TApp (left l) (TBound 0)) (TApp (right l) (TBound 0)))).
  { intros x Hx. apply swt_eq. destruct (WB x Hx) as [WBx _].
    pose proof (pi_app M _ _ _ x ML Hx) as PL. pose proof (pi_app M _ _ _ x MR Hx) as PR. cbv beta in PL, PR.
    cbn [swtg eval scons]. rewrite EL, ER.
    repeat split; auto.
    - eapply swt_agree with (d := 0); [reflexivity|exact LL|intros; lia|exact WL].
    - eapply pi_appok; eauto.
    - eapply swt_agree with (d := 0); [reflexivity|exact LR|intros; lia|exact WR].
    - eapply pi_appok; eauto.
    - apply isty_eq. eapply mem_isty; eauto. }
  assert (BE : forall x, mem M x dA -> isb (eval M rho (scons x (nobs M)) (teq B (TApp (left l) (TBound 0)) (TApp (right l) (TBound 0))))).
  { intros x Hx. eapply isb_eq. apply WE; auto. }
  split.
  - split; [exact WA|]. split; [split; [exact (proj1 TA)|discriminate]|]. intros x Hx. split.
    + apply swt_not. split; [apply WE|apply BE]; auto.
    + cbn [tnot eval]. apply isb_not. apply BE; auto.
  - unfold lit_holds. rewrite Ep. intros Hne. unfold ev. cbn [eval]. fold dA.
    set (f := fun x => eval M rho (scons x (nobs M)) (tnot (teq B (TApp (left l) (TBound 0)) (TApp (right l) (TBound 0))))).
    assert (Bf : forall x, mem M x dA -> isb (f x)) by (intros x Hx; unfold f; cbn [tnot eval]; apply isb_not, BE; auto).
    destruct (isb_dec M _ (isb_ex M dA f Bf)) as [|N]; auto. exfalso. apply Hne.
    eapply pi_ext; [exact ML|exact MR|]. intros x Hx.
    destruct (val_dec M (dapp M (ev M rho (left l)) x) (dapp M (ev M rho (right l)) x)) as [|Nx]; auto.
    exfalso. apply N. apply ex_true; auto. exists x. split; auto. unfold f. cbn [tnot eval].
    apply bnot_true; [apply BE; auto|]. intros E. apply Nx.
    apply (eq_true M (anydom M)) in E; [|apply WE; auto]. cbn [eval scons] in E. rewrite EL, ER in E. exact E.
Qed.

Lemma obvious_witness_sound rho t u : reduce_exists_with_obvious_witness t = Some (Some u) -> wt M rho t ->
  ev M rho t = tt -> wt M rho u /\ ev M rho u = tt.
Proof.
  unfold reduce_exists_with_obvious_witness.
  destruct t as [|?|[] A body]; try discriminate.
  destruct (clause_split body SEq 3) as [[|T [|a [|b [|]]]]|] eqn:Es; try discriminate.
  apply clause_split_eq in Es. subst body.
  set (w := if term_eqb a (TBound 0) then Some b else if term_eqb b (TBound 0) then Some a else None).
  assert (Hw : forall v, w = Some v -> (a = TBound 0 /\ v = b) \/ (b = TBound 0 /\ v = a)).
  { unfold w. intros v. destruct (term_eqb a (TBound 0)) eqn:E1; [apply term_eqb_eq in E1; intros H; injection H as <-; auto|].
    destruct (term_eqb b (TBound 0)) eqn:E2; [apply term_eqb_eq in E2; intros H; injection H as <-; auto|discriminate]. }
  destruct w as [v|]; [|discriminate]. specialize (Hw v eq_refl).
  destruct (has_bound_variable v) eqn:Hb; [discriminate|]. rewrite open_bound_spec. intros H; injection H as <-.
  change (wt M rho (TBind KEx A (teq T a b)) -> ev M rho (TBind KEx A (teq T a b)) = tt ->
          wt M rho (open_at 0 v (teq T a b)) /\ ev M rho (open_at 0 v (teq T a b)) = tt).
  intros (WA & TA & WB) Ht.
  assert (Lv : lc v) by (apply no_bound_lc; auto).
  assert (Ev : forall x, eval M rho (scons x (nobs M)) v = ev M rho v) by (intros; apply eval_lc; auto).
  unfold ev in Ht. cbn [eval] in Ht. apply ex_true in Ht; [|intros x Hx; apply (proj2 (WB x Hx))].
  destruct Ht as (x & Hx & Ex). destruct (WB x Hx) as [Wx _]. pose proof Ex as Ex'.
  apply (eq_true M (anydom M)) in Ex'; auto.
  assert (Exv : ev M rho v = x).
  { destruct Hw as [[-> ->]|[-> ->]]; cbn [eval scons] in Ex'; rewrite Ev in Ex'; auto. }
  pose proof Wx as Wx'. apply swt_eq in Wx'. destruct Wx' as (_ & Wa & Wb & _).
  assert (Wv : wt M rho v).
  { eapply swt_agree with (bs1 := scons x (nobs M)) (d := 0); [reflexivity|exact Lv|intros; lia|].
    destruct Hw as [[-> ->]|[-> ->]]; auto. }
  split.
  - apply swt_open; [exact Wv|]. unfold ev in Exv. rewrite Exv. exact Wx.
  - unfold ev. rewrite eval_open. unfold ev in Exv. rewrite Exv. exact Ex.
Qed.

(** The replaced literal implies the replacing ones, under the assignments of the new context. *)
Ltac fin := match goal with
  | H : Some None = Some (Some _) |- _ => discriminate
  | H : None = Some (Some _) |- _ => discriminate
  | H : Some (Some (_, _)) = Some (Some (_, _)) |- _ => injection H as <- <-
  end.

Lemma replacement_sound fuel K cl k l r c' rho :
  replacement fuel K cl k l = Some (Some (r, c')) ->
  respects M K -> ctx_closed (context cl) -> (forall v, In v (lit_vars l) -> v < length (context cl)) ->
  typed_literal K (context cl) l -> In l (literals cl) -> valid_env M c' rho ->
  valid_env M (context cl) rho /\
  ((literals cl = [l] -> lit_holds M rho l) -> tctx_wt M (context cl) rho -> lit_wt M rho l ->
   (forall x, In x r -> lit_wt M rho x) /\ (lit_holds M rho l -> cholds M rho r)).
Proof.
  intros H R Hc Hs HT Hin Hv.
  assert (B : valid_env M (context cl) rho ->
              lit_wt M rho l -> bool_left K (context cl) l = Some true -> isb (ev M rho (left l)) /\ isb (ev M rho (right l))).
  { intros Hv' [WL WR] HB. destruct HT as ((T & TL & TR) & VL & VR & _). unfold bool_left in HB. rewrite TL in HB.
    injection HB as HB. apply term_eqb_eq in HB. subst T. split.
    - apply (typing_sound M _ K _ _ _ TL R Hc) with (rho := rho); auto. intros; apply Hs; unfold lit_vars; apply in_or_app; auto.
    - apply (typing_sound M _ K _ _ _ TR R Hc) with (rho := rho); auto. intros; apply Hs; unfold lit_vars; apply in_or_app; auto. }
  destruct k; cbn [replacement] in H.
  - (* false literal *)
    destruct (negb (is_signed_term l) || (negb (is_true (left l)) && negb (term_eqb (left l) tfalse))) eqn:E1; [discriminate|].
    destruct (if is_true (left l) then positive l else negb (positive l)) eqn:E2; [discriminate|]. fin.
    split; auto. intros _ _ [WL WR]. split; [intros x []|]. intros Hl. exfalso.
    apply orb_false_iff in E1. destruct E1 as [E1 E3]. apply negb_false_iff in E1. unfold is_signed_term in E1.
    apply (is_true_eq M (anydom M) rho (nobs M)) in E1; [|exact WR]. unfold lit_holds in Hl. rewrite E1 in Hl.
    destruct (is_true (left l)) eqn:E4.
    + apply (is_true_eq M (anydom M) rho (nobs M)) in E4; [|exact WL]. rewrite E2, E4 in Hl. auto.
    + apply negb_false_iff in E2, E3. apply term_eqb_eq in E3. rewrite E2, E3 in Hl.
      apply (bool_diff M). symmetry. exact Hl.
  - (* simplify left *)
    destruct (simplify_ite fuel (left l)) as [t|] eqn:E1; [|discriminate]. destruct (term_eqb t (left l)); [discriminate|]. fin.
    split; auto. intros _ _ [WL WR]. destruct (simplify_ite_sound _ _ _ rho (nobs M) (anydom M) E1 WL) as [Wt Et].
    split; [intros x [<-|[]]; apply lit_new_wt; auto|]. rewrite one_holds, lit_new_holds. unfold lit_holds, ev; simpl. rewrite Et. auto.
  - (* simplify right *)
    destruct (simplify_ite fuel (right l)) as [t|] eqn:E1; [|discriminate]. destruct (term_eqb t (right l)); [discriminate|]. fin.
    split; auto. intros _ _ [WL WR]. destruct (simplify_ite_sound _ _ _ rho (nobs M) (anydom M) E1 WR) as [Wt Et].
    split; [intros x [<-|[]]; apply lit_new_wt; auto|]. rewrite one_holds, lit_new_holds. unfold lit_holds, ev; simpl. rewrite Et. auto.
  - (* then left *)
    destruct (clause_split (left l) SIte 4) as [[|T [|cond [|a [|b [|]]]]]|] eqn:E1; try discriminate. fin.
    apply clause_split_ite in E1. split; auto. intros _ _ [WL WR]. rewrite E1 in WL.
    pose proof WL as WL'. apply swt_ite in WL'. destruct WL' as (_ & Wc & Wa & Wb & _).
    split; [intros x [<-|[<-|[]]]; [apply neg_wt; exact Wc|apply lit_new_wt; split; auto]|].
    rewrite two_holds, neg_holds, lit_new_holds. unfold lit_holds, ev. rewrite E1. cbn [positive left right].
    destruct (ite_cases M (anydom M) rho (nobs M) T cond a b WL) as [[Ec Ei]|[Ec Ei]]; rewrite Ei; auto.
  - destruct (clause_split (left l) SIte 4) as [[|T [|cond [|a [|b [|]]]]]|] eqn:E1; try discriminate. fin.
    apply clause_split_ite in E1. split; auto. intros _ _ [WL WR]. rewrite E1 in WL.
    pose proof WL as WL'. apply swt_ite in WL'. destruct WL' as (_ & Wc & Wa & Wb & _).
    split; [intros x [<-|[<-|[]]]; [apply pos_wt; exact Wc|apply lit_new_wt; split; auto]|].
    rewrite two_holds, pos_holds, lit_new_holds. unfold lit_holds, ev. rewrite E1. cbn [positive left right].
    destruct (ite_cases M (anydom M) rho (nobs M) T cond a b WL) as [[Ec Ei]|[Ec Ei]]; rewrite Ei; auto.
  - destruct (clause_split (right l) SIte 4) as [[|T [|cond [|a [|b [|]]]]]|] eqn:E1; try discriminate. fin.
    apply clause_split_ite in E1. split; auto. intros _ _ [WL WR]. rewrite E1 in WR.
    pose proof WR as WR'. apply swt_ite in WR'. destruct WR' as (_ & Wc & Wa & Wb & _).
    split; [intros x [<-|[<-|[]]]; [apply neg_wt; exact Wc|apply lit_new_wt; split; auto]|].
    rewrite two_holds, neg_holds, lit_new_holds. unfold lit_holds, ev. rewrite E1. cbn [positive left right].
    destruct (ite_cases M (anydom M) rho (nobs M) T cond a b WR) as [[Ec Ei]|[Ec Ei]]; rewrite Ei; auto.
  - destruct (clause_split (right l) SIte 4) as [[|T [|cond [|a [|b [|]]]]]|] eqn:E1; try discriminate. fin.
    apply clause_split_ite in E1. split; auto. intros _ _ [WL WR]. rewrite E1 in WR.
    pose proof WR as WR'. apply swt_ite in WR'. destruct WR' as (_ & Wc & Wa & Wb & _).
    split; [intros x [<-|[<-|[]]]; [apply pos_wt; exact Wc|apply lit_new_wt; split; auto]|].
    rewrite two_holds, pos_holds, lit_new_holds. unfold lit_holds, ev. rewrite E1. cbn [positive left right].
    destruct (ite_cases M (anydom M) rho (nobs M) T cond a b WR) as [[Ec Ei]|[Ec Ei]]; rewrite Ei; auto.
  - (* function inequality *)
    destruct (reduce_function_inequality K (context cl) l) as [[t|]|] eqn:E1; try discriminate. fin.
    split; auto. intros _ Ht Hw. destruct (function_inequality_sound _ _ _ _ rho E1 R Hc Hs HT Hv Ht Hw) as [Wt Et].
    split; [intros x [<-|[]]; apply pos_wt; auto|]. rewrite one_holds, pos_holds. auto.
  - (* not *)
    destruct (bool_left K (context cl) l) as [b|] eqn:EB; [|discriminate].
    destruct (b && is_true (right l) && true) eqn:E0; [|discriminate]. rewrite andb_true_r, andb_true_iff in E0. destruct E0 as [-> Er].
    destruct (clause_split (left l) SNot 1) as [[|x [|]]|] eqn:E1; try discriminate. fin.
    apply clause_split_not in E1. split; auto. intros _ _ [WL WR].
    apply (is_true_eq M (anydom M) rho (nobs M)) in Er; [|exact WR]. rewrite E1 in WL. apply swt_not in WL. destruct WL as [Wx Bx].
    split; [intros y [<-|[]]; apply lit_new_wt; split; auto; exact I|].
    rewrite one_holds. unfold from_signed_term. rewrite lit_new_holds. unfold lit_holds, ev. rewrite E1, Er. cbn [positive left right tnot eval].
    pose proof (bnot_true M _ Bx) as Hn. destruct (positive l); simpl; [tauto|]. intros N.
    destruct (isb_dec M _ Bx) as [|N']; auto. exfalso. apply N. apply Hn; auto.
  - (* eq *)
    destruct (bool_left K (context cl) l) as [b|] eqn:EB; [|discriminate].
    destruct (b && is_true (right l) && true) eqn:E0; [|discriminate]. rewrite andb_true_r, andb_true_iff in E0. destruct E0 as [-> Er].
    destruct (clause_split (left l) SEq 3) as [[|T [|x [|y [|]]]]|] eqn:E1; try discriminate. fin.
    apply clause_split_eq in E1. split; auto. intros _ _ [WL WR].
    apply (is_true_eq M (anydom M) rho (nobs M)) in Er; [|exact WR]. rewrite E1 in WL. pose proof (eq_true M (anydom M) rho (nobs M) T x y WL) as Hq.
    apply swt_eq in WL. destruct WL as (_ & Wx & Wy & _).
    split; [intros z [<-|[]]; apply lit_new_wt; split; auto|].
    rewrite one_holds, lit_new_holds. unfold lit_holds, ev. rewrite E1, Er. cbn [positive left right].
    destruct (positive l); [exact (proj1 Hq)|]. intros N E. apply N. apply Hq; auto.
  - (* forall *)
    destruct (bool_left K (context cl) l) as [b|] eqn:EB; [|discriminate].
    destruct (b && is_true (right l) && Bool.eqb (positive l) true) eqn:E0; [|discriminate].
    rewrite !andb_true_iff in E0. destruct E0 as [[-> Er] Ep]. apply eqb_prop in Ep.
    unfold open_quantifier in H. destruct (left l) as [|?|kk A body] eqn:EL; try discriminate.
    destruct (bkind_eq_dec kk KAll) as [->|]; [|discriminate]. rewrite open_bound_spec in H. cbn [option_map] in H. fin.
    apply push_env in Hv. destruct Hv as [Hv Hm]. split; auto. intros _ _ [WL WR].
    apply (is_true_eq M (anydom M) rho (nobs M)) in Er; [|exact WR]. rewrite EL in WL. destruct WL as (WA & TA & WB).
    destruct (WB _ Hm) as [Wb Bb].
    split; [intros z [<-|[]]; apply pos_wt; apply swt_open; [exact I|exact Wb]|].
    rewrite one_holds, pos_holds. unfold lit_holds. rewrite Ep, EL, Er. unfold ev. rewrite eval_open. cbn [eval].
    intros Ha. apply (proj1 (all_true M _ _ (fun x Hx => proj2 (WB x Hx))) Ha). exact Hm.
  - (* obvious witness *)
    destruct (bool_left K (context cl) l) as [b|] eqn:EB; [|discriminate].
    destruct (b && is_true (right l) && Bool.eqb (positive l) true) eqn:E0; [|discriminate].
    rewrite !andb_true_iff in E0. destruct E0 as [[-> Er] Ep]. apply eqb_prop in Ep.
    destruct (Nat.ltb 1 (length (literals cl)) && match left l with TBind KEx _ _ => true | _ => false end) eqn:E2; [discriminate|].
    destruct (reduce_exists_with_obvious_witness (left l)) as [[t|]|] eqn:E1; try discriminate. fin.
    split; auto. intros H1 _ [WL WR]. apply (is_true_eq M (anydom M) rho (nobs M)) in Er; [|exact WR].
    assert (G : lit_holds M rho l -> wt M rho t /\ ev M rho t = tt).
    { unfold lit_holds. rewrite Ep, Er. apply obvious_witness_sound; auto. }
    assert (L : literals cl = [l]).
    { unfold reduce_exists_with_obvious_witness in E1. destruct (left l) as [|?|[] ? ?]; try discriminate.
      rewrite andb_true_r in E2. apply Nat.ltb_ge in E2. destruct (literals cl) as [|x [|]]; simpl in *; try lia; try tauto.
      destruct Hin as [->|[]]; auto. }
    specialize (G (H1 L)). destruct G as [G1 G2]. split.
    + intros x [<-|[]]. apply pos_wt; auto.
    + intros _. rewrite one_holds, pos_holds. auto.
  - discriminate.
  - (* negated forall *)
    destruct (bool_left K (context cl) l) as [b|] eqn:EB; [|discriminate].
    destruct (b && is_true (right l) && Bool.eqb (positive l) false) eqn:E0; [|discriminate].
    rewrite !andb_true_iff in E0. destruct E0 as [[-> Er] Ep]. apply eqb_prop in Ep.
    unfold reduce_negated_forall in H. destruct (left l) as [|?|[] A body] eqn:EL; try discriminate. fin.
    split; auto. intros _ _ [WL WR].
    apply (is_true_eq M (anydom M) rho (nobs M)) in Er; [|exact WR]. rewrite EL in WL. destruct WL as (WA & TA & WB).
    split.
    + intros z [<-|[]]. apply pos_wt. split; [exact WA|]. split; [split; [exact (proj1 TA)|discriminate]|].
      intros x Hx. destruct (WB x Hx) as [Wb Bb]. split; [apply swt_not; auto|]. cbn [tnot eval]. apply isb_not; auto.
    + rewrite one_holds, pos_holds. unfold lit_holds. rewrite Ep, EL, Er. unfold ev. cbn [eval tnot].
      intros Ha. rewrite <- not_all by (intros x Hx; apply (proj2 (WB x Hx))).
      apply bnot_true; auto. apply isb_all. intros x Hx. apply (proj2 (WB x Hx)).
  - (* negated exists *)
    destruct (bool_left K (context cl) l) as [b|] eqn:EB; [|discriminate].
    destruct (b && is_true (right l) && Bool.eqb (positive l) false) eqn:E0; [|discriminate].
    rewrite !andb_true_iff in E0. destruct E0 as [[-> Er] Ep]. apply eqb_prop in Ep.
    unfold open_quantifier in H. destruct (left l) as [|?|kk A body] eqn:EL; try discriminate.
    destruct (bkind_eq_dec kk KEx) as [->|]; [|discriminate]. rewrite open_bound_spec in H. cbn [option_map] in H. fin.
    apply push_env in Hv. destruct Hv as [Hv Hm]. split; auto. intros _ _ [WL WR].
    apply (is_true_eq M (anydom M) rho (nobs M)) in Er; [|exact WR]. rewrite EL in WL. destruct WL as (WA & TA & WB).
    destruct (WB _ Hm) as [Wb Bb].
    split; [intros z [<-|[]]; apply neg_wt; apply swt_open; [exact I|exact Wb]|].
    rewrite one_holds, neg_holds. unfold lit_holds. rewrite Ep, EL, Er. unfold ev. rewrite eval_open. cbn [eval].
    intros Ha Hb. apply Ha. apply (ex_true M _ _ (fun x Hx => proj2 (WB x Hx))). exists (rho (length (context cl))). auto.
  - destruct (bool_left K (context cl) l) as [b|] eqn:EB; [|discriminate].
    destruct (b && is_true (right l) && Bool.eqb (positive l) true) eqn:E0; [|discriminate].
    rewrite !andb_true_iff in E0. destruct E0 as [[-> Er] Ep]. apply eqb_prop in Ep.
    destruct (clause_split (left l) SAnd 2) as [[|x [|y [|]]]|] eqn:E1; try discriminate. fin.
    apply clause_split_and in E1. split; auto. intros _ _ [WL WR].
    apply (is_true_eq M (anydom M) rho (nobs M)) in Er; [|exact WR]. rewrite E1 in WL. apply swt_and in WL. destruct WL as (Wx & Wy & Bx & By).
    split; [intros z [<-|[]]; apply pos_wt; auto|].
    rewrite one_holds, pos_holds. unfold lit_holds, ev. rewrite Ep, E1, Er. cbn [eval tand].
    rewrite band_true by auto. tauto.
  - destruct (bool_left K (context cl) l) as [b|] eqn:EB; [|discriminate].
    destruct (b && is_true (right l) && Bool.eqb (positive l) true) eqn:E0; [|discriminate].
    rewrite !andb_true_iff in E0. destruct E0 as [[-> Er] Ep]. apply eqb_prop in Ep.
    destruct (clause_split (left l) SAnd 2) as [[|x [|y [|]]]|] eqn:E1; try discriminate. fin.
    apply clause_split_and in E1. split; auto. intros _ _ [WL WR].
    apply (is_true_eq M (anydom M) rho (nobs M)) in Er; [|exact WR]. rewrite E1 in WL. apply swt_and in WL. destruct WL as (Wx & Wy & Bx & By).
    split; [intros z [<-|[]]; apply pos_wt; auto|].
    rewrite one_holds, pos_holds. unfold lit_holds, ev. rewrite Ep, E1, Er. cbn [eval tand].
    rewrite band_true by auto. tauto.
  - destruct (bool_left K (context cl) l) as [b|] eqn:EB; [|discriminate].
    destruct (b && is_true (right l) && Bool.eqb (positive l) false) eqn:E0; [|discriminate].
    rewrite !andb_true_iff in E0. destruct E0 as [[-> Er] Ep]. apply eqb_prop in Ep.
    destruct (clause_split (left l) SAnd 2) as [[|x [|y [|]]]|] eqn:E1; try discriminate. fin.
    apply clause_split_and in E1. split; auto. intros _ _ [WL WR].
    apply (is_true_eq M (anydom M) rho (nobs M)) in Er; [|exact WR]. rewrite E1 in WL. apply swt_and in WL. destruct WL as (Wx & Wy & Bx & By).
    split; [intros z [<-|[<-|[]]]; apply neg_wt; auto|].
    rewrite two_holds, !neg_holds. unfold lit_holds, ev. rewrite Ep, E1, Er. cbn [eval tand].
    rewrite band_true by auto. destruct (isb_dec M _ Bx), (isb_dec M _ By); tauto.
  - destruct (bool_left K (context cl) l) as [b|] eqn:EB; [|discriminate].
    destruct (b && is_true (right l) && Bool.eqb (positive l) true) eqn:E0; [|discriminate].
    rewrite !andb_true_iff in E0. destruct E0 as [[-> Er] Ep]. apply eqb_prop in Ep.
    destruct (clause_split (left l) SOr 2) as [[|x [|y [|]]]|] eqn:E1; try discriminate. fin.
    apply clause_split_or in E1. split; auto. intros _ _ [WL WR].
    apply (is_true_eq M (anydom M) rho (nobs M)) in Er; [|exact WR]. rewrite E1 in WL. apply swt_or in WL. destruct WL as (Wx & Wy & Bx & By).
    split; [intros z [<-|[<-|[]]]; apply pos_wt; auto|].
    rewrite two_holds, !pos_holds. unfold lit_holds, ev. rewrite Ep, E1, Er. cbn [eval tor].
    rewrite bor_true by auto. tauto.
  - destruct (bool_left K (context cl) l) as [b|] eqn:EB; [|discriminate].
    destruct (b && is_true (right l) && Bool.eqb (positive l) false) eqn:E0; [|discriminate].
    rewrite !andb_true_iff in E0. destruct E0 as [[-> Er] Ep]. apply eqb_prop in Ep.
    destruct (clause_split (left l) SOr 2) as [[|x [|y [|]]]|] eqn:E1; try discriminate. fin.
    apply clause_split_or in E1. split; auto. intros _ _ [WL WR].
    apply (is_true_eq M (anydom M) rho (nobs M)) in Er; [|exact WR]. rewrite E1 in WL. apply swt_or in WL. destruct WL as (Wx & Wy & Bx & By).
    split; [intros z [<-|[]]; apply neg_wt; auto|].
    rewrite one_holds, neg_holds. unfold lit_holds, ev. rewrite Ep, E1, Er. cbn [eval tor].
    rewrite bor_true by auto. tauto.
  - destruct (bool_left K (context cl) l) as [b|] eqn:EB; [|discriminate].
    destruct (b && is_true (right l) && Bool.eqb (positive l) false) eqn:E0; [|discriminate].
    rewrite !andb_true_iff in E0. destruct E0 as [[-> Er] Ep]. apply eqb_prop in Ep.
    destruct (clause_split (left l) SOr 2) as [[|x [|y [|]]]|] eqn:E1; try discriminate. fin.
    apply clause_split_or in E1. split; auto. intros _ _ [WL WR].
    apply (is_true_eq M (anydom M) rho (nobs M)) in Er; [|exact WR]. rewrite E1 in WL. apply swt_or in WL. destruct WL as (Wx & Wy & Bx & By).
    split; [intros z [<-|[]]; apply neg_wt; auto|].
    rewrite one_holds, neg_holds. unfold lit_holds, ev. rewrite Ep, E1, Er. cbn [eval tor].
    rewrite bor_true by auto. tauto.
  - destruct (bool_left K (context cl) l) as [b|] eqn:EB; [|discriminate].
    destruct (b && negb (is_true (right l)) && Bool.eqb (positive l) true) eqn:E0; [|discriminate].
    rewrite !andb_true_iff in E0. destruct E0 as [[-> Er] Ep]. apply eqb_prop in Ep. fin.
    split; auto. intros _ _ [WL WR]. split; [intros z [<-|[<-|[]]]; [apply pos_wt|apply neg_wt]; auto|].
    rewrite two_holds, pos_holds, neg_holds. unfold lit_holds. rewrite Ep. intros E.
    destruct (val_dec M (ev M rho (left l)) tt); auto. right. congruence.
  - destruct (bool_left K (context cl) l) as [b|] eqn:EB; [|discriminate].
    destruct (b && negb (is_true (right l)) && Bool.eqb (positive l) true) eqn:E0; [|discriminate].
    rewrite !andb_true_iff in E0. destruct E0 as [[-> Er] Ep]. apply eqb_prop in Ep. fin.
    split; auto. intros _ _ [WL WR]. split; [intros z [<-|[<-|[]]]; [apply neg_wt|apply pos_wt]; auto|].
    rewrite two_holds, pos_holds, neg_holds. unfold lit_holds. rewrite Ep. intros E.
    destruct (val_dec M (ev M rho (right l)) tt); auto. left. congruence.
  - destruct (bool_left K (context cl) l) as [b|] eqn:EB; [|discriminate].
    destruct (b && negb (is_true (right l)) && Bool.eqb (positive l) false) eqn:E0; [|discriminate].
    rewrite !andb_true_iff in E0. destruct E0 as [[-> Er] Ep]. apply eqb_prop in Ep. fin.
    split; auto. intros _ _ [WL WR]. split; [intros z [<-|[<-|[]]]; apply neg_wt; auto|].
    rewrite two_holds, !neg_holds. unfold lit_holds. rewrite Ep. intros E.
    destruct (val_dec M (ev M rho (left l)) tt) as [EL|]; auto. right. congruence.
  - destruct (bool_left K (context cl) l) as [b|] eqn:EB; [|discriminate].
    destruct (b && negb (is_true (right l)) && Bool.eqb (positive l) false) eqn:E0; [|discriminate].
    rewrite !andb_true_iff in E0. destruct E0 as [[-> Er] Ep]. apply eqb_prop in Ep. fin.
    split; auto. intros _ _ W. destruct (B Hv W eq_refl) as [BL BR]. destruct W as [WL WR].
    split; [intros z [<-|[<-|[]]]; apply pos_wt; auto|].
    rewrite two_holds, !pos_holds. unfold lit_holds. rewrite Ep. intros E.
    destruct (isb_dec M _ BL) as [|NL]; auto. destruct (isb_dec M _ BR) as [|NR]; auto. exfalso. apply E.
    apply isb_not_true in NL; auto. apply isb_not_true in NR; auto. congruence.
Qed.

(** The premise's conditions, in one place. *)
Record reducible (K : kctx) (cl : clause) : Prop := {
  rd_scoped : scoped cl;
  rd_wt : clause_wt M cl;
  rd_types : forall rho, valid_env M (context cl) rho -> tctx_wt M (context cl) rho;
  rd_typed : forall l, In l (literals cl) -> typed_literal K (context cl) l
}.

Lemma reduced_literals_sound fuel K cl k i ls c :
  reduced_literals fuel K cl k i = Some (Some (ls, c)) -> respects M K -> reducible K cl -> valid M cl ->
  valid M (Clause ls c) /\ clause_wt M (Clause ls c).
Proof.
  unfold reduced_literals. destruct (nth_error (literals cl) i) as [l|] eqn:El; [|discriminate].
  destruct (replacement fuel K cl k l) as [[[r c1]|]|] eqn:Er; simpl; try discriminate.
  intros H R RD Hval. injection H as <- <-.
  pose proof (nth_error_In _ _ El) as Hin. destruct (scoped_ctx _ (rd_scoped _ _ RD)) as [Hc Hlen].
  assert (SS : forall rho, valid_env M c1 rho -> valid_env M (context cl) rho /\
    (forall x, In x r -> lit_wt M rho x) /\ (lit_holds M rho l -> cholds M rho r)).
  { intros rho Hv. destruct (replacement_sound _ _ _ _ _ _ _ rho Er R Hc (fun v => Hlen l v Hin) (rd_typed _ _ RD l Hin) Hin Hv) as [Hv' G].
    split; auto. apply G; auto.
    - intros E. destruct (Hval rho Hv') as (x & Hx & Hh). rewrite E in Hx. destruct Hx as [<-|[]]; auto.
    - apply (rd_types _ _ RD); auto.
    - apply (rd_wt _ _ RD); auto. }
  assert (Sp : literals cl = firstn i (literals cl) ++ l :: skipn (S i) (literals cl)).
  { clear -El. revert i El. induction (literals cl) as [|x ls IH]; intros [|i] El; simpl in *; try discriminate.
    - injection El as ->; auto.
    - rewrite <- IH; auto. }
  unfold with_replaced_literal. split.
  - intros rho Hv. cbn [context literals] in *. destruct (SS rho Hv) as (Hv' & _ & Hh).
    destruct (Hval rho Hv') as (x & Hx & Hx'). rewrite Sp in Hx. apply in_app_or in Hx. destruct Hx as [Hx|[<-|Hx]].
    + exists x. split; auto. apply in_or_app; auto.
    + destruct (Hh Hx') as (y & Hy & Hy'). exists y. split; auto. apply in_or_app; right; apply in_or_app; auto.
    + exists x. split; auto. apply in_or_app; right; apply in_or_app; auto.
  - intros rho Hv x Hx. cbn [context literals] in *. destruct (SS rho Hv) as (Hv' & Hw & _).
    apply in_app_or in Hx. destruct Hx as [Hx|Hx]; [apply (rd_wt _ _ RD rho Hv'); rewrite Sp; apply in_or_app; auto|].
    apply in_app_or in Hx. destruct Hx as [Hx|Hx]; auto. apply (rd_wt _ _ RD rho Hv'). rewrite Sp. apply in_or_app; right; right; auto.
Qed.
End BR.

Lemma normalize_reduction_faithful ls c old cl ids c0 :
  normalize_boolean_reduction ls c old = Some (cl, ids, c0) -> faithful (Clause ls c) cl ids /\ c0 = c.
Proof.
  unfold normalize_boolean_reduction. destruct (normalize_with_trace ls c) as [[d i]|] eqn:E; [|discriminate].
  destruct (normalize_with_var_ids_prefilled ls c (filter (fun v => Nat.ltb v old) i)) as [[d' i']|] eqn:E2; [|discriminate].
  intros H. injection H as <- <- <-. split; auto. eapply prefilled_faithful; [|exact E2].
  apply NoDup_filter. assert (F : faithful (Clause ls c) d i) by (eapply prefilled_faithful; [constructor|exact E]).
  apply (f_nodup _ _ _ F).
Qed.

Lemma app_res_in {A} (a b : option (list A)) l x : app_res a b = Some l -> In x l ->
  (exists l1, a = Some l1 /\ In x l1) \/ (exists l2, b = Some l2 /\ In x l2).
Proof.
  destruct a as [l1|], b as [l2|]; simpl; try discriminate. intros H; injection H as <-. intros Hx.
  apply in_app_or in Hx. destruct Hx; eauto.
Qed.

Lemma find_for_literal_at fuel K cl l found k r : find_for_literal fuel K cl l = Some found -> In (k, r) found ->
  replacement fuel K cl k l = Some (Some r).
Proof.
  unfold find_for_literal. intros H Hin.
  destruct (is_signed_term l && (is_true (left l) || term_eqb (left l) tfalse)) eqn:E0.
  { injection H as <-. apply andb_true_iff in E0. destruct E0 as [Es Ef].
    destruct (if is_true (left l) then positive l else negb (positive l)) eqn:E1; [contradiction|].
    destruct Hin as [Hin|[]]. injection Hin as <- <-. cbn [replacement]. rewrite Es, E1.
    destruct (is_true (left l)); simpl; auto. simpl in Ef. rewrite Ef. auto. }
  clear E0.
  apply (app_res_in _ _ _ _ H) in Hin. clear H. destruct Hin as [(l1 & H & Hin)|(l1 & H & Hin)].
  { destruct (simplify_ite fuel (left l)) as [t|] eqn:E; [|discriminate]. injection H as <-.
    destruct (term_eqb t (left l)) eqn:Et; [contradiction|]. destruct Hin as [Hin|[]]. injection Hin as <- <-.
    cbn [replacement]. rewrite E, Et. auto. }
  apply (app_res_in _ _ _ _ H) in Hin. clear H l1. destruct Hin as [(l1 & H & Hin)|(l1 & H & Hin)].
  { destruct (simplify_ite fuel (right l)) as [t|] eqn:E; [|discriminate]. injection H as <-.
    destruct (term_eqb t (right l)) eqn:Et; [contradiction|]. destruct Hin as [Hin|[]]. injection Hin as <- <-.
    cbn [replacement]. rewrite E, Et. auto. }
  apply (app_res_in _ _ _ _ H) in Hin. clear H l1. destruct Hin as [(l1 & H & Hin)|(l1 & H & Hin)].
  { injection H as <-. destruct (clause_split (left l) SIte 4) as [[|T [|cond [|a [|b [|]]]]]|] eqn:E1; try contradiction.
    destruct Hin as [Hin|[Hin|[]]]; injection Hin as <- <-; cbn [replacement]; rewrite E1; auto. }
  apply (app_res_in _ _ _ _ H) in Hin. clear H l1. destruct Hin as [(l1 & H & Hin)|(l1 & H & Hin)].
  { injection H as <-. destruct (clause_split (right l) SIte 4) as [[|T [|cond [|a [|b [|]]]]]|] eqn:E1; try contradiction.
    destruct Hin as [Hin|[Hin|[]]]; injection Hin as <- <-; cbn [replacement]; rewrite E1; auto. }
  apply (app_res_in _ _ _ _ H) in Hin. clear H l1. destruct Hin as [(l1 & H & Hin)|(l1 & H & Hin)].
  { destruct (reduce_function_inequality K (context cl) l) as [[t|]|] eqn:E; try discriminate; injection H as <-; [|contradiction].
    destruct Hin as [Hin|[]]. injection Hin as <- <-. cbn [replacement]. rewrite E. auto. }
  destruct (bool_left K (context cl) l) as [[]|] eqn:EB; [|injection H as <-; contradiction|discriminate].
  destruct (is_true (right l)) eqn:Er.
  2: { destruct (positive l) eqn:Ep; injection H as <-; destruct Hin as [Hin|[Hin|[]]]; injection Hin as <- <-;
       cbn [replacement]; rewrite EB, Er, Ep; auto. }
  assert (C : forall l2,
     match clause_split (left l) SAnd 2 with
     | Some [x; y] =>
       Some (if positive l then [(PositiveAndLeft, ([lit_positive x], context cl))] ++ [(PositiveAndRight, ([lit_positive y], context cl))]
             else [(NegativeAnd, ([lit_negative x; lit_negative y], context cl))])
     | _ =>
     match clause_split (left l) SOr 2 with
     | Some [x; y] =>
       Some (if positive l then [(PositiveOr, ([lit_positive x; lit_positive y], context cl))]
             else [(NegativeOrLeft, ([lit_negative x], context cl))] ++ [(NegativeOrRight, ([lit_negative y], context cl))])
     | _ => Some []
     end end = Some l2 -> In (k, r) l2 -> replacement fuel K cl k l = Some (Some r)).
  { intros l2 H2 Hin2.
    assert (O : match clause_split (left l) SOr 2 with
     | Some [x; y] =>
       Some (if positive l then [(PositiveOr, ([lit_positive x; lit_positive y], context cl))]
             else [(NegativeOrLeft, ([lit_negative x], context cl))] ++ [(NegativeOrRight, ([lit_negative y], context cl))])
     | _ => Some []
     end = Some l2 -> replacement fuel K cl k l = Some (Some r)).
    { intros H3. destruct (clause_split (left l) SOr 2) as [[|x [|y [|]]]|] eqn:E1; try (injection H3 as <-; contradiction).
      destruct (positive l) eqn:Ep; injection H3 as <-; simpl in Hin2; repeat destruct Hin2 as [Hin2|Hin2]; try contradiction;
        injection Hin2 as <- <-; cbn [replacement]; rewrite EB, Er, Ep, E1; auto. }
    destruct (clause_split (left l) SAnd 2) as [[|x [|y [|]]]|] eqn:E1; auto.
    destruct (positive l) eqn:Ep; injection H2 as <-; simpl in Hin2; repeat destruct Hin2 as [Hin2|Hin2]; try contradiction;
        injection Hin2 as <- <-; cbn [replacement]; rewrite EB, Er, Ep, E1; auto. }
  assert (Tail : forall cn,
      (if Nat.ltb 1 (length (literals cl)) && positive l && match left l with TBind KEx _ _ => true | _ => false end
      then Some [] else
      if positive l then
        match open_quantifier KAll (left l) (context cl) with
        | None => None
        | Some (Some (t, c')) => Some [(PositiveForallOpen, ([lit_positive t], c'))]
        | Some None =>
          match reduce_exists_with_obvious_witness (left l) with
          | None => None
          | Some (Some t) => Some [(PositiveExistsObviousWitness, ([lit_positive t], context cl))]
          | Some None => cn
          end
        end
      else
        match reduce_negated_forall (left l) with
        | Some t => Some [(NegatedForallToExists, ([lit_positive t], context cl))]
        | None =>
          match open_quantifier KEx (left l) (context cl) with
          | None => None
          | Some (Some (t, c')) => Some [(NegatedExistsOpen, ([lit_negative t], c'))]
          | Some None => cn
          end
        end) = Some l1 -> (cn = Some l1 -> replacement fuel K cl k l = Some (Some r)) -> replacement fuel K cl k l = Some (Some r)).
  { intros cn H2 G. destruct (Nat.ltb 1 (length (literals cl)) && positive l && match left l with TBind KEx _ _ => true | _ => false end) eqn:Ee;
      [injection H2 as <-; contradiction|].
    destruct (positive l) eqn:Ep.
    - destruct (open_quantifier KAll (left l) (context cl)) as [[[t c']|]|] eqn:Eq; try discriminate.
      + injection H2 as <-. destruct Hin as [Hin|[]]; injection Hin as <- <-; cbn [replacement]; rewrite EB, Er, Ep, Eq; auto.
      + destruct (reduce_exists_with_obvious_witness (left l)) as [[t|]|] eqn:Ew; try discriminate.
        * injection H2 as <-. destruct Hin as [Hin|[]]; injection Hin as <- <-; cbn [replacement]; rewrite EB, Er, Ep, Ew.
          rewrite andb_true_r in Ee. rewrite Ee. auto.
        * auto.
    - destruct (reduce_negated_forall (left l)) as [t|] eqn:Ef.
      + injection H2 as <-. destruct Hin as [Hin|[]]; injection Hin as <- <-; cbn [replacement]; rewrite EB, Er, Ep, Ef; auto.
      + destruct (open_quantifier KEx (left l) (context cl)) as [[[t c']|]|] eqn:Eq; try discriminate.
        * injection H2 as <-. destruct Hin as [Hin|[]]; injection Hin as <- <-; cbn [replacement]; rewrite EB, Er, Ep, Eq; auto.
        * auto. }
  assert (E2 : match clause_split (left l) SEq 3 with
      | Some [_; x; y] => Some [(BooleanEqToEquality, ([lit_new (positive l) x y], context cl))]
      | _ =>
      if Nat.ltb 1 (length (literals cl)) && positive l && match left l with TBind KEx _ _ => true | _ => false end
      then Some [] else
      if positive l then
        match open_quantifier KAll (left l) (context cl) with
        | None => None
        | Some (Some (t, c')) => Some [(PositiveForallOpen, ([lit_positive t], c'))]
        | Some None =>
          match reduce_exists_with_obvious_witness (left l) with
          | None => None
          | Some (Some t) => Some [(PositiveExistsObviousWitness, ([lit_positive t], context cl))]
          | Some None => match clause_split (left l) SAnd 2 with
     | Some [x; y] =>
       Some (if positive l then [(PositiveAndLeft, ([lit_positive x], context cl))] ++ [(PositiveAndRight, ([lit_positive y], context cl))]
             else [(NegativeAnd, ([lit_negative x; lit_negative y], context cl))])
     | _ =>
     match clause_split (left l) SOr 2 with
     | Some [x; y] =>
       Some (if positive l then [(PositiveOr, ([lit_positive x; lit_positive y], context cl))]
             else [(NegativeOrLeft, ([lit_negative x], context cl))] ++ [(NegativeOrRight, ([lit_negative y], context cl))])
     | _ => Some []
     end end
          end
        end
      else
        match reduce_negated_forall (left l) with
        | Some t => Some [(NegatedForallToExists, ([lit_positive t], context cl))]
        | None =>
          match open_quantifier KEx (left l) (context cl) with
          | None => None
          | Some (Some (t, c')) => Some [(NegatedExistsOpen, ([lit_negative t], c'))]
          | Some None => match clause_split (left l) SAnd 2 with
     | Some [x; y] =>
       Some (if positive l then [(PositiveAndLeft, ([lit_positive x], context cl))] ++ [(PositiveAndRight, ([lit_positive y], context cl))]
             else [(NegativeAnd, ([lit_negative x; lit_negative y], context cl))])
     | _ =>
     match clause_split (left l) SOr 2 with
     | Some [x; y] =>
       Some (if positive l then [(PositiveOr, ([lit_positive x; lit_positive y], context cl))]
             else [(NegativeOrLeft, ([lit_negative x], context cl))] ++ [(NegativeOrRight, ([lit_negative y], context cl))])
     | _ => Some []
     end end
          end
        end
      end = Some l1 -> replacement fuel K cl k l = Some (Some r)).
  { intros H2. destruct (clause_split (left l) SEq 3) as [[|T [|x [|y [|]]]]|] eqn:E1;
      try (apply (Tail _ H2); intros H3; exact (C l1 H3 Hin)).
    injection H2 as <-. destruct Hin as [Hin|[]]; injection Hin as <- <-; cbn [replacement]; rewrite EB, Er, E1; auto. }
  destruct (clause_split (left l) SNot 1) as [[|x [|]]|] eqn:E1; try (apply E2; exact H).
  injection H as <-. destruct Hin as [Hin|[]]; injection Hin as <- <-; cbn [replacement]; rewrite EB, Er, E1; auto.
Qed.

Lemma normalize_found_in cl i l : forall out k j t, normalize_found cl i l = Some out -> In (k, j, t) out ->
  j = i /\ exists r c, In (k, (r, c)) l /\
    normalize_boolean_reduction (with_replaced_literal (literals cl) i r) c (length (context cl)) = Some t.
Proof.
  induction l as [|[k0 [r0 c0]] l IH]; intros out k j t; simpl; [intros H; injection H as <-; contradiction|].
  destruct (normalize_boolean_reduction (with_replaced_literal (literals cl) i r0) c0 (length (context cl))) as [t0|] eqn:E; [|discriminate].
  destruct (normalize_found cl i l) as [o|] eqn:Eo; [|discriminate]. intros H; injection H as <-.
  intros [H|H]; [injection H as <- <- <-; split; eauto 6|].
  destruct (IH o k j t eq_refl H) as (-> & r & c & H1 & H2). split; auto. exists r, c. auto.
Qed.

Lemma find_reductions_at fuel K cl found k i t : find_boolean_reductions fuel K cl = Some found -> In (k, i, t) found ->
  boolean_reduction_at fuel K cl k i = Some (Some t).
Proof.
  unfold find_boolean_reductions.
  assert (G : forall ls pre j f, literals cl = pre ++ ls -> length pre = j -> find_from fuel K cl j ls = Some f -> In (k, i, t) f ->
    boolean_reduction_at fuel K cl k i = Some (Some t)).
  { induction ls as [|l ls IH]; intros pre j f Hl Hp H Hin; simpl in H; [injection H as <-; contradiction|].
    destruct (find_for_literal fuel K cl l) as [fl|] eqn:Ef; [|discriminate].
    apply (app_res_in _ _ _ _ H) in Hin. destruct Hin as [(l1 & H1 & Hin)|(l1 & H1 & Hin)].
    - destruct (normalize_found_in _ _ _ _ _ _ _ H1 Hin) as (-> & r & c & Hr & Hn).
      unfold boolean_reduction_at, reduced_literals. rewrite Hl, nth_error_app2, Hp, Nat.sub_diag by lia. simpl.
      rewrite (find_for_literal_at _ _ _ _ _ _ _ Ef Hr). simpl. rewrite <- Hl, Hn. reflexivity.
    - apply (IH (pre ++ [l]) (S j) l1); auto; [rewrite <- app_assoc; auto|rewrite app_length; simpl; lia]. }
  intros H Hin. apply (G (literals cl) [] 0 found); auto.
Qed.
