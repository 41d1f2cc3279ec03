(** Sets of clauses that say that something holds, with the variables they introduce. *)
From Coq Require Import List Arith NArith Bool Lia.
Import ListNotations.
From Verif Require Import Term LocalContext Semantics TermProofs SemFacts Typing TypingProofs Monomorphic PolyTyped Literal Clause BoolReductionProofs ClauseSem ClauseProofs ClauseWf TermNorm Clausifier ClausifierProofs ClausifierConv ClausifierExt ClausifierLits ClausifierMain.

Section Sets.
Context (K : kctx) (M : Model) (kinds : list term).
Context (KK : Forall (fun k => is_type_param_kind k = true) kinds) (AI : all_inhabited K M kinds).
Notation typed := (PolyTyped.typed K).
Notation ptype g := (ptm K g 0).
Notation g0 := (kinds_env kinds).
Notation env := (nat -> D M).

Definition base (rho : env) : Prop := valid_env M (map Some kinds) rho.
Definition good (g : tenv) (c : lctx) : Prop := steps K g0 g (map Some kinds) c.
Lemma good_steps g g1 c c1 : good g c -> steps K g g1 c c1 -> good g1 c1.
Proof. intros H1 H2. eapply steps_trans; eauto. Qed.
Lemma good_ctx g c : good g c -> gctx g c. Proof. intros (_ & G & _). exact G. Qed.
Lemma good_sub g c : good g c -> gsub g0 g. Proof. intros (_ & _ & G & _). exact G. Qed.
Lemma good_ptype g c T : good g c -> ptype g T = true -> ptype g0 T = true.
Proof. intros H. eapply steps_ptype; eauto. Qed.

Lemma agree_refl g rho : agree M g rho rho. Proof. intros v U _. reflexivity. Qed.
Lemma agree_sym g rho rho' : agree M g rho rho' -> agree M g rho' rho.
Proof. intros H v U E. symmetry. eapply H; eauto. Qed.
Lemma agree_trans g a b c : agree M g a b -> agree M g b c -> agree M g a c.
Proof. intros H1 H2 v U E. rewrite (H1 v U E). eauto. Qed.
Lemma agree_sub g g' a b : gsub g g' -> agree M g' a b -> agree M g a b.
Proof. intros S H v U E. apply (H v U). auto. Qed.

Lemma base_agree rho rho' : agree M g0 rho rho' -> base rho -> base rho'.
Proof.
  intros A V i T H. pose proof H as H'. unfold get_var_type in H'. rewrite nth_error_map in H'.
  assert (X : g0 i = Some T) by (unfold kinds_env; destruct (nth_error kinds i); [injection H' as ->; auto|discriminate]).
  rewrite <- (A i T X). replace (ev M rho' T) with (ev M rho T); [apply V; auto|].
  rewrite Forall_forall in KK. apply nth_error_In in X. apply KK in X. apply eval_agree with 0; auto.
  - intros v Hv. exfalso. rewrite kind_closed in Hv by auto. destruct Hv.
  - destruct T as [[?|?|[]]|?|?]; try discriminate; reflexivity.
Qed.

(** new variables can be given values *)
Lemma fill g g1 c c1 rho : good g c -> steps K g g1 c c1 -> base rho ->
  exists rho', agree M g rho rho' /\ new_ok M g g1 rho'.
Proof.
  intros Gd St B. pose proof (good_steps _ _ _ _ Gd St) as Gd1. pose proof St as (Mo & G1 & S & N).
  assert (F : forall ids, exists rho', (forall i, (In i ids -> g i <> None) -> rho' i = rho i) /\
    forall i T, In i ids -> g i = None -> g1 i = Some T -> mem M (rho' i) (ev M rho T)).
  { induction ids as [|j ids (r & R1 & R2)]; [exists rho; split; [auto|intros i T []]|].
    destruct (g j) as [U|] eqn:Ej; [exists r|].
    - split; [intros i Hi; apply R1; intros X; apply Hi; right; auto|]. intros i T [<-|Hi]; [congruence|auto].
    - destruct (g1 j) as [T|] eqn:E1.
      + destruct (AI rho) as [_ A]. destruct (A B T) as [d Hd]. { apply (good_ptype g c); auto. eapply N; eauto. }
        exists (fun i => if Nat.eqb i j then d else r i). split.
        * intros i Hi. destruct (Nat.eqb_spec i j) as [->|]; [exfalso; apply (Hi (or_introl eq_refl)); auto|]. apply R1. intros X. apply Hi. right. auto.
        * intros i T' Hi Ei Ei1. destruct (Nat.eqb_spec i j) as [->|Ne]; [congruence|]. destruct Hi as [->|Hi]; [congruence|auto].
      + exists r. split; [intros i Hi; apply R1; intros X; apply Hi; right; auto|]. intros i T [<-|Hi]; [congruence|auto]. }
  destruct (F (seq 0 (length c1))) as (r & R1 & R2). exists r.
  assert (AG : agree M g rho r). { intros v U E. symmetry. apply R1. intros _. congruence. }
  split; auto. intros i T Ei Ei1. rewrite <- (ptype_agree K M g T rho r AG) by (eapply N; eauto). apply R2; auto.
  apply in_seq. split; [lia|]. simpl. apply G1 in Ei1. unfold get_var_type in Ei1. apply nth_error_Some. destruct (nth_error c1 i); congruence.
Qed.
Lemma new_ok_compose g g1 g2 c c1 c2 rho rho' : good g c -> steps K g g1 c c1 -> steps K g1 g2 c1 c2 ->
  new_ok M g g1 rho -> agree M g1 rho rho' -> new_ok M g1 g2 rho' -> new_ok M g g2 rho'.
Proof.
  intros Gd S1 S2 N1 A N2 i T E E2. destruct (g1 i) as [U|] eqn:E1; [|apply N2; auto].
  pose proof S1 as (_ & _ & SB & NN). pose proof S2 as (_ & _ & SB2 & _). pose proof (SB2 _ _ E1) as X. rewrite E2 in X. injection X as <-.
  destruct (NN _ _ E E1) as [_ PT]. rewrite <- (A i T E1). rewrite <- (ptype_agree K M g T rho rho'); auto. eapply agree_sub; eauto.
Qed.
(** values for some of the new variables extend to all *)
Lemma fill_more g g1 g2 c c1 c2 rho : good g c -> steps K g g1 c c1 -> steps K g1 g2 c1 c2 -> base rho -> new_ok M g g1 rho ->
  exists rho', agree M g1 rho rho' /\ new_ok M g g2 rho'.
Proof.
  intros Gd S1 S2 B N. pose proof (good_steps _ _ _ _ Gd S1) as Gd1. destruct (fill _ _ _ _ rho Gd1 S2 B) as (r & A & N2).
  exists r. split; auto. eapply new_ok_compose; eauto.
Qed.

(** ** truth of a set of clauses *)
Definition all_hold (rho : env) (cs : clause_literals) : Prop := Forall (cholds M rho) cs.
Lemma lit_dec rho l : lit_holds M rho l \/ ~ lit_holds M rho l.
Proof. unfold lit_holds. destruct (val_dec M (ev M rho (left l)) (ev M rho (right l))); destruct (positive l); tauto. Qed.
Lemma cholds_dec rho c : cholds M rho c \/ ~ cholds M rho c.
Proof.
  induction c as [|l c [(x & H1 & H2)|IH]]; [right; intros (l & [] & _)|left; exists x; split; [right; auto|auto]|].
  destruct (lit_dec rho l) as [H|H]; [left; exists l; split; [left; auto|auto]|]. right. intros (x & [<-|Hx] & HH); [auto|]. apply IH. exists x. auto.
Qed.
Lemma all_hold_dec rho cs : all_hold rho cs \/ ~ all_hold rho cs.
Proof.
  induction cs as [|c cs [IH|IH]]; [left; constructor| |right; intros H; inversion H; auto].
  destruct (cholds_dec rho c); [left; constructor; auto|right; intros H'; inversion H'; auto].
Qed.
Lemma cholds_app rho a b : cholds M rho (a ++ b) <-> cholds M rho a \/ cholds M rho b.
Proof.
  split.
  - intros (x & Hx & H). apply in_app_iff in Hx. destruct Hx; [left|right]; exists x; auto.
  - intros [(x & Hx & H)|(x & Hx & H)]; exists x; rewrite in_app_iff; auto.
Qed.
Lemma hold_and rho a b : all_hold rho (clauses_and a b) <-> all_hold rho a /\ all_hold rho b.
Proof. apply Forall_app. Qed.
Lemma hold_or rho a b : all_hold rho (clauses_or a b) <-> all_hold rho a \/ all_hold rho b.
Proof.
  unfold clauses_or, all_hold. rewrite !Forall_forall. split.
  - intros H. destruct (all_hold_dec rho b) as [Hb|Hb]; [right; apply Forall_forall; auto|left].
    intros x Hx. destruct (cholds_dec rho x) as [|N]; auto. exfalso. apply Hb. apply Forall_forall. intros y Hy.
    destruct (proj1 (cholds_app rho x y)) as [|]; auto; [|contradiction]. apply H. apply in_flat_map. exists x. split; auto. apply in_map_iff. eauto.
  - intros H z Hz. apply in_flat_map in Hz. destruct Hz as (x & Hx & Hz). apply in_map_iff in Hz. destruct Hz as (y & <- & Hy).
    apply cholds_app. destruct H; auto.
Qed.
Lemma hold_fold_and rho l : forall a, all_hold rho (fold_left clauses_and l a) <-> all_hold rho a /\ Forall (all_hold rho) l.
Proof.
  induction l as [|x l IH]; intros a; simpl; [split; [auto|tauto]|]. rewrite IH, hold_and, Forall_cons_iff. tauto.
Qed.
Lemma hold_and_all rho l : all_hold rho (clauses_and_all l) <-> Forall (all_hold rho) l.
Proof. unfold clauses_and_all. rewrite hold_fold_and. split; [tauto|]. intros H. split; [constructor|auto]. Qed.
Lemma hold_fold_or rho l : forall a, all_hold rho (fold_left clauses_or l a) <-> all_hold rho a \/ Exists (all_hold rho) l.
Proof.
  induction l as [|x l IH]; intros a; simpl; [split; [auto|intros [|H]; [auto|inversion H]]|]. rewrite IH, hold_or, Exists_cons. tauto.
Qed.
Lemma hold_or_all rho l : all_hold rho (clauses_or_all l) <-> Exists (all_hold rho) l.
Proof.
  unfold clauses_or_all. rewrite hold_fold_or. split; [intros [H|]; auto|tauto]. inversion H; subst.
  match goal with [X : cholds _ _ [] |- _] => destruct X as (? & [] & _) end.
Qed.
Lemma hold_literal rho x : lit_wt M rho x -> (all_hold rho (clauses_from_literal x) <-> lit_holds M rho x).
Proof.
  unfold clauses_from_literal, is_true_value, is_false_value. destruct x as [p l r]; simpl. intros [WL WR]. simpl in WL, WR.
  assert (T : is_true l && is_true r = true -> ev M rho l = ev M rho r).
  { intros H. apply andb_true_iff in H. destruct H as [H1 H2]. apply (is_true_eq M (anydom M) rho (nobs M)) in H1; auto.
    apply (is_true_eq M (anydom M) rho (nobs M)) in H2; auto. congruence. }
  assert (S : all_hold rho [[Lit p l r]] <-> lit_holds M rho (Lit p l r)).
  { split; [|intros H; repeat constructor; exists (Lit p l r); split; [left; auto|auto]]. intros H. inversion H; subst.
    match goal with [X : cholds _ _ _ |- _] => destruct X as (? & [<-|[]] & X); exact X end. }
  destruct p; simpl; rewrite ?andb_false_r, ?andb_true_r; simpl; auto.
  - destruct (is_true l && is_true r); auto. split; [intros _; apply T; auto|constructor].
  - destruct (is_true l && is_true r); auto. split; [|intros H; exfalso; apply H; apply T; auto].
    intros H. inversion H; subst. match goal with [X : cholds _ _ _ |- _] => destruct X as (? & [] & _) end.
Qed.
Lemma negate_holds rho x : lit_holds M rho (negate x) <-> ~ lit_holds M rho x.
Proof. unfold lit_holds. destruct x as [[] l r]; simpl; [tauto|]. destruct (val_dec M (ev M rho l) (ev M rho r)); tauto. Qed.
Lemma negate_wt rho x : lit_wt M rho x -> lit_wt M rho (negate x). Proof. intros H. exact H. Qed.
Definition set_all (P : literal -> Prop) (cs : clause_literals) : Prop := Forall (Forall P) cs.
Lemma hold_negate rho cs : set_all (lit_wt M rho) cs -> (all_hold rho (negate_clauses cs) <-> ~ all_hold rho cs).
Proof.
  intros WT. unfold set_all in WT. rewrite Forall_forall in WT. unfold negate_clauses. rewrite hold_or_all.
  assert (C : forall c, In c cs -> (all_hold rho (clauses_and_all (map (fun x => clauses_from_literal (negate x)) c)) <-> ~ cholds M rho c)).
  { intros c Hc. specialize (WT c Hc). rewrite Forall_forall in WT. rewrite hold_and_all, Forall_forall. split.
    - intros H (x & Hx & HH). assert (X : all_hold rho (clauses_from_literal (negate x))) by (apply H; apply in_map_iff; eauto).
      apply hold_literal, negate_holds in X; [contradiction|]. apply negate_wt. auto.
    - intros H s Hs. apply in_map_iff in Hs. destruct Hs as (x & <- & Hx). apply hold_literal; [apply negate_wt; auto|]. apply negate_holds. intros HH. apply H. exists x. auto. }
  rewrite Exists_exists. split.
  - intros (s & Hs & H) HA. apply in_map_iff in Hs. destruct Hs as (c & <- & Hc). apply C in H; auto. unfold all_hold in HA. rewrite Forall_forall in HA. auto.
  - intros H. assert (X : exists c, In c cs /\ ~ cholds M rho c).
    { clear C WT. induction cs as [|c cs IH]; [exfalso; apply H; constructor|]. destruct (cholds_dec rho c) as [Hc|Hc]; [|exists c; split; [left; auto|auto]].
      destruct IH as (x & Hx & HH); [intros Y; apply H; constructor; auto|]. exists x. split; [right; auto|auto]. }
    destruct X as (c & Hc & HH). eexists. split; [apply in_map_iff; exists c; split; [reflexivity|exact Hc]|]. apply C; auto.
Qed.
Lemma hold_to_literal rho cs x : clauses_to_literal cs = Some x -> (all_hold rho cs <-> lit_holds M rho x).
Proof.
  intros E. destruct cs as [|[|y [|]] [|]]; try discriminate; injection E as <-.
  - split; [intros _; reflexivity|constructor].
  - split; [intros H; inversion H; subst; match goal with [X : cholds _ _ _ |- _] => destruct X as (? & [] & _) end|]. intros H. exfalso. apply H. reflexivity.
  - split; [|intros H; repeat constructor; exists y; split; [left; auto|auto]]. intros H. inversion H; subst.
    match goal with [X : cholds _ _ _ |- _] => destruct X as (? & [<-|[]] & X); exact X end.
Qed.

(** ** typed and well-typed literals *)
Definition lit_typed (g : tenv) (l : literal) : Prop := exists T, typed g [] (left l) T /\ typed g [] (right l) T.
Lemma set_and P a b : set_all P a -> set_all P b -> set_all P (clauses_and a b).
Proof. intros. apply Forall_app. auto. Qed.
Lemma set_or P a b : set_all P a -> set_all P b -> set_all P (clauses_or a b).
Proof.
  unfold set_all. rewrite !Forall_forall. intros Ha Hb z Hz. apply in_flat_map in Hz. destruct Hz as (x & Hx & Hz). apply in_map_iff in Hz. destruct Hz as (y & <- & Hy).
  apply Forall_app. auto.
Qed.
Lemma set_fold_and P l : forall a, set_all P a -> Forall (set_all P) l -> set_all P (fold_left clauses_and l a).
Proof. induction l as [|x l IH]; intros a Ha F; simpl; auto. inversion F; subst. apply IH; auto. apply set_and; auto. Qed.
Lemma set_fold_or P l : forall a, set_all P a -> Forall (set_all P) l -> set_all P (fold_left clauses_or l a).
Proof. induction l as [|x l IH]; intros a Ha F; simpl; auto. inversion F; subst. apply IH; auto. apply set_or; auto. Qed.
Lemma set_literal (P : literal -> Prop) x : P x -> set_all P (clauses_from_literal x).
Proof. intros H. unfold clauses_from_literal. destruct (is_true_value x); [constructor|]. destruct (is_false_value x); repeat constructor. auto. Qed.
Lemma set_negate (P : literal -> Prop) cs : (forall x, P x -> P (negate x)) -> set_all P cs -> set_all P (negate_clauses cs).
Proof.
  intros N H. unfold negate_clauses, clauses_or_all. apply set_fold_or; [repeat constructor|]. apply Forall_forall. intros s Hs.
  apply in_map_iff in Hs. destruct Hs as (c & <- & Hc). unfold set_all in H. rewrite Forall_forall in H. specialize (H c Hc). unfold clauses_and_all.
  apply set_fold_and; [constructor|]. apply Forall_forall. intros s Hs. apply in_map_iff in Hs. destruct Hs as (x & <- & Hx). apply set_literal, N.
  rewrite Forall_forall in H. auto.
Qed.
Lemma set_impl (P Q : literal -> Prop) cs : (forall x, P x -> Q x) -> set_all P cs -> set_all Q cs.
Proof. intros H. apply Forall_impl. intros c. apply Forall_impl. auto. Qed.
Lemma set_to_literal (P : literal -> Prop) cs x : clauses_to_literal cs = Some x -> P lit_true_value -> P lit_false_value -> set_all P cs -> P x.
Proof.
  intros E H1 H2 H. destruct cs as [|[|y [|]] [|]]; try discriminate; injection E as <-; auto. inversion H; subst. match goal with [X : Forall P [_] |- _] => inversion X; auto end.
Qed.
Lemma hold_agree g rho rho' cs : agree M g rho rho' -> set_all (lit_typed g) cs -> all_hold rho cs -> all_hold rho' cs.
Proof.
  intros A T H. unfold all_hold, set_all in *. rewrite Forall_forall in *. intros c Hc. destruct (H c Hc) as (l & Hl & HH). exists l. split; auto.
  specialize (T c Hc). rewrite Forall_forall in T. destruct (T l Hl) as (U & T1 & T2). unfold lit_holds in *.
  rewrite <- (proj2 (typed_agree K M g _ _ _ _ A T1)), <- (proj2 (typed_agree K M g _ _ _ _ A T2)). exact HH.
Qed.

Definition lit_has (g : tenv) (rho : env) (l : literal) : Prop :=
  exists T, typed g [] (left l) T /\ typed g [] (right l) T /\ has M rho (left l) T /\ has M rho (right l) T.
Lemma has_wt g rho l : lit_has g rho l -> lit_wt M rho l.
Proof. intros (T & _ & _ & [H1 _] & [H2 _]). split; auto. Qed.
Lemma lit_has_sub g g' rho l : gsub g g' -> lit_has g rho l -> lit_has g' rho l.
Proof. intros S (T & H1 & H2 & H3). exists T. split; [eapply typed_sub; eauto|]. split; [eapply typed_sub; eauto|auto]. Qed.
Lemma set_wt g rho cs : set_all (lit_has g rho) cs -> set_all (lit_wt M rho) cs.
Proof. apply set_impl. apply has_wt. Qed.
Lemma set_has_sub g g' rho cs : gsub g g' -> set_all (lit_has g rho) cs -> set_all (lit_has g' rho) cs.
Proof. intros S. apply set_impl. intros l. apply lit_has_sub; auto. Qed.

(** ** [cs] with the variables of [g'] says that [P], where [W] *)
Definition says (g g' : tenv) (W P : env -> Prop) (cs : clause_literals) : Prop :=
  set_all (lit_typed g') cs /\
  (forall rho, base rho -> W rho -> new_ok M g g' rho -> set_all (lit_has g' rho) cs /\ (P rho -> all_hold rho cs)) /\
  (forall rho, base rho -> W rho -> ~ P rho -> ~ ~ exists rho', agree M g rho rho' /\ new_ok M g g' rho' /\ ~ all_hold rho' cs).
Definition local (g : tenv) (P : env -> Prop) : Prop := forall rho rho', agree M g rho rho' -> P rho -> P rho'.
Lemma lit_typed_sub g g' l : gsub g g' -> lit_typed g l -> lit_typed g' l.
Proof. intros S (T & H1 & H2). exists T. split; eapply typed_sub; eauto. Qed.
Lemma local_not g P : local g P -> local g (fun rho => ~ P rho).
Proof. intros L rho rho' A N H. apply N. eapply L; [apply agree_sym; eauto|auto]. Qed.
Lemma local_sub g g' P : gsub g g' -> local g P -> local g' P.
Proof. intros S L rho rho' A. apply L. eapply agree_sub; eauto. Qed.

Lemma says_weaken g g' (W W' P P' : env -> Prop) cs : (forall rho, base rho -> W' rho -> W rho) ->
  (forall rho, base rho -> W' rho -> P' rho -> P rho) -> (forall rho, base rho -> W' rho -> P rho -> P' rho) -> says g g' W P cs -> says g g' W' P' cs.
Proof.
  intros HW H1 H2 (S1 & S2 & S3). split; auto. split.
  - intros rho B W0 N. destruct (S2 rho B (HW _ B W0) N) as [X Y]. split; auto.
  - intros rho B W0 NP. apply S3; auto.
Qed.
Lemma says_exact g (W P : env -> Prop) cs : set_all (lit_typed g) cs ->
  (forall rho, base rho -> W rho -> set_all (lit_has g rho) cs /\ (all_hold rho cs <-> P rho)) -> says g g W P cs.
Proof.
  intros T H. split; auto. split.
  - intros rho B W0 _. destruct (H rho B W0) as [X Y]. split; [auto|apply Y].
  - intros rho B W0 NP NE. destruct (H rho B W0) as [X Y]. apply NE. exists rho. split; [apply agree_refl|]. split; [intros i T' E1 E2; congruence|tauto].
Qed.
Lemma says_same g (W P : env -> Prop) cs : says g g W P cs -> set_all (lit_typed g) cs /\
  (forall rho, base rho -> W rho -> (P rho \/ ~ P rho) -> set_all (lit_has g rho) cs /\ (all_hold rho cs <-> P rho)).
Proof.
  intros (S1 & S2 & S3). split; auto. intros rho B W0 DP. assert (N : new_ok M g g rho) by (intros i T E1 E2; congruence).
  destruct (S2 rho B W0 N) as [X Y]. split; auto. split; auto. intros H. destruct DP as [|NP]; auto. exfalso.
  apply (S3 rho B W0 NP). intros (r & A & _ & NH). apply NH. eapply hold_agree; eauto.
Qed.

Section Combine.
Context (g g1 g2 : tenv) (c c1 c2 : lctx) (Gd : good g c) (S1 : steps K g g1 c c1) (S2 : steps K g1 g2 c1 c2).
Lemma sub1 : gsub g g1. Proof. destruct S1 as (_ & _ & H & _). exact H. Qed.
Lemma sub2 : gsub g1 g2. Proof. destruct S2 as (_ & _ & H & _). exact H. Qed.
Lemma base_g rho rho' : agree M g rho rho' -> base rho -> base rho'.
Proof. intros A. apply base_agree. eapply agree_sub; [|exact A]. eapply good_sub; eauto. Qed.
Lemma typed_up cs : set_all (lit_typed g1) cs -> set_all (lit_typed g2) cs.
Proof. apply set_impl. intros x. apply lit_typed_sub, sub2. Qed.

Lemma says_or (W W2 P Q : env -> Prop) a b : local g W -> local g Q -> (forall rho, base rho -> W rho -> new_ok M g g1 rho -> W2 rho) ->
  says g g1 W P a -> says g1 g2 W2 Q b -> says g g2 W (fun rho => P rho \/ Q rho) (clauses_or a b).
Proof.
  intros LW LQ HW (A1 & A2 & A3) (B1 & B2 & B3). split; [apply set_or; auto; apply typed_up; auto|]. split.
  - intros rho B W0 N. pose proof (new_ok_left _ _ _ _ _ sub2 N) as N1. pose proof (new_ok_right _ _ _ _ _ sub1 N) as N2.
    destruct (A2 rho B W0 N1) as [X1 Y1]. destruct (B2 rho B (HW _ B W0 N1) N2) as [X2 Y2]. split; [apply set_or; auto; eapply set_has_sub; [apply sub2|auto]|]. rewrite hold_or. tauto.
  - intros rho B W0 NP NE. apply (A3 rho B W0); [tauto|]. intros (r1 & AG1 & N1 & H1).
    pose proof (base_g _ _ AG1 B) as Br. pose proof (LW _ _ AG1 W0) as Wr.
    apply (B3 r1 Br (HW _ Br Wr N1)). { intros Q0. apply NP. right. eapply LQ; [apply agree_sym; eauto|auto]. }
    intros (r2 & AG2 & N2 & H2). apply NE. exists r2. split; [eapply agree_trans; [eauto|eapply agree_sub; [apply sub1|eauto]]|].
    split; [eapply new_ok_compose; eauto|]. rewrite hold_or. intros [X|X]; [|auto]. apply H1. eapply hold_agree; [apply agree_sym; eauto|auto|auto].
Qed.
(** universal quantification over the variables of [g1] *)
Lemma says_all (W W1 P P1 : env -> Prop) a : (forall rho, base rho -> W rho -> new_ok M g g1 rho -> W1 rho) ->
  (forall rho, base rho -> W rho -> new_ok M g g1 rho -> P rho -> P1 rho) ->
  (forall rho, base rho -> W rho -> ~ P rho -> ~ ~ exists rho', agree M g rho rho' /\ W rho' /\ new_ok M g g1 rho' /\ ~ P1 rho') ->
  says g1 g2 W1 P1 a -> says g g2 W P a.
Proof.
  intros HW H1 H2 (A1 & A2 & A3). split; auto. split.
  - intros rho B W0 N. pose proof (new_ok_left _ _ _ _ _ sub2 N) as N1. pose proof (new_ok_right _ _ _ _ _ sub1 N) as N2.
    destruct (A2 rho B (HW _ B W0 N1) N2) as [X Y]. split; auto.
  - intros rho B W0 NP NE. apply (H2 rho B W0 NP). intros (r1 & AG1 & W1' & N1 & NP1). pose proof (base_g _ _ AG1 B) as Br.
    apply (A3 r1 Br (HW _ Br W1' N1) NP1). intros (r2 & AG2 & N2 & NH). apply NE. exists r2.
    split; [eapply agree_trans; [eauto|eapply agree_sub; [apply sub1|eauto]]|]. split; auto. eapply new_ok_compose; eauto.
Qed.
End Combine.

Section Move.
Context (g g1 g2 : tenv) (c c1 c2 : lctx) (Gd : good g c) (S1 : steps K g g1 c c1) (S2 : steps K g1 g2 c1 c2).
Lemma says_down (W P : env -> Prop) a : local g W -> local g P -> says g1 g2 W P a -> says g g2 W P a.
Proof.
  intros LW LP. apply (says_all g g1 g2 c c1 c2 Gd S1 S2); auto. intros rho B W0 NP NE. destruct (fill _ _ _ _ rho Gd S1 B) as (r & A & N).
  apply NE. exists r. split; auto. split; [eapply LW; eauto|]. split; auto. eapply local_not; eauto.
Qed.
Lemma says_up (W P : env -> Prop) a : says g g1 W P a -> says g g2 W P a.
Proof.
  intros (A1 & A2 & A3). pose proof S2 as (_ & _ & SB & _). split; [eapply set_impl; [|exact A1]; intros x; apply lit_typed_sub; auto|]. split.
  - intros rho B W0 N. destruct (A2 rho B W0 (new_ok_left _ _ _ _ _ SB N)) as [X Y]. split; auto. eapply set_has_sub; eauto.
  - intros rho B W0 NP NE. apply (A3 rho B W0 NP). intros (r1 & AG & N1 & H1).
    assert (Br : base r1). { eapply base_agree; [|exact B]. eapply agree_sub; [eapply good_sub; eauto|exact AG]. }
    destruct (fill_more _ _ _ _ _ _ r1 Gd S1 S2 Br N1) as (r2 & AG2 & N2). apply NE. exists r2. pose proof S1 as (_ & _ & SB1 & _).
    split; [eapply agree_trans; [eauto|eapply agree_sub; eauto]|]. split; auto. intros X. apply H1. eapply hold_agree; [apply agree_sym; eauto|auto|auto].
Qed.
End Move.
Lemma says_both g g' (W P Q : env -> Prop) a b : says g g' W P a -> says g g' W Q b -> says g g' W (fun rho => P rho /\ Q rho) (clauses_and a b).
Proof.
  intros (A1 & A2 & A3) (B1 & B2 & B3). split; [apply set_and; auto|]. split.
  - intros rho B W0 N. destruct (A2 rho B W0 N) as [X1 Y1]. destruct (B2 rho B W0 N) as [X2 Y2]. split; [apply set_and; auto|]. rewrite hold_and. tauto.
  - intros rho B W0 NP NE. assert (HP : ~ P rho).
    { intros HP. apply (B3 rho B W0); [tauto|]. intros (r & A & N & H). apply NE. exists r. split; auto. split; auto. rewrite hold_and. tauto. }
    apply (A3 rho B W0 HP). intros (r & A & N & H). apply NE. exists r. split; auto. split; auto. rewrite hold_and. tauto.
Qed.

(** a literal *)
Lemma lit_new_has g rho pos a b T : typed g [] a T -> typed g [] b T -> has M rho a T -> has M rho b T -> lit_has g rho (lit_new pos a b).
Proof. intros. exists T. unfold lit_new, lit_new_with_flip. destruct (needs_to_flip a b); auto. Qed.
Lemma says_literal g (W P : env -> Prop) (pos : bool) a b T : typed g [] a T -> typed g [] b T ->
  (forall rho, base rho -> W rho -> has M rho a T /\ has M rho b T /\ ((if pos then ev M rho a = ev M rho b else ev M rho a <> ev M rho b) <-> P rho)) ->
  says g g W P (clauses_from_literal (lit_new pos a b)).
Proof.
  intros Ta Tb H. apply says_exact; [apply set_literal; eapply lit_new_typed; eauto|]. intros rho B W0. destruct (H rho B W0) as (Ha & Hb & E).
  pose proof (lit_new_has g rho pos a b T Ta Tb Ha Hb) as LH. split; [apply set_literal; auto|]. rewrite hold_literal by (eapply has_wt; eauto).
  rewrite lit_new_holds. exact E.
Qed.

(** ** sets of clauses that say that a term is true or false *)
Definition boolean (t : term) (rho : env) : Prop := wt M rho t /\ isb M (ev M rho t).
Definition claims (g g' : tenv) (t : term) (neg : bool) (cs : clause_literals) : Prop :=
  says g g' (boolean t) (fun rho => ev M rho t = tv M (negb neg)) cs.
Lemma boolean_local g t T : typed g [] t T -> local g (boolean t).
Proof. intros H rho rho' A [W B]. destruct (typed_agree K M g _ _ _ _ A H) as [H1 H2]. split; [auto|]. rewrite <- H2. auto. Qed.
Lemma value_local g t T d : typed g [] t T -> local g (fun rho => ev M rho t = d).
Proof. intros H rho rho' A E. destruct (typed_agree K M g _ _ _ _ A H) as [H1 H2]. congruence. Qed.
Lemma claims_same g g' t u neg cs : same t u -> claims g g' u neg cs -> claims g g' t neg cs.
Proof.
  intros S. apply says_weaken.
  - intros rho B [W I]. destruct (S M rho W) as [W' E]. split; auto. rewrite E. auto.
  - intros rho B [W I] E. destruct (S M rho W) as [W' E']. congruence.
  - intros rho B [W I] E. destruct (S M rho W) as [W' E']. congruence.
Qed.
Lemma tv_other b d : isb M d -> d <> tv M b -> d = tv M (negb b).
Proof. intros H. destruct (isb_tv M _ H); destruct b; simpl in *; tauto. Qed.
Lemma tv_neq b : tv M b <> tv M (negb b). Proof. apply tv_diff. Qed.
Lemma claims_not g g' x neg cs : claims g g' x (negb neg) cs -> claims g g' (tnot x) neg cs.
Proof.
  assert (V : forall rho b, wt M rho (tnot x) -> (ev M rho (tnot x) = tv M b <-> ev M rho x = tv M (negb b))).
  { intros rho b W. apply swt_not in W. destruct W as [W B]. change (ev M rho (tnot x)) with (bnot M (ev M rho x)).
    destruct (isb_tv M _ B) as [E|E]; unfold ev in *; rewrite E, bnot_tv; pose proof (bool_diff M); destruct b; simpl; split; congruence. }
  apply says_weaken.
  - intros rho B [W I]. apply swt_not in W. exact W.
  - intros rho B [W I]. rewrite V by auto. auto.
  - intros rho B [W I]. rewrite V by auto. auto.
Qed.
(** conjunctions and disjunctions *)
Lemma bin_cases s a b rho : s = SAnd \/ s = SOr -> wt M rho (TApp (TApp (TSym s) a) b) -> boolean a rho /\ boolean b rho /\
  let op := ev M rho (TApp (TApp (TSym s) a) b) in
  (op = tv M true <-> if symbol_eq_dec s SAnd then ev M rho a = tv M true /\ ev M rho b = tv M true else ev M rho a = tv M true \/ ev M rho b = tv M true) /\
  (op = tv M false <-> if symbol_eq_dec s SAnd then ev M rho a = tv M false \/ ev M rho b = tv M false else ev M rho a = tv M false /\ ev M rho b = tv M false).
Proof.
  intros Hs W. pose proof (bool_diff M) as DD. cbv zeta. destruct Hs as [->| ->]; cbn [symbol_eq_dec].
  - change (TApp (TApp (TSym SAnd) a) b) with (tand a b) in *. apply swt_and in W. destruct W as (Wa & Wb & Ba & Bb). split; [split; auto|]. split; [split; auto|].
    destruct (and_val M _ _ Ba Bb) as [I1 I2]. change (ev M rho (tand a b)) with (dapp M (dapp M (dsym M SAnd) (ev M rho a)) (ev M rho b)).
    destruct (isb_tv M _ I1), (isb_tv M _ Ba) as [Xa|Xa], (isb_tv M _ Bb) as [Xb|Xb]; unfold ev in *; rewrite Xa, Xb in *; simpl in *; intuition congruence.
  - change (TApp (TApp (TSym SOr) a) b) with (tor a b) in *. apply swt_or in W. destruct W as (Wa & Wb & Ba & Bb). split; [split; auto|]. split; [split; auto|].
    destruct (or_val M _ _ Ba Bb) as [I1 I2]. change (ev M rho (tor a b)) with (dapp M (dapp M (dsym M SOr) (ev M rho a)) (ev M rho b)).
    destruct (isb_tv M _ I1), (isb_tv M _ Ba) as [Xa|Xa], (isb_tv M _ Bb) as [Xb|Xb]; unfold ev in *; rewrite Xa, Xb in *; simpl in *; intuition congruence.
Qed.
Lemma claims_bin g g1 g2 c c1 c2 s a b (neg : bool) ca cb : s = SAnd \/ s = SOr -> good g c -> steps K g g1 c c1 -> steps K g1 g2 c1 c2 ->
  typed g [] a tbool -> typed g [] b tbool -> claims g g1 a neg ca -> claims g1 g2 b neg cb ->
  claims g g2 (TApp (TApp (TSym s) a) b) neg (if xorb (if symbol_eq_dec s SAnd then true else false) neg then clauses_and ca cb else clauses_or ca cb).
Proof.
  intros Hs Gd S1 S2 Ta Tb Ca Cb. set (t := TApp (TApp (TSym s) a) b). pose proof S1 as (_ & _ & SB1 & _).
  assert (HB : forall rho, boolean t rho -> boolean a rho /\ boolean b rho) by (intros rho [W _]; destruct (bin_cases s a b rho Hs W) as (X & Y & _); auto).
  assert (Tt : typed g [] t tbool) by (apply typed_bin_intro; auto).
  destruct (xorb _ neg) eqn:X.
  - apply (says_weaken g g2 (boolean t) _ (fun rho => ev M rho a = tv M (negb neg) /\ ev M rho b = tv M (negb neg))); auto.
    + intros rho _ [W I] E. destruct (bin_cases s a b rho Hs W) as (_ & _ & [V1 V2]). destruct Hs as [->| ->]; destruct neg; simpl in *; try discriminate; tauto.
    + intros rho _ [W I] E. destruct (bin_cases s a b rho Hs W) as (_ & _ & [V1 V2]). destruct Hs as [->| ->]; destruct neg; simpl in *; try discriminate; tauto.
    + apply says_both.
      * eapply says_up; [exact Gd|exact S1|exact S2|]. eapply says_weaken; [| | |exact Ca]; auto. intros rho _ H. apply HB. auto.
      * eapply says_down; [exact Gd|exact S1|exact S2| | |].
        -- eapply boolean_local; eauto.
        -- eapply value_local; eauto.
        -- eapply says_weaken; [| | |exact Cb]; auto. intros rho _ H. apply HB. auto.
  - apply (says_weaken g g2 (boolean t) _ (fun rho => ev M rho a = tv M (negb neg) \/ ev M rho b = tv M (negb neg))); auto.
    + intros rho _ [W I] E. destruct (bin_cases s a b rho Hs W) as (_ & _ & [V1 V2]). destruct Hs as [->| ->]; destruct neg; simpl in *; try discriminate; tauto.
    + intros rho _ [W I] E. destruct (bin_cases s a b rho Hs W) as (_ & _ & [V1 V2]). destruct Hs as [->| ->]; destruct neg; simpl in *; try discriminate; tauto.
    + eapply says_or with (W2 := boolean b); [exact Gd|exact S1|exact S2| | | | |exact Cb].
      * eapply boolean_local; eauto.
      * eapply value_local; eauto.
      * intros rho _ H _. apply HB. auto.
      * eapply says_weaken; [| | |exact Ca]; auto. intros rho _ H. apply HB. auto.
Qed.
(** two disjunctions: [(a = x \/ b = y) /\ (a <> x \/ b <> y)], in this order *)
Lemma claims_equal g g1 g2 g3 g4 c c1 c2 c3 c4 a b (x y : bool) l1 r1 l2 r2 :
  good g c -> steps K g g1 c c1 -> steps K g1 g2 c1 c2 -> steps K g2 g3 c2 c3 -> steps K g3 g4 c3 c4 -> typed g [] a tbool -> typed g [] b tbool ->
  claims g g1 a x l1 -> claims g1 g2 b y r1 -> claims g2 g3 a (negb x) l2 -> claims g3 g4 b (negb y) r2 ->
  says g g4 (fun rho => boolean a rho /\ boolean b rho) (fun rho => if xorb x y then ev M rho a = ev M rho b else ev M rho a <> ev M rho b)
    (clauses_and (clauses_or l1 r1) (clauses_or l2 r2)).
Proof.
  intros Gd S1 S2 S3 S4 Ta Tb L1 R1 L2 R2. set (W := fun rho => boolean a rho /\ boolean b rho).
  assert (LW : local g W). { intros rho rho' A [H1 H2]. split; [eapply (boolean_local g a); eauto|eapply (boolean_local g b); eauto]. }
  pose proof (steps_trans K _ _ _ _ _ _ S1 S2) as S02. pose proof (steps_trans K _ _ _ _ _ _ S3 S4) as S24.
  pose proof S1 as (_ & _ & SB1 & _). pose proof S02 as (_ & _ & SB2 & _). pose proof S3 as (_ & _ & SB3 & _).
  pose proof (good_steps _ _ _ _ Gd S02) as Gd2.
  apply (says_weaken g g4 W W (fun rho => (ev M rho a = tv M (negb x) \/ ev M rho b = tv M (negb y)) /\ (ev M rho a = tv M (negb (negb x)) \/ ev M rho b = tv M (negb (negb y))))); auto.
  - intros rho _ [[_ Ba] [_ Bb]] E. pose proof (bool_diff M). destruct (isb_tv M _ Ba), (isb_tv M _ Bb); destruct x, y; simpl in *; intuition congruence.
  - intros rho _ [[_ Ba] [_ Bb]] E. pose proof (bool_diff M). destruct (isb_tv M _ Ba), (isb_tv M _ Bb); destruct x, y; simpl in *; intuition congruence.
  - apply says_both.
    + eapply says_up; [exact Gd|exact S02|exact S24|].
      eapply says_or with (W2 := boolean b); [exact Gd|exact S1|exact S2|exact LW| | | |exact R1]; [eapply value_local; eauto|intros rho _ [_ H] _; exact H|].
      eapply says_weaken; [| | |exact L1]; auto. intros rho _ [H _]. exact H.
    + eapply says_down; [exact Gd|exact S02|exact S24|exact LW| |].
      * intros rho rho' A [E|E]; [left|right]; eapply value_local; eauto.
      * eapply says_or with (W2 := boolean b); [exact Gd2|exact S3|exact S4| | | | |exact R2].
        -- eapply local_sub; eauto.
        -- eapply value_local. eapply typed_sub; eauto.
        -- intros rho _ [_ H] _; exact H.
        -- eapply says_weaken; [| | |exact L2]; auto. intros rho _ [H _]. exact H.
Qed.
(** the same for [(a is false or b is true) and (a is true or b is false)] in the order of the code for functions *)
Lemma claims_equal_functions g g1 g2 g3 g4 c c1 c2 c3 c4 a b lp ln rp rn :
  good g c -> steps K g g1 c c1 -> steps K g1 g2 c1 c2 -> steps K g2 g3 c2 c3 -> steps K g3 g4 c3 c4 -> typed g [] a tbool -> typed g [] b tbool ->
  claims g g1 a false lp -> claims g1 g2 a true ln -> claims g2 g3 b false rp -> claims g3 g4 b true rn ->
  says g g4 (fun rho => boolean a rho /\ boolean b rho) (fun rho => ev M rho a = ev M rho b) (clauses_and (clauses_or ln rp) (clauses_or lp rn)).
Proof.
  intros Gd S1 S2 S3 S4 Ta Tb LP LN RP RN. set (W := fun rho => boolean a rho /\ boolean b rho).
  assert (LW : local g W). { intros rho rho' A [H1 H2]. split; [eapply (boolean_local g a); eauto|eapply (boolean_local g b); eauto]. }
  pose proof (steps_trans K _ _ _ _ _ _ S1 S2) as S02. pose proof (steps_trans K _ _ _ _ _ _ S02 S3) as S03. pose proof (steps_trans K _ _ _ _ _ _ S2 S3) as S13.
  pose proof (steps_trans K _ _ _ _ _ _ S13 S4) as S14.
  pose proof S1 as (_ & _ & SB1 & _). pose proof S02 as (_ & _ & SB2 & _). pose proof S03 as (_ & _ & SB3 & _).
  pose proof (good_steps _ _ _ _ Gd S1) as Gd1. 
  apply (says_weaken g g4 W W (fun rho => (ev M rho a = tv M (negb true) \/ ev M rho b = tv M (negb false)) /\ (ev M rho a = tv M (negb false) \/ ev M rho b = tv M (negb true)))); auto.
  - intros rho _ [[_ Ba] [_ Bb]] E. pose proof (bool_diff M). destruct (isb_tv M _ Ba), (isb_tv M _ Bb); simpl in *; intuition congruence.
  - intros rho _ [[_ Ba] [_ Bb]] E. pose proof (bool_diff M). destruct (isb_tv M _ Ba), (isb_tv M _ Bb); simpl in *; intuition congruence.
  - apply says_both.
    + eapply says_up; [exact Gd|exact S03|exact S4|]. eapply says_down; [exact Gd|exact S1|exact S13|exact LW| |].
      * intros rho rho' A [E|E]; [left|right]; eapply value_local; eauto.
      * eapply says_or with (W2 := boolean b); [exact Gd1|exact S2|exact S3| | | | |exact RP].
        -- eapply local_sub; eauto.
        -- eapply value_local. eapply typed_sub; eauto.
        -- intros rho _ [_ H] _; exact H.
        -- eapply says_weaken; [| | |exact LN]; auto. intros rho _ [H _]. exact H.
    + eapply says_or with (W2 := boolean b); [exact Gd|exact S03|exact S4|exact LW| | | |exact RN].
      * eapply value_local; eauto.
      * intros rho _ [_ H] _; exact H.
      * eapply says_up; [exact Gd|exact S1|exact S13|]. eapply says_weaken; [| | |exact LP]; auto. intros rho _ [H _]. exact H.
Qed.
(** if-then-else with an exact condition *)
Lemma claims_ite g g1 g2 c c1 c2 U p a b neg cp x ca cb : good g c -> steps K g g1 c c1 -> steps K g1 g2 c1 c2 ->
  typed g [] (tite U p a b) tbool -> claims g g p false cp -> clauses_to_literal cp = Some x -> claims g g1 a neg ca -> claims g1 g2 b neg cb ->
  claims g g2 (tite U p a b) neg (clause_set_if x ca cb).
Proof.
  intros Gd S1 S2 TT CP EX CA CB. destruct (typed_ite K _ _ _ _ _ _ _ TT) as (<- & _ & Tp & Ta & Tb). set (t := tite tbool p a b) in *.
  pose proof S1 as (_ & _ & SB1 & _). pose proof (good_steps _ _ _ _ Gd S1) as Gd1.
  assert (HB : forall rho, boolean t rho -> boolean p rho /\ boolean a rho /\ boolean b rho /\
     (ev M rho p = tv M true -> ev M rho t = ev M rho a) /\ (ev M rho p = tv M false -> ev M rho t = ev M rho b)).
  { intros rho [W _]. unfold t in W. pose proof (ite_cases M (anydom M) rho (nobs M) tbool p a b W) as CS. fold (ev M rho p) (ev M rho a) (ev M rho b) (ev M rho (tite tbool p a b)) in CS. fold t in CS. pose proof W as W'. apply swt_ite in W'. destruct W' as (_ & W1 & W2 & W3 & _ & W4 & W5 & W6).
    split; [split; auto|]. split; [split; auto|]. split; [split; auto|]. pose proof (bool_diff M). split; intros E; rewrite E in CS; simpl in CS; intuition congruence. }
  destruct (says_same _ _ _ _ CP) as [TP SP].
  assert (DP : forall rho, ev M rho p = tv M (negb false) \/ ev M rho p <> tv M (negb false)) by (intros rho; apply val_dec).
  assert (TV : lit_typed g lit_true_value /\ lit_typed g lit_false_value) by (split; exists tbool; split; apply (ty_sym K g [] STrue); auto).
  assert (TX : lit_typed g x) by (eapply set_to_literal; [exact EX| | |exact TP]; apply TV).
  assert (LX : forall rho, base rho -> boolean t rho -> lit_has g rho x /\ (lit_holds M rho x <-> ev M rho p = tv M true)).
  { intros rho B H. destruct (HB rho H) as (Hp & _). destruct (SP rho B Hp (DP rho)) as [X Y].
    assert (HT : has M rho ttrue tbool) by (split; [exact I|apply isb_true]).
    split; [eapply set_to_literal; [exact EX| | |exact X]; exists tbool; (split; [apply (ty_sym K g [] STrue); auto|]; split; [apply (ty_sym K g [] STrue); auto|]; split; exact HT)|].
    rewrite <- (hold_to_literal rho cp x EX). exact Y. }
  assert (LW : local g (boolean t)) by (eapply boolean_local; eauto).
  assert (S1x : says g g (boolean t) (fun rho => ev M rho p = tv M false) (clauses_from_literal (negate x))).
  { apply says_exact; [apply set_literal; exact TX|]. intros rho B H. destruct (LX rho B H) as [L1 L2]. destruct (HB rho H) as ([_ Bp] & _).
    split; [apply set_literal; exact L1|]. rewrite hold_literal by (apply negate_wt; eapply has_wt; eauto). rewrite negate_holds, L2.
    pose proof (bool_diff M). destruct (isb_tv M _ Bp) as [E|E]; rewrite E; simpl; intuition congruence. }
  assert (S2x : says g1 g1 (boolean t) (fun rho => ev M rho p = tv M true) (clauses_from_literal x)).
  { apply says_exact; [apply set_literal; eapply lit_typed_sub; eauto|]. intros rho B H. destruct (LX rho B H) as [L1 L2].
    split; [apply set_literal; eapply lit_has_sub; eauto|]. rewrite hold_literal by (eapply has_wt; eauto). exact L2. }
  apply (says_weaken g g2 (boolean t) _ (fun rho => (ev M rho p = tv M false \/ ev M rho a = tv M (negb neg)) /\ (ev M rho p = tv M true \/ ev M rho b = tv M (negb neg)))); auto.
  - intros rho _ H E. destruct (HB rho H) as ([_ Bp] & _ & _ & V1 & V2). destruct (isb_tv M _ Bp) as [X|X]; [rewrite V1 in E by auto|rewrite V2 in E by auto]; auto.
  - intros rho _ H E. destruct (HB rho H) as ([_ Bp] & _ & _ & V1 & V2). pose proof (bool_diff M). destruct (isb_tv M _ Bp) as [X|X]; rewrite X in E; simpl in E; [rewrite V1 by auto|rewrite V2 by auto]; intuition congruence.
  - assert (R0 : steps K g g c c) by (apply steps_refl; [eapply good_ctx; eauto|apply more_refl]).
    assert (R1 : steps K g1 g1 c1 c1) by (apply steps_refl; [eapply good_ctx; eauto|apply more_refl]).
    apply says_both.
    + eapply says_up; [exact Gd|exact S1|exact S2|]. eapply says_or with (W2 := boolean a); [exact Gd|exact R0|exact S1|exact LW| | |exact S1x|exact CA].
      * eapply value_local; eauto.
      * intros rho _ H _. apply HB. auto.
    + eapply says_down; [exact Gd|exact S1|exact S2|exact LW| |].
      * intros rho rho' A [E|E]; [left|right]; [eapply (value_local g p)|eapply (value_local g b)]; eauto.
      * eapply says_or with (W2 := boolean b); [exact Gd1|exact R1|exact S2| | | |exact S2x|exact CB].
        -- eapply local_sub; eauto.
        -- eapply value_local. eapply typed_sub; eauto.
        -- intros rho _ H _. apply HB. auto.
Qed.
End Sets.
