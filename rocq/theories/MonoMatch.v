(** Matching of monomorphic clauses (checker.rs [clause_matches_with_var_map]). *)
From Coq Require Import List Arith NArith Bool Lia.
Import ListNotations.
From Verif Require Import VariableMap Unifier Inference ClauseSet EqualityGraph Checker.
From Verif Require Import Term LocalContext Semantics TermProofs SemFacts TermNorm TermNormProofs Typing TypingProofs Literal Clause ClauseSem RenumberProofs ClauseProofs ClauseWf InferenceProofs
  VariableMapProofs UnifierProofs CheckerProofs CheckerSem P_TermNorm P_Checker Monomorphic MonoProofs MonoNorm MonoReduce MonoUnify MonoRules.

Section MM.
Context (M : Model) (K : kctx) (CT : closed_types K) (R : respects M K).
Notation et := (element_type M).
Notation ht := (has_type M K).
Notation hq := (hq M K).
Notation ml := (mono_literal M K).
Notation mt := (mono_typed M K).

Lemma match_ground g : forall gc sc m s m', ground_type g = true -> match_terms K gc sc m g s = Some (true, m') -> s = g /\ m' = m.
Proof.
  induction g as [[i|i|x]|f IHf a IHa|k A IHA b IHb]; intros gc sc m s m' G H; try discriminate.
  - cbn [match_terms] in H. destruct s as [y| |]; try discriminate. destruct (atom_eq_dec (Sym x) y) as [E|E]; [|discriminate H]. injection H as <-. subst y. auto.
  - assert (H' : match s with
      | TApp sf sa => match_and (match_terms K gc sc m f sf) (fun m => match_terms K gc sc m a sa)
      | _ => Some (false, m) end = Some (true, m')).
    { cbn [match_terms] in H. destruct f as [|f y|]; auto. destruct f as [|f z|]; auto. destruct f as [[?|?|[]]|?|?]; auto. discriminate G. }
    simpl in G. apply andb_prop in G. destruct s as [|sf sa|]; try discriminate. apply match_and_true in H'. destruct H' as (m1 & H1 & H2).
    apply IHf in H1; [|tauto]. destruct H1 as [-> ->]. apply IHa in H2; [|tauto]. destruct H2 as [-> ->]. auto.
  - cbn [match_terms] in H. simpl in G. destruct k; try discriminate. apply andb_prop in G. destruct s as [| |k' sA sb]; try discriminate.
    destruct (bkind_eq_dec KPi k') as [<-|]; [|discriminate]. apply match_and_true in H. destruct H as (m1 & H1 & H2).
    apply IHA in H1; [|tauto]. destruct H1 as [-> ->]. apply IHb in H2; [|tauto]. destruct H2 as [-> ->]. auto.
Qed.

(** the values of the map have the types of the variables *)
Definition tm (gc sc : lctx) (m : vmap) : Prop :=
  forall i r, vget m i = Some r -> exists T, get_var_type gc i = Some T /\ ht sc [] r T.
Definition sub (c c' : lctx) : Prop := forall i T, get_var_type c i = Some T -> get_var_type c' i = Some T.

Lemma match_free_typed g0 s0 gc sc m i s m' bs T T' : mono_context M g0 -> sub g0 gc -> sub s0 sc -> get_var_type g0 i = Some T -> hq s0 bs s T' -> tm g0 s0 m ->
  match_free K gc sc m i s = Some (true, m') -> tm g0 s0 m' /\ T = T'.
Proof.
  intros HG Sg Ss Hi Hs Tm H. pose proof (match_free_spec _ _ _ _ _ _ _ H) as [L Hm]. pose proof (mc_get M _ _ _ HG Hi) as HT.
  pose proof (hq_nobs M K _ _ _ _ Hs L) as Hs0.
  assert (E : T = T').
  { unfold match_free in H. change (has_escaping_bound_variable s = false) in L. rewrite L, (Sg _ _ Hi) in H. cbv zeta in H. rewrite (apply_closed m T) in H by (apply (et_vars M); auto).
    rewrite (hq_type M K CT sc s T') in H by (eapply hq_weaken; eauto).
    destruct (term_eqb T T') eqn:E1; [apply term_eqb_eq; auto|]. exfalso. apply (et_ground M) in HT.
    destruct (term_eqb T type0) eqn:E2; [apply term_eqb_eq in E2; subst; discriminate|].
    destruct T as [[?|?|[]]|?|?]; try discriminate. }
  split; auto. subst T'. apply (hq_ground M K) in Hs0; [|eapply et_ground; eauto].
  apply match_var_spec in Hm. destruct Hm as (M1 & M2 & M3). intros j r Hr. destruct (Nat.eq_dec j i) as [->|N].
  - rewrite M2 in Hr. injection Hr as <-. eauto.
  - rewrite M3 in Hr by auto. auto.
Qed.

Lemma hq_bind G bs k A b T : hq G bs (TBind k A b) T ->
  exists B, et A /\ ht G (A :: bs) b B /\ T = (match k with KLam => tarrow A B | _ => tbool end) /\ (k <> KLam -> B = tbool).
Proof.
  intros [H|[[H _]|[H _]]]; try discriminate. inversion H; subst.
  - exists B. repeat split; auto. congruence.
  - exists tbool. repeat split; auto. match goal with [X : k = KAll \/ k = KEx |- _] => destruct X as [-> | ->]; auto end.
Qed.
Lemma match_terms_typed n : forall g g0 s0 gc sc m s m' bs T T', tsize g <= n -> mono_context M g0 -> sub g0 gc -> sub s0 sc ->
  hq g0 bs g T -> hq s0 bs s T' -> tm g0 s0 m -> match_terms K gc sc m g s = Some (true, m') -> tm g0 s0 m' /\ T = T'.
Proof.
  induction n as [|n IH]; intros g g0 s0 gc sc m s m' bs T T' Hn HG Sg Ss Tg Ts Tm H; [pose proof (tsize_pos g); lia|].
  assert (St : match g with
    | TAtom (FreeVar i) => match_free K gc sc m i s
    | TAtom a => match s with TAtom b => Some (if atom_eq_dec a b then true else false, m) | _ => Some (false, m) end
    | TApp gf ga =>
      match s with
      | TApp sf sa => match_and (match_terms K gc sc m gf sf) (fun m => match_terms K gc sc m ga sa)
      | _ => Some (false, m)
      end
    | TBind k gA gb =>
      match s with
      | TBind k' sA sb =>
        if bkind_eq_dec k k' then
          match_and (match_terms K gc sc m gA sA) (fun m =>
            match_terms K (push_type gc (apply_to_term m gA)) (push_type sc sA) m gb sb)
        else Some (false, m)
      | _ => Some (false, m)
      end
    end = Some (true, m') -> tm g0 s0 m' /\ T = T').
  { clear H. intros H. destruct g as [[i|i|x]|gf ga|k gA gb].
    - eapply match_free_typed; eauto. destruct Tg as [Tg|[[E _]|[E _]]]; try discriminate. inversion Tg; auto.
    - destruct s as [b| |]; try discriminate. destruct (atom_eq_dec (BoundVar i) b) as [<-|]; [|discriminate]. injection H as <-.
      split; auto. destruct Tg as [Tg|[[E _]|[E _]]], Ts as [Ts|[[E' _]|[E' _]]]; try discriminate. inversion Tg; subst. inversion Ts; subst. congruence.
    - destruct s as [b| |]; try discriminate. destruct (atom_eq_dec (Sym x) b) as [<-|]; [|discriminate]. injection H as <-. split; auto.
      destruct Tg as [Tg|[[E ->]|[E ->]]], Ts as [Ts|[[E' ->]|[E' ->]]]; try congruence.
      + inversion Tg; inversion Ts; congruence.
      + injection E' as ->. inversion Tg; discriminate.
      + injection E' as ->. inversion Tg; discriminate.
      + injection E as ->. inversion Ts; discriminate.
      + injection E as ->. inversion Ts; discriminate.
    - destruct s as [|sf sa|]; try discriminate. apply match_and_true in H. destruct H as (m1 & H1 & H2). simpl in Hn.
      apply (hq_app M K) in Tg. apply (hq_app M K) in Ts.
      destruct Tg as [(A & F1 & EA & HA)|(k & B & F1 & Hk & Ga & Ho)], Ts as [(A' & F2 & EA' & HA')|(k' & B' & F2 & Hk' & Ga' & Ho')];
        (destruct (IH gf g0 s0 gc sc m sf m1 bs _ _ ltac:(lia) HG Sg Ss F1 F2 Tm H1) as [T1 Q]; injection Q as -> ->).
      + destruct (IH ga g0 s0 gc sc m1 sa m' bs A' A' ltac:(lia) HG Sg Ss (or_introl HA) (or_introl HA') T1 H2). auto.
      + apply et_not_kind in EA. congruence.
      + apply et_not_kind in EA'. congruence.
      + apply match_ground in H2; auto. destruct H2 as [-> ->]. split; auto. congruence.
    - destruct s as [| |k' sA sb]; try discriminate. destruct (bkind_eq_dec k k') as [<-|]; [|discriminate].
      apply match_and_true in H. destruct H as (m1 & H1 & H2). simpl in Hn.
      apply hq_bind in Tg. apply hq_bind in Ts. destruct Tg as (B1 & EA1 & Hb1 & -> & N1), Ts as (B2 & EA2 & Hb2 & -> & N2).
      apply match_ground in H1; [|eapply et_ground; eauto]. destruct H1 as [-> ->].
      destruct (IH gb g0 s0 (push_type gc (apply_to_term m gA)) (push_type sc gA) m sb m' (gA :: bs) B1 B2 ltac:(lia) HG) as [X ->]; auto.
      + intros i U Hi. apply push_keeps. auto.
      + intros i U Hi. apply push_keeps. auto.
      + left; auto.
      + left; auto. }
  destruct (split_eq_args g) as [[[gT g1] g2]|] eqn:Eg.
  - apply split_eq_args_some in Eg. subst g. unfold teq in Hn. simpl in Hn.
    unfold teq in H. cbn [match_terms] in H. destruct (split_eq_args s) as [[[sT s1] s2]|] eqn:Es; [|apply St; exact H].
    apply split_eq_args_some in Es. subst s. clear St.
    destruct Tg as [Tg|[[E _]|[E _]]]; try discriminate. destruct Ts as [Ts|[[E _]|[E _]]]; try discriminate.
    apply (ht_eq_iff M K) in Tg. apply (ht_eq_iff M K) in Ts. destruct Tg as (-> & Eg & G1 & G2), Ts as (-> & Es & S1 & S2).
    assert (Two : forall x y mm, ht s0 bs x sT -> ht s0 bs y sT -> match_and (match_terms K gc sc m gT sT) (fun m =>
            match_and (match_terms K gc sc m g1 x) (fun m => match_terms K gc sc m g2 y)) = Some (true, mm) -> tm g0 s0 mm).
    { intros x y mm Hx Hy E1. apply match_and_true in E1. destruct E1 as (m1 & H1 & H2). apply match_and_true in H2. destruct H2 as (m2 & H2 & H3).
      apply match_ground in H1; [|eapply et_ground; eauto]. destruct H1 as [-> ->].
      destruct (IH g1 g0 s0 gc sc m x m2 bs gT gT ltac:(lia) HG Sg Ss (or_introl G1) (or_introl Hx) Tm H2) as [T2 _].
      destruct (IH g2 g0 s0 gc sc m2 y mm bs gT gT ltac:(lia) HG Sg Ss (or_introl G2) (or_introl Hy) T2 H3). auto. }
    split; auto.
    destruct (match_and (match_terms K gc sc m gT sT) _) as [[[] mx]|] eqn:E1; try discriminate.
    + injection H as ->. eapply Two; [| |exact E1]; auto.
    + clear E1. destruct (match_and (match_terms K gc sc m gT sT) _) as [[[] my]|] eqn:E1; try discriminate.
      injection H as ->. eapply Two; [| |exact E1]; auto.
  - apply St. clear St. destruct g as [|f x|]; auto. destruct f as [|f y|]; auto. destruct f as [|f z|]; auto.
    destruct f as [[?|?|[]]|?|?]; auto. discriminate.
Qed.

Lemma swapeq_sym t t' : swapeq t t' -> swapeq t' t.
Proof. induction 1; [constructor|constructor; auto|constructor; auto|]. apply sw_eq; auto. Qed.

(** ** Clauses *)
Definition instance (m : vmap) (g s : literal) : Prop :=
  positive g = positive s /\
  ((swapeq (apply_to_term m (left g)) (left s) /\ swapeq (apply_to_term m (right g)) (right s)) \/
   (swapeq (apply_to_term m (left g)) (right s) /\ swapeq (apply_to_term m (right g)) (left s))).
Definition lit_covered (m : vmap) (g : literal) : Prop := covers m (left g) /\ covers m (right g).
Lemma sides_typed gc sc m a b a' b' m' T T' : mono_context M gc -> ht gc [] a T -> ht gc [] b T -> ht sc [] a' T' -> ht sc [] b' T' -> tm gc sc m -> match_sides K gc sc m a b a' b' = Some (Some m') ->
  tm gc sc m' /\ extends m m' /\ covers m' a /\ covers m' b /\ swapeq (apply_to_term m' a) a' /\ swapeq (apply_to_term m' b) b' /\ (closed_map m -> closed_map m').
Proof.
  intros HG Ha Hb Ha' Hb' Tm H. unfold match_sides in H.
  destruct (match_terms K gc sc m a a') as [[[] m1]|] eqn:E1; try discriminate. destruct (match_terms K gc sc m1 b b') as [[[] m2]|] eqn:E2; try discriminate. injection H as <-.
  assert (Rf : forall c, sub c c) by (intros c i U; auto).
  destruct (match_terms_typed (tsize a) a gc sc gc sc m a' m1 [] T T') as [T1 _]; auto; [left; auto|left; auto|].
  destruct (match_terms_typed (tsize b) b gc sc gc sc m1 b' m2 [] T T') as [T2 _]; auto; [left; auto|left; auto|].
  apply match_terms_matched in E1. apply match_terms_matched in E2. destruct E1 as [A1 A2 A3 A4], E2 as [B1 B2 B3 B4].
  rewrite (apply_extends m1 m2 a) by auto. repeat split; auto; [eapply extends_trans; eauto|eapply covers_extends; eauto].
Qed.
Lemma literals_match_typed gc sc m g l m' : mono_context M gc -> ml gc g -> ml sc l -> tm gc sc m -> literals_match K gc sc m g l = Some (Some m') ->
  tm gc sc m' /\ extends m m' /\ lit_covered m' g /\ instance m' g l /\ (closed_map m -> closed_map m').
Proof.
  intros HG (T & HT & G1 & G2) (U & HU & L1 & L2) Tm H. unfold literals_match in H.
  destruct (Bool.eqb (positive g) (positive l)) eqn:Ep; [|discriminate]. apply Bool.eqb_prop in Ep. cbn [negb] in H.
  destruct (match_sides K gc sc m (left g) (right g) (left l) (right l)) as [[m1|]|] eqn:E1; [| |discriminate].
  - injection H as <-. apply (sides_typed _ _ _ _ _ _ _ _ T U) in E1; auto. unfold lit_covered, instance. tauto.
  - apply (sides_typed _ _ _ _ _ _ _ _ T U) in H; auto. unfold lit_covered, instance. tauto.
Qed.
Lemma instance_extends m m' g s : extends m m' -> lit_covered m g -> instance m g s -> instance m' g s.
Proof. intros H [C1 C2]. unfold instance. rewrite !(apply_extends m m') by auto. auto. Qed.
Lemma covered_extends m m' g : extends m m' -> lit_covered m g -> lit_covered m' g.
Proof. intros H [C1 C2]. split; eapply covers_extends; eauto. Qed.

Lemma match_from_typed gc sc gs : mono_context M gc -> forall m ss, (forall g, In g gs -> ml gc g) -> (forall s, In s ss -> ml sc s) -> tm gc sc m -> closed_map m ->
  match_from K gc sc gs m ss = Some true ->
  exists m', tm gc sc m' /\ closed_map m' /\ extends m m' /\ forall g, In g gs -> lit_covered m' g /\ exists s, In s ss /\ instance m' g s.
Proof.
  intros HG. induction gs as [|g r IH]; intros m ss Hg Hs Tm Cm H; cbn [match_from] in H.
  - exists m. split; auto. split; auto. split; [apply extends_refl|]. intros g [].
  - assert (G : forall post pre, (forall s, In s (pre ++ post) -> In s ss) -> match_first K (match_from K gc sc r) gc sc m g pre post = Some true ->
      exists m', tm gc sc m' /\ closed_map m' /\ extends m m' /\ forall g', In g' (g :: r) -> lit_covered m' g' /\ exists s, In s ss /\ instance m' g' s).
    { induction post as [|l post IHp]; intros pre Hin E; cbn [match_first] in E; [discriminate|].
      assert (Next : match_first K (match_from K gc sc r) gc sc m g (pre ++ [l]) post = Some true -> exists m', tm gc sc m' /\ closed_map m' /\ extends m m' /\ forall g', In g' (g :: r) -> lit_covered m' g' /\ exists s, In s ss /\ instance m' g' s).
      { intros E'. eapply IHp; [|exact E']. intros s. rewrite <- app_assoc. auto. }
      destruct (literals_match K gc sc m g l) as [[m1|]|] eqn:El; [|auto|discriminate].
      assert (Il : In l ss) by (apply Hin, in_or_app; simpl; auto).
      destruct (match_from K gc sc r m1 (pre ++ post)) as [[]|] eqn:Ef; [|auto|discriminate].
      destruct (literals_match_typed _ _ _ _ _ _ HG (Hg g (or_introl eq_refl)) (Hs l Il) Tm El) as (T1 & X1 & C1 & I1 & K1).
      assert (Sub : forall s, In s (pre ++ post) -> In s ss).
      { intros s Hi. apply Hin. apply in_app_or in Hi. apply in_or_app. simpl. tauto. }
      destruct (IH m1 (pre ++ post)) as (m' & T2 & K2 & X2 & Q); auto.
      { intros g' Hg'. apply Hg. simpl; auto. }
      exists m'. split; auto. split; auto. split; [eapply extends_trans; eauto|]. intros g' [<-|Hg'].
      - split; [eapply covered_extends; eauto|]. exists l. split; auto. eapply instance_extends; eauto.
      - destruct (Q g' Hg') as (Q1 & s & Q2 & Q3). split; auto. exists s. auto. }
    apply (G ss [] (fun s Hs => Hs)). exact H.
Qed.

Lemma mono_match a b : mt a -> mt b -> Checker.clause_matches K a b = Some true -> valid M a -> valid M b.
Proof.
  intros Ha Hb H V. apply mt_in in Ha. apply mt_in in Hb. destruct Ha as [HG Hg], Hb as [HS Hs]. unfold Checker.clause_matches in H.
  destruct (Nat.eqb _ _); [|discriminate]. cbn [negb] in H.
  destruct (match_from_typed (context a) (context b) (literals a) HG [] (literals b)) as (m & Tm & Cm & _ & Q); auto.
  { intros [|i] r; discriminate. } { intros [|i] r; discriminate. }
  intros rho Vr. set (c := context a) in *.
  assert (S : suitable M (Clause [] c)) by (apply (mt_suitable M K CT R); split; [exact HG|constructor]).
  destruct S as [_ S2 S3]. simpl in S2, S3.
  set (ids := filter (fun i => match vget m i with Some _ => true | None => false end) (seq 0 (length c))).
  assert (Ty : forall i T r, get_var_type c i = Some T -> vget m i = Some r -> mem M (ev M rho r) (ev M (nobs M) T)).
  { intros i T r HT Hr. destruct (Tm i r Hr) as (T' & HT' & X). assert (T' = T) by congruence. subst. apply (ht_value M K CT R _ _ _ rho X Vr). }
  destruct (all_completable M c ids S2) with (via M m rho) as (rho' & A & V'); auto.
  - intros v d _ Hd. rewrite (mc_deps M) in Hd by auto. destruct Hd.
  - intros v T Hv HT. apply filter_In in Hv. destruct Hv as [_ Hv]. unfold via at 1. destruct (vget m v) as [r|] eqn:E; [|discriminate].
    pose proof (et_closed M T (mc_get M _ _ _ HG HT)) as Cl. unfold ev at 2. rewrite (closed_eval M T _ _ Cl). eapply Ty; eauto.
  - assert (Val : forall t, covers m t -> ev M rho' t = ev M rho (apply_to_term m t)).
    { intros t C. rewrite (ev_apply M _ _ _ Cm). apply eval_ext; auto. intros i Hi. specialize (C i Hi). destruct (vget m i) as [r|] eqn:E; [|contradiction].
      apply A. apply filter_In. rewrite E. split; auto. apply in_seq. split; [lia|]. destruct (Tm i r E) as (T & HT & _). unfold get_var_type in HT. apply nth_error_Some. destruct (nth_error c i); congruence. }
    destruct (V rho' V') as (g & Gg & Gh). destruct (Q g Gg) as ([C1 C2] & s & Is & Ep & Ei). exists s. split; auto.
    destruct (Hs s Is) as (U & HU & L1 & L2). pose proof (proj1 (ht_value M K CT R _ _ _ rho L1 Vr)) as W1. pose proof (proj1 (ht_value M K CT R _ _ _ rho L2 Vr)) as W2.
    assert (Sw : forall x y, swapeq x y -> swtg M (proper_inhabited M) rho (nobs M) y -> ev M rho x = ev M rho y).
    { intros x y Hxy Wy. apply (swapeq_sound M _ _ _ (swapeq_sym _ _ Hxy) rho (nobs M) Wy). }
    unfold lit_holds in *. rewrite Ep in Gh. rewrite (Val _ C1), (Val _ C2) in Gh.
    destruct Ei as [[E1 E2]|[E1 E2]]; rewrite (Sw _ _ E1), (Sw _ _ E2) in Gh by auto; destruct (positive s); auto.
Qed.
End MM.
