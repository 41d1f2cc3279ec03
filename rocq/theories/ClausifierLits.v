(** The literals of the disjunctive lowering mean the same as the term. *)
From Coq Require Import List Arith NArith Bool Lia.
Import ListNotations.
From Verif Require Import Term LocalContext Semantics TermProofs SemFacts Typing TypingProofs Monomorphic PolyTyped Literal Clause ClauseSem ClauseProofs TermNorm Clausifier ClausifierProofs ClausifierConv ClausifierExt.

Definition tv (M : Model) (b : bool) : D M := if b then dsym M STrue else dsym M SFalse.
Lemma isb_tv M d : isb M d -> d = tv M true \/ d = tv M false. Proof. apply isb_cases. Qed.
Lemma tv_diff M b : tv M b <> tv M (negb b).
Proof. pose proof (bool_diff M). destruct b; simpl; congruence. Qed.
Lemma bnot_tv M b : bnot M (tv M b) = tv M (negb b).
Proof. destruct b; [apply not_true|apply not_false]. Qed.

(** ** values of functions *)
Lemma ev_arrow M rho A B : lc B -> ev M rho (tarrow A B) = dbind M KPi (ev M rho A) (fun _ => ev M rho B).
Proof. intros L. unfold ev. simpl. apply bind_ext. intros x _. apply eval_lc. exact L. Qed.

Definition has M rho (x A : term) : Prop := wt M rho x /\ mem M (ev M rho x) (ev M rho A).
Lemma apply_has K M rho g xs : forall f As U, has M rho f (arrows As U) -> ptm K g 0 (arrows As U) = true -> Forall2 (has M rho) xs As ->
  has M rho (apply f xs) U.
Proof.
  induction xs as [|x xs IH]; intros f As U Hf P F; inversion F; subst; auto. simpl in *. rewrite ?andb_true_l in P. apply andb_true_iff in P. destruct P as [P1 P2].
  apply (IH _ l'); auto. destruct Hf as [W Mf]. destruct H1 as [Wx Mx]. rewrite ev_arrow in Mf by (apply (@ptype_lc K _ _ P2 0)). split.
  - split; [exact W|]. split; [exact Wx|]. eapply pi_appok; eauto.
  - unfold ev in *. simpl. apply (pi_app M _ _ _ _ Mf Mx).
Qed.
Lemma ev_apply M rho xs : forall f, ev M rho (apply f xs) = fold_left (dapp M) (map (ev M rho) xs) (ev M rho f).
Proof. induction xs as [|x xs IH]; intros f; simpl; auto. rewrite IH. reflexivity. Qed.
Lemma differ K M rho g U : forall As f h, ptm K g 0 (arrows As U) = true -> mem M f (ev M rho (arrows As U)) -> mem M h (ev M rho (arrows As U)) -> f <> h ->
  ~ ~ exists ds, Forall2 (fun d A => mem M d (ev M rho A)) ds As /\ fold_left (dapp M) ds f <> fold_left (dapp M) ds h.
Proof.
  induction As as [|A As IH]; intros f h P Hf Hh N NE; [apply NE; exists []; split; auto|].
  simpl in P. rewrite ?andb_true_l in P. apply andb_true_iff in P. destruct P as [P1 P2]. simpl in Hf, Hh. rewrite ev_arrow in Hf, Hh by (apply (@ptype_lc K _ _ P2 0)).
  apply N. eapply pi_ext; eauto. intros x Hx. destruct (val_dec M (dapp M f x) (dapp M h x)) as [|N2]; auto. exfalso.
  refine (IH _ _ P2 _ _ N2 _); [apply (pi_app M _ _ _ _ Hf Hx)|apply (pi_app M _ _ _ _ Hh Hx)|].
  intros (ds & H1 & H2). apply NE. exists (x :: ds). split; auto.
Qed.

Lemma fresh_vars_eq : forall l c, fresh_vars c l = (map (fun i => TVar i) (seq (length c) (length l)), c ++ map Some l).
Proof.
  induction l as [|A l IH]; intros c; simpl; [rewrite app_nil_r; auto|]. rewrite IH. unfold push_type.
  rewrite app_length. simpl. rewrite Nat.add_1_r, <- app_assoc. reflexivity.
Qed.

Section Lits.
Context (K : kctx) (ME : symbol -> option (list symbol)).
Notation typed := (typed K).
Notation ptype g := (ptm K g 0).

Definition agree (M : Model) (g : tenv) (rho rho' : nat -> D M) : Prop := forall v U, g v = Some U -> rho v = rho' v.
Lemma typed_agree M g t T rho rho' : agree M g rho rho' -> typed g [] t T -> (wt M rho t -> wt M rho' t) /\ ev M rho t = ev M rho' t.
Proof.
  intros A H. assert (E : forall i, In i (vars t) -> rho i = rho' i).
  { intros i Hi. destruct (typed_vars K _ _ _ _ _ H Hi) as [U HU]. eapply A; eauto. }
  pose proof (typed_lc0 K _ _ _ H) as L. split.
  - apply swt_agree with 0; auto.
  - apply eval_agree with 0; auto.
Qed.
Lemma ptype_agree M g T rho rho' : agree M g rho rho' -> ptype g T = true -> ev M rho T = ev M rho' T.
Proof.
  intros A P. apply eval_agree with 0; auto; [|apply (@ptype_lc K g T P)]. intros i Hi. destruct (ptype_vars _ _ P _ Hi) as (k & E & _). eapply A; eauto.
Qed.

Definition new_ok (M : Model) (g g' : tenv) (rho : nat -> D M) : Prop :=
  forall i T, g i = None -> g' i = Some T -> mem M (rho i) (ev M rho T).
Definition steps (g g' : tenv) (c c' : lctx) : Prop :=
  more K g c c' /\ gctx g' c' /\ gsub g g' /\ forall i T, g i = None -> g' i = Some T -> length c <= i /\ ptype g T = true.
Lemma steps_refl g c c' : gctx g c -> more K g c c' -> steps g g c c'.
Proof.
  intros G M. split; auto. split; [eapply more_ctx; eauto|]. split; [intros i T H; auto|]. intros; congruence.
Qed.
Lemma steps_ptype g g' c c' T : steps g g' c c' -> ptype g' T = true -> ptype g T = true.
Proof.
  intros (_ & _ & S & N) P. eapply ptype_env; [exact P|]. intros v k _ Hv Hk. destruct (g v) as [U|] eqn:E; [apply S in E; congruence|].
  destruct (N _ _ E Hv) as [_ X]. apply ptype_not_kind in X. congruence.
Qed.
Lemma steps_trans g g1 g2 c c1 c2 : steps g g1 c c1 -> steps g1 g2 c1 c2 -> steps g g2 c c2.
Proof.
  intros H1 H2. pose proof (fun T => steps_ptype _ _ _ _ T H1) as P. destruct H1 as (M1 & G1 & S1 & N1), H2 as (M2 & G2 & S2 & N2).
  split; [eapply more_trans; [eauto|eapply more_down; eauto]|]. split; auto. split; [intros i T H; auto|].
  intros i T E H. destruct (g1 i) as [U|] eqn:E1.
  - pose proof (S2 _ _ E1) as X. rewrite H in X. injection X as <-. auto.
  - destruct (N2 _ _ E1 H). split; auto. apply more_len in M1. lia.
Qed.
Lemma new_ok_left M g g1 g2 rho : gsub g1 g2 -> new_ok M g g2 rho -> new_ok M g g1 rho.
Proof. intros S H i T E E1. apply H; auto. Qed.
Lemma new_ok_right M g g1 g2 rho : gsub g g1 -> new_ok M g g2 rho -> new_ok M g1 g2 rho.
Proof. intros S H i T E E1. apply H; auto. destruct (g i) as [U|] eqn:X; auto. apply S in X. congruence. Qed.

(** [ls] says in [g'] that [t] has value [pos] *)
Definition lits_ok (g g' : tenv) (t : term) (pos : bool) (ls : list literal) : Prop :=
  Forall (fun l => exists T, typed g' [] (left l) T /\ typed g' [] (right l) T) ls /\
  (forall M rho, wt M rho t -> new_ok M g g' rho -> Forall (lit_wt M rho) ls /\ (ev M rho t = tv M pos -> cholds M rho ls)) /\
  (forall M rho, wt M rho t -> isb M (ev M rho t) -> ev M rho t = tv M (negb pos) ->
    ~ ~ exists rho', agree M g rho rho' /\ new_ok M g g' rho' /\ ~ cholds M rho' ls).

Lemma lits_one g t pos x : (exists T, typed g [] (left x) T /\ typed g [] (right x) T) ->
  (forall M rho, wt M rho t -> lit_wt M rho x /\ (ev M rho t = tv M pos -> lit_holds M rho x) /\
    (isb M (ev M rho t) -> lit_holds M rho x -> ev M rho t = tv M pos)) -> lits_ok g g t pos [x].
Proof.
  intros HT H. split; [auto|]. split.
  - intros M rho W _. destruct (H M rho W) as (H1 & H2 & _). split; auto. intros E. exists x. split; [left; auto|auto].
  - intros M rho W B E NE. destruct (H M rho W) as (_ & _ & H3). apply NE. exists rho. split; [intros v U _; auto|].
    split; [intros i T; congruence|]. intros (l & [<-|[]] & Hl). specialize (H3 B Hl). pose proof (tv_diff M pos). congruence.
Qed.

Lemma lit_new_typed g pos a b T : typed g [] a T -> typed g [] b T ->
  exists T, typed g [] (left (lit_new pos a b)) T /\ typed g [] (right (lit_new pos a b)) T.
Proof. intros Ha Hb. exists T. unfold lit_new, lit_new_with_flip. destruct (needs_to_flip a b); auto. Qed.

Lemma eq_value M rho U l r pos : wt M rho (teq U l r) -> (ev M rho (teq U l r) = tv M pos <-> if pos then ev M rho l = ev M rho r else ev M rho l <> ev M rho r).
Proof.
  intros W. pose proof (isb_eq M _ _ _ U l r W) as B. pose proof (eq_true M _ _ _ U l r W) as E. fold (ev M rho (teq U l r)) in *.
  pose proof (bool_diff M) as D. destruct pos; [exact E|]. split.
  - intros H X. apply E in X. simpl in H. congruence.
  - intros H. destruct (isb_cases M _ B) as [X|X]; auto. apply E in X. contradiction.
Qed.
Lemma lit_new_same g U l r a b pos : typed g [] a U -> typed g [] b U -> same l a -> same r b ->
  lits_ok g g (teq U l r) pos [lit_new pos a b].
Proof.
  intros Ha Hb Sa Sb. apply lits_one; [eapply lit_new_typed; eauto|]. intros M rho W. rewrite lit_new_wt, lit_new_holds.
  pose proof W as W'. apply swt_eq in W'. destruct W' as (W0 & W1 & W2 & _). destruct (Sa M rho W1) as [Wa Ea]. destruct (Sb M rho W2) as [Wb Eb].
  split; auto. rewrite eq_value by auto. unfold lit_holds. simpl. rewrite Ea, Eb. destruct pos; tauto.
Qed.

Lemma bool_equality_sem l r pos x : bool_equality_literal l r pos = Some x -> forall g, typed g [] l tbool -> typed g [] r tbool ->
  (exists T, typed g [] (left x) T /\ typed g [] (right x) T) /\
  forall M rho, wt M rho l -> wt M rho r -> isb M (ev M rho l) -> isb M (ev M rho r) ->
    lit_wt M rho x /\ (lit_holds M rho x <-> if pos then ev M rho l = ev M rho r else ev M rho l <> ev M rho r).
Proof.
  unfold bool_equality_literal, inline. destruct (inline_fuel (tsize l) l) as [[a s]|] eqn:E1; [|discriminate].
  destruct (inline_fuel (tsize r) r) as [[b s']|] eqn:E2; [|discriminate]. intros [= <-] g Hl Hr.
  pose proof (inline_ok K _ _ _ _ _ _ Hl E1) as A1. pose proof (inline_ok K _ _ _ _ _ _ Hr E2) as A2.
  assert (Ta : typed g [] a tbool) by (destruct s; tauto). assert (Tb : typed g [] b tbool) by (destruct s'; tauto).
  split; [eapply lit_new_typed; eauto|]. intros M rho Wl Wr Bl Br. rewrite lit_new_wt, lit_new_holds.
  assert (Ga : wt M rho a /\ isb M (ev M rho a) /\ ev M rho l = if s then ev M rho a else bnot M (ev M rho a)).
  { destruct s; [destruct A1 as [_ A1]; destruct (A1 M rho Wl) as [Wa Ea]; rewrite Ea; auto|]. destruct A1 as (_ & _ & A1). destruct (A1 M rho Wl) as (Wa & Ba & Ea). auto. }
  assert (Gb : wt M rho b /\ isb M (ev M rho b) /\ ev M rho r = if s' then ev M rho b else bnot M (ev M rho b)).
  { destruct s'; [destruct A2 as [_ A2]; destruct (A2 M rho Wr) as [Wa Ea]; rewrite Ea; auto|]. destruct A2 as (_ & _ & A2). destruct (A2 M rho Wr) as (Wa & Ba & Ea). auto. }
  destruct Ga as (Wa & Ba & Ea), Gb as (Wb & Bb & Eb). split; auto. unfold lit_holds. simpl. rewrite Ea, Eb.
  pose proof (bnot_tv M true) as N1. pose proof (bnot_tv M false) as N2. pose proof (bool_diff M) as D. simpl in *.
  destruct (isb_cases M _ Ba) as [Xa|Xa], (isb_cases M _ Bb) as [Xb|Xb]; rewrite Xa, Xb;
  destruct s, s', pos; simpl; rewrite ?N1, ?N2; split; intros Y; try congruence; auto.
Qed.

(** ** function equations *)
Definition gext (g : tenv) (c : lctx) (As : list term) : tenv :=
  fun i => if Nat.ltb i (length c) then g i else nth_error As (i - length c).
Lemma gext_steps g c As : gctx g c -> Forall (fun A => ptype g A = true) As -> steps g (gext g c As) c (c ++ map Some As).
Proof.
  intros G P. assert (S : gsub g (gext g c As)).
  { intros i T H. unfold gext. destruct (Nat.ltb_spec i (length c)) as [|L]; auto. rewrite (gctx_fresh g c i) in H by auto. discriminate. }
  split; [exists As; split; auto|]. split; [|split; auto].
  - intros i T H. unfold gext in H. destruct (Nat.ltb_spec i (length c)) as [L|L].
    + apply G in H. unfold get_var_type in *. rewrite nth_error_app1 by auto. auto.
    + unfold get_var_type. rewrite nth_error_app2 by auto. rewrite nth_error_map, H. reflexivity.
  - intros i T E H. unfold gext in H. destruct (Nat.ltb_spec i (length c)) as [L|L]; [congruence|]. split; auto.
    rewrite Forall_forall in P. apply P. eapply nth_error_In; eauto.
Qed.
Lemma ext_ok_gext g c As t T e : gctx g c -> Forall (fun A => ptype g A = true) As -> ext_ok K g c t T e -> ext_ok K (gext g c As) c t T e.
Proof.
  intros G P. destruct (gext_steps g c As G P) as (_ & _ & S & _). destruct e as [u|? ? ?|vs b]; simpl; auto.
  - intros [H1 H2]. split; auto. eapply typed_sub; eauto.
  - intros ([F N] & B & HB & PB & ET & SS). assert (F' : fresh_list K (gext g c As) c vs).
    { split; auto. eapply Forall_impl; [|exact F]. intros p (H1 & H2 & H3). split; [|split; auto].
      - unfold gext. destruct (Nat.ltb_spec (fst p) (length c)); [auto|lia].
      - eapply ptype_sub; eauto. }
    split; auto. exists B. split; [|split; [|split; auto]].
    + eapply typed_sub; [|exact HB]. clear - S. induction vs as [|[v A] r IH]; simpl; auto. intros i T. unfold gupd. destruct (Nat.eqb i v); auto.
    + destruct PB; auto. right. eapply ptype_sub; eauto.
Qed.
Lemma gext_vars g c As : Forall (fun A => ptype g A = true) As -> gctx g c -> Forall2 (typed (gext g c As) []) (map (fun i => TVar i) (seq (length c) (length As))) As.
Proof.
  intros P G. destruct (gext_steps g c As G P) as (_ & _ & GS & _).
  assert (H : forall k l, (forall j, nth_error As (k + j) = nth_error l j) -> Forall (fun A => ptype g A = true) l ->
    Forall2 (typed (gext g c As) []) (map (fun i => TVar i) (seq (length c + k) (length l))) l).
  { intros k l. revert k. induction l as [|A l IH]; intros k E F; simpl; constructor.
    - inversion F; subst. apply ty_var; [|eapply ptype_sub; eauto]. unfold gext. destruct (Nat.ltb_spec (length c + k) (length c)); [lia|].
      replace (length c + k - length c) with (k + 0) by lia. rewrite E. reflexivity.
    - inversion F; subst. rewrite <- Nat.add_succ_r. apply IH; auto. intros j. specialize (E (S j)). simpl in E. rewrite <- E. f_equal. lia. }
  specialize (H 0 As). rewrite Nat.add_0_r in H. apply H; auto.
Qed.
Lemma gext_has M g c As rho : Forall (fun A => ptype g A = true) As -> gctx g c -> new_ok M g (gext g c As) rho ->
  Forall2 (has M rho) (map (fun i => TVar i) (seq (length c) (length As))) As.
Proof.
  intros P G N. pose proof (gext_vars g c As P G) as F.
  assert (H : Forall2 (fun x A => typed (gext g c As) [] x A /\ exists i, x = TVar i /\ length c <= i) (map (fun i => TVar i) (seq (length c) (length As))) As).
  { clear N. revert F. assert (Q : forall i, In i (seq (length c) (length As)) -> length c <= i) by (intros i Hi; apply in_seq in Hi; lia).
    revert Q. generalize (seq (length c) (length As)). intros ids Q. generalize (gext g c As). intros g'. revert ids Q. clear P.
    induction As as [|A As IH]; intros [|i ids] Q F; inversion F; subst; constructor.
    - split; auto. exists i. split; auto. apply Q. left. auto.
    - apply IH; auto. intros j Hj. apply Q. right. auto. }
  eapply Forall2_impl; [|exact H]. intros x A (HT & i & -> & Hi). split; [exact I|]. inversion HT; subst. apply N; auto. eapply gctx_fresh; eauto.
Qed.

Lemma arrows_pi T : T = arrows (pi_inputs T) (pi_output T).
Proof. induction T as [|? ? ? ?|k A _ B IH]; auto. destruct k; auto. simpl. unfold tarrow. f_equal. auto. Qed.

(** an environment with the given values for the new variables *)
Definition with_values (M : Model) (rho : nat -> D M) (k : nat) (ds : list (D M)) : nat -> D M :=
  fun i => if Nat.ltb i k then rho i else nth (i - k) ds (rho i).
Lemma with_values_agree M g c rho ds : gctx g c -> agree M g rho (with_values M rho (length c) ds).
Proof.
  intros G v U H. unfold with_values. destruct (Nat.ltb_spec v (length c)) as [|L]; auto. rewrite (gctx_fresh g c v) in H by auto. discriminate.
Qed.
Lemma with_values_vars M rho k ds : map (ev M (with_values M rho k ds)) (map (fun i => TVar i) (seq k (length ds))) = ds.
Proof.
  rewrite map_map. unfold ev. simpl.
  assert (H : forall j l, (forall i, nth_error ds (j + i) = nth_error l i) -> map (with_values M rho k ds) (seq (k + j) (length l)) = l).
  { intros j l. revert j. induction l as [|d l IH]; intros j E; simpl; auto. f_equal.
    - unfold with_values. destruct (Nat.ltb_spec (k + j) k); [lia|]. replace (k + j - k) with j by lia.
      apply nth_error_nth. specialize (E 0). rewrite Nat.add_0_r in E. exact E.
    - rewrite <- Nat.add_succ_r. apply IH. intros i. specialize (E (S i)). simpl in E. rewrite <- E. f_equal. lia. }
  specialize (H 0 ds). rewrite Nat.add_0_r in H. apply H. auto.
Qed.

Lemma pos_function g c t U l r As V c1 l' r' a b x :
  gctx g c -> gctx g c1 -> more K g c c1 -> t = teq U l r -> U = arrows As V -> ptype g U = true -> typed g [] l U -> typed g [] r U ->
  ext_ok K g c1 l U l' -> ext_ok K g c1 r U r' ->
  ext_to_term K (c1 ++ map Some As) (ext_apply l' (map (fun i => TVar i) (seq (length c1) (length As)))) = Some a ->
  ext_to_term K (c1 ++ map Some As) (ext_apply r' (map (fun i => TVar i) (seq (length c1) (length As)))) = Some b ->
  x = lit_new true a b \/ (V = tbool /\ bool_equality_literal a b true = Some x) ->
  steps g (gext g c1 As) c (c1 ++ map Some As) /\ lits_ok g (gext g c1 As) t true [x].
Proof.
  intros G G1 M1 -> -> PU Hl Hr El Er Ea Eb Hx. set (g' := gext g c1 As) in *. set (xs := map (fun i => TVar i) _) in *.
  apply ptype_arrows in PU as PP. destruct PP as [PA PV]. pose proof (gext_steps g c1 As G1 PA) as ST.
  split. { destruct ST as (S1 & S2 & S3 & S4). split; [eapply more_trans; eauto|]. split; auto. split; auto. intros i T H1 H2. destruct (S4 i T H1 H2). split; auto. apply more_len in M1. lia. }
  assert (PU' : ptype g' (arrows As V) = true) by (destruct ST as (_ & _ & S & _); eapply ptype_sub; eauto).
  pose proof (gext_vars g c1 As PA G1) as TX. fold g' xs in TX.
  destruct (ext_to_term_ok K g' c1 (apply l xs) V _ _ _ (ext_apply_ok K g' c1 l l' xs As V (ext_ok_gext _ _ _ _ _ _ G1 PA El) PU' TX) Ea) as [Ta Sa].
  destruct (ext_to_term_ok K g' c1 (apply r xs) V _ _ _ (ext_apply_ok K g' c1 r r' xs As V (ext_ok_gext _ _ _ _ _ _ G1 PA Er) PU' TX) Eb) as [Tb Sb].
  assert (TX2 : exists T, typed g' [] (left x) T /\ typed g' [] (right x) T).
  { destruct Hx as [->|[-> Hx]]; [eapply lit_new_typed; eauto|]. eapply bool_equality_sem; eauto. }
  assert (VAL : forall M rho, wt M rho (teq (arrows As V) l r) -> new_ok M g g' rho -> lit_wt M rho x /\
    (lit_holds M rho x <-> fold_left (dapp M) (map (ev M rho) xs) (ev M rho l) = fold_left (dapp M) (map (ev M rho) xs) (ev M rho r))).
  { intros M rho W N. apply swt_eq in W. destruct W as (_ & W1 & W2 & _ & W3 & W4).
    pose proof (gext_has M g c1 As rho PA G1 N) as HX. fold xs in HX.
    destruct (apply_has K M rho g xs l As V (conj W1 W3) PU HX) as [Wl Ml]. destruct (apply_has K M rho g xs r As V (conj W2 W4) PU HX) as [Wr Mr].
    destruct (Sa M rho Wl) as [Wa Eva]. destruct (Sb M rho Wr) as [Wb Evb]. rewrite <- !ev_apply.
    destruct Hx as [->|[-> Hx]].
    - rewrite lit_new_wt, lit_new_holds. split; auto. unfold lit_holds. simpl. rewrite Eva, Evb. tauto.
    - destruct (bool_equality_sem _ _ _ _ Hx g' Ta Tb) as [_ BE]. destruct (BE M rho) as [B1 B2]; auto; try (rewrite ?Eva, ?Evb; assumption).
      split; auto. rewrite B2, Eva, Evb. tauto. }
  split; [auto|]. split.
  - intros M rho W N. destruct (VAL M rho W N) as [V1 V2]. split; auto. rewrite eq_value by auto. intros E. exists x. split; [left; auto|].
    apply V2. rewrite E. auto.
  - intros M rho W B E NE. rewrite eq_value in E by auto. cbn [negb] in E. pose proof W as W'. apply swt_eq in W'. destruct W' as (_ & W1 & W2 & _ & W3 & W4).
    apply (differ K M rho g V As _ _ PU W3 W4 E). intros (ds & F & ND).
    assert (LD : length ds = length As) by (eapply Forall2_len; eauto).
    pose proof (with_values_agree M g c1 rho ds G1) as AG. set (rho' := with_values M rho (length c1) ds) in *.
    assert (TT : typed g [] (teq (arrows As V) l r) tbool) by (apply typed_eq_intro; auto).
    assert (W' : wt M rho' (teq (arrows As V) l r)) by (apply (typed_agree M g _ _ _ _ AG TT); auto).
    assert (N' : new_ok M g g' rho').
    { intros i T Hi HT. unfold g', gext in HT. destruct (Nat.ltb_spec i (length c1)) as [L|L]; [congruence|].
      assert (PT : ptype g T = true) by (rewrite Forall_forall in PA; apply PA; eapply nth_error_In; eauto).
      rewrite <- (ptype_agree M g T rho rho' AG PT). unfold rho', with_values. destruct (Nat.ltb_spec i (length c1)); [lia|].
      clear - F HT. revert ds F HT. generalize (i - length c1). intros j. generalize (rho i). intros d0 ds F. revert j. induction F; intros [|j] HT; simpl in *; try discriminate.
      - injection HT as <-. auto.
      - auto. }
    apply NE. exists rho'. split; auto. split; auto. intros (l0 & [<-|[]] & HH). apply VAL in HH; auto.
    unfold xs in HH. rewrite <- LD in HH. unfold rho' in HH at 1 3. rewrite !with_values_vars in HH. fold rho' in HH.
    rewrite <- (proj2 (typed_agree M g l _ _ _ AG Hl)), <- (proj2 (typed_agree M g r _ _ _ AG Hr)) in HH. contradiction.
Qed.

Lemma single_literal_ok n g c t pos o c' : single_literal K ME n c t pos = Some (o, c') -> gctx g c -> typed g [] t tbool ->
  match o with
  | Some x => exists g', steps g g' c c' /\ lits_ok g g' t pos [x]
  | None => c' = c
  end.
Proof.
  unfold single_literal. intros E G HT. destruct (split_symbol_application t SEq 3) as [sl|] eqn:ES; [|injection E as <- <-; auto].
  destruct (split_typed K _ _ _ _ _ _ _ HT ES eq_refl) as [Et L]. destruct sl as [|U [|l [|r [|]]]]; try discriminate.
  change (apply (TSym SEq) [U; l; r]) with (teq U l r) in Et. subst t. clear ES L.
  destruct (is_match K ME l || is_match K ME r); [injection E as <- <-; auto|]. destruct (typed_eq K _ _ _ _ _ _ HT) as (_ & PU & Hl & Hr).
  unfold obind in E. rewrite (typed_type K g c l U G Hl) in E.
  assert (BASE : exists g', steps g g' c c /\ lits_ok g g' (teq U l r) pos [lit_new pos l r]).
  { exists g. split; [apply steps_refl; auto; apply more_refl|]. apply lit_new_same; auto using same_refl. }
  destruct (pi_inputs U) as [|A As] eqn:EP.
  - unfold term_eqb in E. destruct (term_eq_dec U tbool) as [->|]; [|injection E as <- <-; auto].
    destruct (bool_equality_literal l r pos) as [x|] eqn:EB; injection E as <- <-; auto.
    exists g. split; [apply steps_refl; auto; apply more_refl|]. destruct (bool_equality_sem _ _ _ _ EB g Hl Hr) as [T1 S1]. apply lits_one; auto.
    intros M rho W. pose proof W as W'. apply swt_eq in W'. destruct W' as (_ & W1 & W2 & _ & W3 & W4).
    destruct (S1 M rho W1 W2 W3 W4) as [V1 V2]. rewrite eq_value by auto. rewrite V2. tauto.
  - destruct (to_ext K n c l) as [[l' c1]|] eqn:E1; [|discriminate]. destruct (to_ext K n c1 r) as [[r' c2]|] eqn:E2; [|discriminate].
    destruct (to_ext_ok K _ _ _ _ _ _ E1 G) as [M1 [C1 _]]; [left; eauto|]. assert (G1 : gctx g c1) by (eapply more_ctx; eauto).
    destruct (to_ext_ok K _ _ _ _ _ _ E2 G1) as [M2 [C2 _]]; [left; eauto|]. assert (G2 : gctx g c2) by (eapply more_ctx; eauto).
    specialize (C1 _ Hl). specialize (C2 _ Hr). apply (ext_ok_more K _ _ _ _ _ _ _ M2) in C1.
    assert (MM : more K g c c2) by (eapply more_trans; eauto). destruct pos.
    + rewrite fresh_vars_eq in E. destruct (ext_to_term K _ (ext_apply l' _)) as [a|] eqn:E3; [|discriminate]. destruct (ext_to_term K _ (ext_apply r' _)) as [b|] eqn:E4; [|discriminate].
      assert (EU : U = arrows (A :: As) (pi_output U)) by (rewrite <- EP; apply arrows_pi).
      pose proof (fun x => pos_function g c _ U l r (A :: As) (pi_output U) c2 l' r' a b x G G2 MM eq_refl EU PU Hl Hr C1 C2 E3 E4) as PF.
      unfold term_eqb in E. destruct (term_eq_dec (pi_output U) tbool) as [EO|].
      * destruct (bool_equality_literal a b true) as [x|] eqn:EB; injection E as <- <-; eexists; apply PF; auto.
      * injection E as <- <-. eexists. apply PF; auto.
    + destruct (ext_to_term K c2 l') as [a|] eqn:E3; [|discriminate]. destruct (ext_to_term K c2 r') as [b|] eqn:E4; [|discriminate]. injection E as <- <-.
      exists g. split; [apply steps_refl; auto|]. destruct (ext_to_term_ok K _ _ _ _ _ _ _ C1 E3). destruct (ext_to_term_ok K _ _ _ _ _ _ _ C2 E4).
      apply lit_new_same; auto.
Qed.

Lemma shallow_ok n g c t pos x c' : literal_from_shallow K ME n c t pos = Some (x, c') -> gctx g c -> typed g [] t tbool ->
  exists g', steps g g' c c' /\ lits_ok g g' t pos [x].
Proof.
  unfold literal_from_shallow, obind. intros E G HT. destruct (single_literal K ME n c t pos) as [[o c1]|] eqn:E1; [|discriminate].
  pose proof (single_literal_ok _ _ _ _ _ _ _ E1 G HT) as H. destruct o as [y|]; [injection E as <- <-; auto|]. subst c1.
  destruct (to_inline_term K n c t) as [[u c2]|] eqn:E2; [|discriminate]. injection E as <- <-.
  destruct (to_inline_ok K _ _ _ _ _ _ _ E2 G HT) as (M1 & Tu & Su). exists g. split; [apply steps_refl; auto|].
  apply lits_one; [eapply lit_new_typed; eauto; apply (ty_sym K g [] STrue); auto|].
  intros M rho W. destruct (Su M rho W) as [Wu Eu]. unfold from_signed_term. rewrite lit_new_wt, lit_new_holds. split; [split; [auto|exact I]|].
  unfold lit_holds. simpl. rewrite Eu. unfold ev at 2 4. simpl. pose proof (bool_diff M). destruct pos; simpl; split; try tauto.
  - intros E. unfold ev in *. simpl in *. congruence.
  - intros B N. destruct (isb_cases M _ B) as [X|X]; auto. contradiction.
Qed.

Lemma lits_not g g' x pos ls : lits_ok g g' x (negb pos) ls -> lits_ok g g' (tnot x) pos ls.
Proof.
  intros (H1 & H2 & H3). assert (V : forall M rho b, wt M rho (tnot x) -> (ev M rho (tnot x) = tv M b <-> ev M rho x = tv M (negb b))).
  { intros M rho b W. apply swt_not in W. destruct W as [W B]. change (ev M rho (tnot x)) with (bnot M (ev M rho x)).
    destruct (isb_tv M _ B) as [E|E]; unfold ev in *; rewrite E, bnot_tv; pose proof (bool_diff M); destruct b; simpl; split; congruence. }
  split; auto. split.
  - intros M rho W N. rewrite V by auto. apply swt_not in W. apply H2; tauto.
  - intros M rho W B E. rewrite V in E by auto. apply swt_not in W. destruct W. apply H3; auto.
Qed.
Lemma lits_or g g1 g2 c c1 c2 a b t (pos : bool) ls rs : typed g [] a tbool -> typed g [] b tbool -> t = (if pos then tor a b else tand a b) ->
  steps g g1 c c1 -> steps g1 g2 c1 c2 -> lits_ok g g1 a pos ls -> lits_ok g1 g2 b pos rs -> lits_ok g g2 t pos (ls ++ rs).
Proof.
  intros Ta Tb -> ST1 ST2 (A1 & A2 & A3) (B1 & B2 & B3).
  assert (WW : forall M rho, wt M rho (if pos then tor a b else tand a b) -> wt M rho a /\ wt M rho b /\ isb M (ev M rho a) /\ isb M (ev M rho b)).
  { intros M rho W. destruct pos; [apply swt_or in W|apply swt_and in W]; tauto. }
  assert (V : forall M rho, wt M rho (if pos then tor a b else tand a b) ->
    (ev M rho (if pos then tor a b else tand a b) = tv M pos -> ev M rho a = tv M pos \/ ev M rho b = tv M pos) /\
    (ev M rho (if pos then tor a b else tand a b) = tv M (negb pos) -> ev M rho a = tv M (negb pos) /\ ev M rho b = tv M (negb pos))).
  { intros M rho W. destruct (WW M rho W) as (_ & _ & Ba & Bb). pose proof (bool_diff M) as DD. destruct pos.
    - destruct (or_val M _ _ Ba Bb) as [I1 I2]. change (ev M rho (tor a b)) with (dapp M (dapp M (dsym M SOr) (ev M rho a)) (ev M rho b)).
      destruct (isb_tv M _ Ba) as [Xa|Xa], (isb_tv M _ Bb) as [Xb|Xb]; rewrite Xa, Xb in *; simpl in *; intuition congruence.
    - destruct (and_val M _ _ Ba Bb) as [I1 I2]. change (ev M rho (tand a b)) with (dapp M (dapp M (dsym M SAnd) (ev M rho a)) (ev M rho b)).
      destruct (isb_tv M _ Ba) as [Xa|Xa], (isb_tv M _ Bb) as [Xb|Xb]; rewrite Xa, Xb in *; simpl in *; intuition congruence. }
  pose proof ST1 as (_ & _ & S1 & _). pose proof ST2 as (_ & _ & S2 & _). split; [|split].
  - apply Forall_app. split; auto. eapply Forall_impl; [|exact A1]. intros l (T & X1 & X2). exists T. split; eapply typed_sub; eauto.
  - intros M rho W N. destruct (WW M rho W) as (Wa & Wb & _). destruct (A2 M rho Wa (new_ok_left _ _ _ _ _ S2 N)) as [L1 L2].
    destruct (B2 M rho Wb (new_ok_right _ _ _ _ _ S1 N)) as [R1 R2]. split; [apply Forall_app; auto|]. intros E. apply V in E; auto.
    destruct E as [E|E]; [destruct (L2 E) as (l & Hl & HH)|destruct (R2 E) as (l & Hl & HH)]; exists l; split; auto; apply in_app_iff; auto.
  - intros M rho W B E NE. destruct (WW M rho W) as (Wa & Wb & Ba & Bb). apply V in E; auto. destruct E as [Ea Eb].
    apply (A3 M rho Wa Ba Ea). intros (rho1 & AG1 & N1 & C1).
    destruct (typed_agree M g b tbool rho rho1 AG1 Tb) as [Wb1 Eb1]. rewrite Eb1 in Bb, Eb.
    apply (B3 M rho1 (Wb1 Wb) Bb Eb). intros (rho2 & AG2 & N2 & C2). apply NE. exists rho2. split; [|split].
    + intros v U HU. rewrite (AG1 v U HU). apply (AG2 v U). auto.
    + intros i T Hi HT. destruct (g1 i) as [U|] eqn:Ei.
      * pose proof (S2 _ _ Ei) as X. rewrite HT in X. injection X as <-. rewrite <- (AG2 i T Ei).
        assert (PT : ptype g T = true) by (apply ST1 in Ei; tauto).
        rewrite <- (ptype_agree M g T rho1 rho2); [apply N1; auto| |auto]. intros v U HU. apply (AG2 v U). auto.
      * apply N2; auto.
    + intros (l & Hl & HH). apply in_app_iff in Hl. destruct Hl as [Hl|Hl]; [|apply C2; exists l; auto]. apply C1. exists l. split; auto.
      rewrite Forall_forall in A1. destruct (A1 l Hl) as (T & X1 & X2). unfold lit_holds in *.
      rewrite (proj2 (typed_agree M g1 _ _ _ _ AG2 X1)), (proj2 (typed_agree M g1 _ _ _ _ AG2 X2)). exact HH.
Qed.

Lemma disjunctive_ok n : forall g c t pos ls c', disjunctive K ME n c t pos = Some (ls, c') -> gctx g c -> typed g [] t tbool ->
  exists g', steps g g' c c' /\ lits_ok g g' t pos ls.
Proof.
  induction n as [|n IH]; intros g c t pos ls c' E G HT; [discriminate|]. cbn [disjunctive] in E.
  assert (LAST : obind (literal_from_shallow K ME n c t pos) (fun '(x, c) => Some ([x], c)) = Some (ls, c') -> exists g', steps g g' c c' /\ lits_ok g g' t pos ls).
  { unfold obind. destruct (literal_from_shallow K ME n c t pos) as [[x c1]|] eqn:E1; [|discriminate]. intros [= <- <-]. eapply shallow_ok; eauto. }
  destruct (split_symbol_application t SNot 1) as [[|x rest]|] eqn:EN.
  - destruct (split_typed K _ _ _ _ _ _ _ HT EN eq_refl). discriminate.
  - destruct (split_typed K _ _ _ _ _ _ _ HT EN eq_refl) as [-> L]. destruct rest; [|discriminate]. change (apply (TSym SNot) [x]) with (tnot x) in *.
    apply typed_not in HT. destruct HT as [_ HT]. destruct (IH _ _ _ _ _ _ E G HT) as (g' & S & H). exists g'. split; auto. apply lits_not; auto.
  - destruct (split_symbol_application t (if pos then SOr else SAnd) 2) as [sl|] eqn:EO; [|auto].
    assert (IV : is_value (if pos then SOr else SAnd) = true) by (destruct pos; auto).
    destruct (split_typed K _ _ _ _ _ _ _ HT EO IV) as [Et L]. destruct sl as [|a [|b [|]]]; try discriminate. simpl in Et.
    assert (Hs : (if pos then SOr else SAnd) = SAnd \/ (if pos then SOr else SAnd) = SOr) by (destruct pos; auto).
    rewrite Et in HT. destruct (typed_bin K _ _ _ _ _ _ Hs HT) as (_ & Ha & Hb). unfold obind in E.
    destruct (disjunctive K ME n c a pos) as [[l c1]|] eqn:E1; [|discriminate]. destruct (disjunctive K ME n c1 b pos) as [[r c2]|] eqn:E2; [|discriminate].
    injection E as <- <-. destruct (IH _ _ _ _ _ _ E1 G Ha) as (g1 & S1 & H1). pose proof S1 as (_ & G1 & GS & _).
    destruct (IH _ _ _ _ _ _ E2 G1 (typed_sub K _ _ _ _ _ GS Hb)) as (g2 & S2 & H2). exists g2. split; [eapply steps_trans; eauto|].
    eapply lits_or; [exact Ha|exact Hb| |exact S1|exact S2|exact H1|exact H2]. rewrite Et. destruct pos; reflexivity.
Qed.
End Lits.
