(** Injectivity and extensionality for monomorphic clauses. *)
From Coq Require Import List Arith NArith Bool Lia.
Import ListNotations.
From Verif Require Import VariableMap Unifier Inference ClauseSet EqualityGraph Checker.
From Verif Require Import Term LocalContext Semantics TermProofs SemFacts TermNorm TermNormProofs Typing TypingProofs Literal Clause ClauseSem RenumberProofs ClauseProofs ClauseWf InferenceProofs
  VariableMapProofs UnifierProofs CheckerProofs CheckerSem P_TermNorm P_Checker P_Extensionality Monomorphic MonoProofs MonoNorm MonoReduce MonoUnify MonoRules.

Lemma bound_open_inj D : forall d a b, lc a -> lc b -> occurs_bound d D = true -> open_at d a D = open_at d b D -> a = b.
Proof.
  induction D as [[i|i|s]|f IHf x IHx|k A IHA c IHc]; intros d a b La Lb O H; simpl in *; try discriminate.
  - apply Nat.eqb_eq in O. subst i. rewrite Nat.ltb_irrefl, Nat.eqb_refl, !shift_up_lc in H by auto. auto.
  - injection H as H1 H2. apply orb_prop in O. destruct O; eauto.
  - injection H as H1 H2. apply orb_prop in O. destruct O; eauto.
Qed.
Lemma open_swap C : forall d a s, lc a -> lc s -> open_at d a (open_at d s C) = open_at d s (open_at (S d) a C).
Proof.
  induction C as [[i|i|x]|f IHf y IHy|k A IHA c IHc]; intros d a s La Ls; simpl; auto.
  - destruct (Nat.ltb_spec i d), (Nat.eqb_spec i d), (Nat.ltb_spec i (S d)), (Nat.eqb_spec i (S d)); try lia; simpl.
    + destruct (Nat.ltb_spec i d); [auto|lia].
    + rewrite !shift_up_lc by auto. rewrite open_at_lc by (eapply lc_weaken; [|exact Ls]; lia).
      destruct (Nat.ltb_spec i d), (Nat.eqb_spec i d); try lia. auto.
    + rewrite !shift_up_lc by auto. rewrite (open_at_lc a) by (eapply lc_weaken; [|exact La]; lia).
      destruct (Nat.ltb_spec (i - 1) d), (Nat.eqb_spec (i - 1) d); try lia. auto.
    + destruct (Nat.ltb_spec (i - 1) d), (Nat.eqb_spec (i - 1) d); try lia. auto.
  - rewrite IHf, IHy; auto.
  - rewrite IHA, IHc; auto.
Qed.
Lemma occurs_open C : forall d e s, d < e -> occurs_bound e C = true -> occurs_bound (e - 1) (open_at d s C) = true.
Proof.
  induction C as [[i|i|x]|f IHf y IHy|k A IHA c IHc]; intros d e s L O; simpl in *; try discriminate.
  - apply Nat.eqb_eq in O. subst i. destruct (Nat.ltb_spec e d), (Nat.eqb_spec e d); try lia. simpl. apply Nat.eqb_refl.
  - apply orb_prop in O. destruct O as [O|O]; [rewrite (IHf d e s L O)|rewrite (IHy d e s L O), orb_true_r]; auto.
  - apply orb_prop in O. destruct O as [O|O]; [rewrite (IHA d e s L O)|]; auto.
    specialize (IHc (S d) (S e) s ltac:(lia) O). replace (S e - 1) with (S (e - 1)) in IHc by lia. rewrite IHc, orb_true_r. auto.
Qed.
Lemma occurs_open_below C : forall d e s, e < d -> occurs_bound e C = true -> occurs_bound e (open_at d s C) = true.
Proof.
  induction C as [[i|i|x]|f IHf y IHy|k A IHA c IHc]; intros d e s L O; simpl in *; try discriminate.
  - apply Nat.eqb_eq in O. subst i. destruct (Nat.ltb_spec e d); try lia. simpl. apply Nat.eqb_refl.
  - apply orb_prop in O. destruct O as [O|O]; [rewrite (IHf d e s L O)|rewrite (IHy d e s L O), orb_true_r]; auto.
  - apply orb_prop in O. destruct O as [O|O]; [rewrite (IHA d e s L O)|]; auto.
    rewrite (IHc (S d) (S e) s ltac:(lia) O), orb_true_r. auto.
Qed.
Lemma ground_uses T : ground_type T = true -> uses_parameters T.
Proof.
  induction T as [a|f IHf a IHa|k A IHA b IHb]; simpl; auto. destruct k; auto. intros H. apply andb_prop in H. split; [|apply IHb, H].
  intros Hk. destruct H as [H _]. destruct A as [[?|?|[]]|?|?]; discriminate.
Qed.
Lemma kind_open d s A : ground_type s = true -> is_type_param_kind (open_at d s A) = true -> is_type_param_kind A = true.
Proof.
  intros G. destruct A as [[i|i|x]|f y|k B b]; simpl; auto. destruct (Nat.ltb i d); simpl; auto. destruct (Nat.eqb i d); simpl; auto.
  rewrite shift_up_lc by (apply ground_lc; auto). destruct s as [[?|?|[]]|?|?]; try discriminate; auto.
Qed.
Lemma uses_open T : forall d s, ground_type s = true -> uses_parameters T -> uses_parameters (open_at d s T).
Proof.
  induction T as [[i|i|x]|f IHf a IHa|k A IHA b IHb]; intros d s G; simpl; auto.
  - intros _. destruct (Nat.ltb i d); simpl; auto. destruct (Nat.eqb i d); simpl; auto. rewrite shift_up_lc by (apply ground_lc; auto).
    apply ground_uses; auto.
  - destruct k; auto. intros [H1 H2]. split; auto. intros Hk. apply occurs_open_below; [lia|]. apply H1. eapply kind_open; eauto.
Qed.

Section MI.
Context (M : Model) (K : kctx) (CT : closed_types K) (R : respects M K) (UP : parameters_used K).
Notation et := (element_type M).
Notation ht := (has_type M K).
Notation hq := (hq M K).
Notation ml := (mono_literal M K).
Notation mt := (mono_typed M K).

Lemma ht_uses G bs t T : ht G bs t T -> uses_parameters T.
Proof.
  induction 1; try (apply ground_uses, (et_ground M); auto; fail).
  - apply UP; auto.
  - apply ground_uses, (et_ground M), et_eq; auto.
  - apply ground_uses, (et_ground M), et_ite; auto.
  - simpl in IHhas_type1. apply IHhas_type1.
  - simpl in IHhas_type. rewrite open_bound_spec in H1. injection H1 as <-. apply uses_open; [|apply IHhas_type].
    match goal with [X : type_arg _ _ _ |- _] => apply X end.
  - apply ground_uses, (et_ground M), et_arrow; auto.
  - reflexivity || (simpl; auto).
Qed.
Lemma hq_uses G bs t T : hq G bs t T -> uses_parameters T.
Proof. intros [H|[[-> ->]|[-> ->]]]; [eapply ht_uses; eauto| |]; simpl; repeat split; auto; discriminate. Qed.
Lemma hq_unique G t T U : hq G [] t T -> hq G [] t U -> T = U.
Proof. intros H1 H2. apply (hq_type M K CT) in H1. apply (hq_type M K CT) in H2. congruence. Qed.
Lemma hq_prefix G l : forall f T, hq G [] (apply f l) T -> exists U, hq G [] f U.
Proof.
  induction l as [|a l IH]; intros f T H; simpl in H; [eauto|]. destruct (IH _ _ H) as [U HU].
  apply (hq_app M K) in HU. destruct HU as [(A & HU & _)|(k & B & HU & _)]; eauto.
Qed.

Lemma arrow_back G post : forall g g' U U' T, ground_type U = true -> ground_type U' = true -> hq G [] g U -> hq G [] g' U' ->
  hq G [] (apply g post) T -> hq G [] (apply g' post) T -> U = U'.
Proof.
  assert (No : forall k, is_type_param_kind k = true -> ground_type k = true -> False).
  { intros [[?|?|[]]|?|?]; discriminate. }
  induction post as [|p post IH]; intros g g' U U' T Gu Gu' H H' P P'; simpl in P, P'.
  - rewrite (hq_unique _ _ _ _ H P), (hq_unique _ _ _ _ H' P'). auto.
  - destruct (hq_prefix _ _ _ _ P) as [V HV]. destruct (hq_prefix _ _ _ _ P') as [V' HV'].
    pose proof HV as I. pose proof HV' as I'. apply (hq_app M K) in I. apply (hq_app M K) in I'.
    destruct I as [(A & F & EA & HA)|(k & B & F & Hk & Ga & Ho)]; pose proof (hq_unique _ _ _ _ H F) as ->; simpl in Gu; apply andb_prop in Gu; [|exfalso; eapply No; [exact Hk|tauto]].
    destruct I' as [(A' & F' & EA' & HA')|(k & B & F' & Hk & Ga & Ho)]; pose proof (hq_unique _ _ _ _ H' F') as ->; simpl in Gu'; apply andb_prop in Gu'; [|exfalso; eapply No; [exact Hk|tauto]].
    rewrite (ht_unique M K CT _ _ _ _ HA HA'). f_equal. eapply IH; [| |exact HV|exact HV'|exact P|exact P']; tauto.
Qed.
Lemma type_back G post : forall D g g' a b T, ground_type a = true -> ground_type b = true -> lc_at 1 D -> occurs_bound 0 D = true ->
  hq G [] g (open_at 0 a D) -> hq G [] g' (open_at 0 b D) -> hq G [] (apply g post) T -> hq G [] (apply g' post) T -> a = b.
Proof.
  induction post as [|p post IH]; intros D g g' a b T Ga Gb L O H H' P P'; simpl in P, P';
    pose proof (ground_lc a Ga 0 : lc a) as La; pose proof (ground_lc b Gb 0 : lc b) as Lb.
  - eapply bound_open_inj; [exact La|exact Lb|exact O|]. rewrite (hq_unique _ _ _ _ H P), (hq_unique _ _ _ _ H' P'). auto.
  - destruct (hq_prefix _ _ _ _ P) as [V HV]. destruct (hq_prefix _ _ _ _ P') as [V' HV'].
    pose proof HV as I. pose proof HV' as I'. apply (hq_app M K) in I. apply (hq_app M K) in I'.
    destruct D as [[i|i|x]|f y|k A1 C1]; try discriminate.
    + (* the parameter itself *)
      simpl in O. apply Nat.eqb_eq in O. subst i. simpl in H, H'. rewrite shift_up_lc in H, H' by auto.
      apply (arrow_back G (p :: post) g g' a b T); auto.
    + exfalso. destruct I as [(A & F & _)|(k & B & F & _)]; pose proof (hq_unique _ _ _ _ H F); discriminate.
    + apply lc_bind in L. destruct L as [L1 L2]. simpl in O.
      assert (Go : forall s, lc s -> V = open_at 0 s (open_at 1 a C1) -> V' = open_at 0 s (open_at 1 b C1) -> occurs_bound 1 C1 = true -> a = b).
      { intros s Hs -> -> O1. apply (IH (open_at 0 s C1) (TApp g p) (TApp g' p) a b T); auto.
        - apply (open_at_closed C1 0 1 s); auto. eapply lc_weaken; [|exact Hs]; lia.
        - apply (occurs_open C1 0 1 s); auto.
        - rewrite open_swap; auto.
        - rewrite open_swap; auto. }
      destruct I as [(A & F & EA & HA)|(k0 & B & F & Hk & Gp & Ho)]; pose proof (hq_unique _ _ _ _ H F) as E; simpl in E; injection E as -> E1 E2;
        destruct I' as [(A' & F' & EA' & HA')|(k1 & B' & F' & Hk' & Gp' & Ho')]; pose proof (hq_unique _ _ _ _ H' F') as E'; simpl in E'; injection E' as E1' E2'.
      * apply orb_prop in O. destruct O as [O|O].
        { eapply bound_open_inj; [exact La|exact Lb|exact O|]. rewrite E1, E1'. apply (ht_unique M K CT _ _ _ _ HA HA'). }
        apply (Go tbool); auto; [reflexivity| |].
        -- rewrite E2. symmetry. apply open_at_lc. eapply hq_closed; eauto.
        -- rewrite E2'. symmetry. apply open_at_lc. eapply hq_closed; eauto.
      * exfalso. subst A k1. pose proof (kind_open 0 b A1 Gb Hk') as Kd.
        apply et_not_kind in EA. destruct A1 as [[?|?|[]]|?|?]; simpl in *; discriminate.
      * exfalso. subst A' k0. pose proof (kind_open 0 a A1 Ga Hk) as Kd.
        apply et_not_kind in EA'. destruct A1 as [[?|?|[]]|?|?]; simpl in *; discriminate.
      * assert (Kd : is_type_param_kind A1 = true) by (subst k0; exact (kind_open 0 a A1 Ga Hk)).
        apply orb_prop in O. destruct O as [O|O]; [destruct A1 as [[?|?|[]]|?|?]; simpl in *; discriminate|].
        rewrite open_bound_spec in Ho, Ho'. injection Ho as Ho. injection Ho' as Ho'.
        apply (Go p); auto; [apply (ground_lc p Gp 0)| |]; congruence.
Qed.

Lemma only_difference_neq l : forall r d, only_difference l r None = Some (Some d) -> fst d <> snd d.
Proof.
  assert (G : forall m r f d, only_difference m r (Some f) = Some (Some d) -> d = f).
  { induction m as [|a m IH]; intros [|b r] f d H; simpl in H; try discriminate; try congruence.
    destruct (term_eqb a b); [eauto|discriminate]. }
  induction l as [|a l IH]; intros [|b r] d H; simpl in H; try discriminate.
  destruct (term_eqb a b) eqn:E; [eauto|]. apply G in H. subst d. simpl. intros ->.
  unfold term_eqb in E. destruct (term_eq_dec b b); [discriminate|contradiction].
Qed.

(** the two arguments have a common type *)
Lemma difference_typed G h l1 l2 a b T : hq G [] (apply h (l1 ++ a :: l2)) T -> hq G [] (apply h (l1 ++ b :: l2)) T -> a <> b ->
  exists A, et A /\ ht G [] a A /\ ht G [] b A.
Proof.
  intros Ha Hb N. rewrite apply_app in Ha, Hb. simpl in Ha, Hb. set (p := apply h l1) in *.
  destruct (hq_prefix _ _ _ _ Ha) as [V HV]. destruct (hq_prefix _ _ _ _ Hb) as [V' HV'].
  pose proof HV as I. pose proof HV' as I'. apply (hq_app M K) in I. apply (hq_app M K) in I'.
  destruct I as [(A & F & EA & HA)|(k & B & F & Hk & Gp & Ho)], I' as [(A' & F' & EA' & HA')|(k' & B' & F' & Hk' & Gp' & Ho')];
    pose proof (hq_unique _ _ _ _ F F') as E; injection E as E1 E2.
  - subst A'. eauto.
  - subst k'. apply et_not_kind in EA. congruence.
  - subst A'. apply et_not_kind in EA'. congruence.
  - exfalso. apply N. subst k' B'. rewrite open_bound_spec in Ho, Ho'. injection Ho as <-. injection Ho' as <-.
    pose proof (hq_uses _ _ _ _ F) as [U _]. pose proof (hq_closed M K CT _ _ _ _ F) as Cl. apply closed_pi in Cl.
    eapply (type_back G l2 B); [exact Gp|exact Gp'|tauto|auto|exact HV|exact HV'|exact Ha|exact Hb].
Qed.

(** ** Injectivity *)
Lemma nored_spine t : no_redex t = true -> (exists U G, ht G [] t U) -> plain_head t.
Proof.
  intros N (U & G & H). unfold plain_head, atomic_head. revert U H. induction t as [x|f IHf a IHa|k A IHA b IHb]; intros U H.
  - right. simpl. eauto.
  - rewrite no_redex_app in N. apply andb_prop in N. destruct N as [N Nl]. apply andb_prop in N. destruct N as [Nf Na]. right. simpl.
    destruct f as [y|g c|k A b]; simpl; [eauto| |].
    + apply fun_typed in H. destruct H as [H|[H|(A & B & H)]]; try discriminate. destruct (IHf Nf _ H) as [E|E]; auto.
      rewrite args_app in E. destruct (args g); discriminate.
    + exfalso. destruct k; try discriminate; apply fun_typed in H; destruct H as [H|[H|(A' & B & H)]]; try discriminate; inversion H.
  - left. reflexivity.
Qed.
Lemma nored_args t : no_redex t = true -> forall x, In x (args t) -> no_redex x = true.
Proof.
  induction t as [x|f IHf a IHa|k A IHA b IHb]; intros N y Hx; try contradiction.
  rewrite args_app in Hx. rewrite no_redex_app in N. apply andb_prop in N. destruct N as [N _]. apply andb_prop in N. destruct N as [N1 N2].
  apply in_app_or in Hx. destruct Hx as [Hx|[<-|[]]]; auto.
Qed.
Lemma mono_heads c : mono M K c -> plain_heads (literals c).
Proof.
  intros [H N] l Hl. apply mt_in in H. destruct H as [_ H]. destruct (H l Hl) as (T & _ & H1 & H2).
  rewrite forallb_forall in N. specialize (N l Hl). unfold lit_no_redex in N. apply andb_prop in N. destruct N as [N1 N2].
  split; eapply nored_spine; eauto.
Qed.

Lemma injectivities_from_typed G post : forall pre rs ls, plain_heads post ->
  (forall l, In l (pre ++ post) -> ml G l /\ lit_no_redex l = true) -> injectivities_from pre post = Some rs -> In ls rs ->
  forall l, In l ls -> ml G l /\ lit_no_redex l = true.
Proof.
  induction post as [|x r IH]; intros pre rs ls A H E Hin l Hl; simpl in E; [injection E as <-; contradiction|].
  assert (Ar : plain_heads r) by (intros o Ho; apply A; right; auto).
  assert (H' : forall l, In l ((pre ++ [x]) ++ r) -> ml G l /\ lit_no_redex l = true) by (intros o Ho; rewrite <- app_assoc in Ho; auto).
  destruct (positive x) eqn:P; [injection E as <-; contradiction|].
  destruct (atom_eq_dec (head_atom (left x)) (head_atom (right x))) as [Eh|]; [|eauto].
  destruct (Nat.eqb_spec (num_args (left x)) (num_args (right x))) as [En|]; [|eauto].
  destruct (only_difference (args (left x)) (args (right x)) None) as [[[a b]|]|] eqn:D; [|eauto|discriminate].
  destruct (injectivities_from (pre ++ [x]) r) as [rs'|] eqn:E'; [|discriminate].
  injection E as <-. destruct Hin as [<-|Hin]; [|eauto].
  apply in_app_or in Hl. destruct Hl as [Hl|[<-|Hl]]; [apply H, in_or_app; auto| |apply H, in_or_app; simpl; auto].
  destruct (A x (or_introl eq_refl)) as [A1 A2]. destruct (difference_atomic x (a, b) A1 A2 D) as [B1 B2].
  destruct (H x) as [(T & HT & H1 & H2) N]; [apply in_or_app; simpl; auto|].
  unfold lit_no_redex in N. apply andb_prop in N. destruct N as [N1 N2].
  pose proof (only_difference_neq _ _ _ D) as Ne. simpl in Ne. pose proof (only_difference_in _ _ _ _ _ D) as [[I1 I2]|I]; [|discriminate].
  apply only_difference_spec in D; [|rewrite <- !num_args_length; auto]. destruct D as (l1 & l2 & D1 & D2). simpl in D1, D2.
  rewrite (spine_eq (left x)), D1, (atomic_head_term _ B1) in H1. rewrite (spine_eq (right x)), D2, (atomic_head_term _ B2) in H2.
  unfold head_term in H1, H2. rewrite <- Eh in H2.
  destruct (difference_typed G _ l1 l2 a b T (or_introl H1) (or_introl H2) Ne) as (U & EU & Ha & Hb).
  split; [eapply ml_new; eauto|]. rewrite nored_new. rewrite (nored_args _ N1 a I1), (nored_args _ N2 b I2). auto.
Qed.

Lemma mono_injectivity c rs ls : mono M K c -> find_injectivities c = Some rs -> In ls rs ->
  mono M K (Clause ls (context c)) /\ (valid M c -> valid M (Clause ls (context c))).
Proof.
  intros W H Hin. pose proof (mono_heads c W) as A. destruct W as [Hm N]. apply mt_in in Hm. destruct Hm as [HG Hl].
  rewrite forallb_forall in N. split.
  - assert (Q : forall l, In l ls -> ml (context c) l /\ lit_no_redex l = true).
    { apply (injectivities_from_typed (context c) (literals c) [] rs ls); auto. }
    split; [apply mt_in; split; auto; intros l Hi; apply Q; auto|]. apply forallb_forall. intros l Hi. apply Q; auto.
  - intros V rho Hv. apply (injectivities_from_sound M _ _ _ _ rho A H Hin). apply V; auto.
Qed.

(** ** Extensionality *)
Lemma arrow_et G xs : forall f T, et T -> hq G [] (apply f (map (fun v => TVar v) xs)) T -> exists U, et U /\ hq G [] f U.
Proof.
  induction xs as [|x xs IH]; intros f T HT H; simpl in H; [eauto|]. destruct (IH _ _ HT H) as (U & EU & HU).
  apply (hq_app M K) in HU. destruct HU as [(A & HU & EA & _)|(k & B & _ & _ & Gr & _)]; [|discriminate].
  exists (TBind KPi A U). split; auto. simpl. auto.
Qed.
Lemma nored_prefix l : forall f, no_redex (apply f l) = true -> no_redex f = true.
Proof.
  induction l as [|a l IH]; intros f H; simpl in H; auto. apply IH in H. rewrite no_redex_app in H.
  apply andb_prop in H. destruct H as [H _]. apply andb_prop in H. apply H.
Qed.
Lemma mono_extensionality c ls : mono M K c -> find_extensionality K c = Some (Some ls) ->
  mono M K (Clause ls (context c)) /\ (valid M c -> valid M (Clause ls (context c))).
Proof.
  intros W H. pose proof (mono_heads c W) as A. destruct W as [Hm N]. pose proof Hm as Hm0. apply mt_in in Hm. destruct Hm as [HG Hl].
  rewrite forallb_forall in N. split.
  - apply extensionality_from_split in H. simpl in H. destruct H as (pre & x & r & l & peeled & Hlits & -> & HE & _).
    assert (Hx : In x (literals c)) by (rewrite Hlits; apply in_or_app; right; left; auto).
    destruct (A x Hx) as [A1 A2]. destruct (extensionality_atomic _ _ _ _ A1 A2 HE) as [B1 B2].
    apply extensionality_literal_spec in HE; auto.
    destruct HE as (t1 & t2 & a1 & a2 & p1 & p2 & T & P & Ex & _ & _ & _ & _ & E1 & E2 & _ & _ & _ & _ & _ & _ & _ & G1 & G2 & El).
    destruct (Hl x Hx) as (U & EU & H1 & H2). pose proof (N x Hx) as Nx. unfold lit_no_redex in Nx. apply andb_prop in Nx. destruct Nx as [N1 N2].
    assert (Q : (ht (context c) [] t1 U /\ no_redex t1 = true) /\ ht (context c) [] t2 U /\ no_redex t2 = true) by (destruct Ex as [-> | ->]; simpl in *; auto).
    destruct Q as ((Q1 & Q2) & Q3 & Q4). rewrite E1 in Q1, Q2. rewrite E2 in Q3, Q4. rewrite apply_app in Q1, Q2, Q3, Q4.
    apply nored_prefix in Q2. apply nored_prefix in Q4.
    destruct (arrow_et _ _ _ _ EU (or_introl Q1)) as (T1 & ET1 & Y1). destruct (arrow_et _ _ _ _ EU (or_introl Q3)) as (T2 & ET2 & Y2).
    assert (T1 = T) by (apply (hq_type M K CT) in Y1; congruence). assert (T2 = T) by (apply (hq_type M K CT) in Y2; congruence). subst T1 T2.
    apply (hq_ground M K) in Y1; [|eapply et_ground; eauto]. apply (hq_ground M K) in Y2; [|eapply et_ground; eauto].
    assert (Z : forall o, In o (pre ++ l :: r) -> ml (context c) o /\ lit_no_redex o = true).
    { intros o Ho. apply in_app_or in Ho.
      destruct Ho as [Ho|[<-|Ho]]; [|rewrite El; split; [eapply ml_new; eauto|rewrite nored_new, Q2, Q4; auto]|];
        (split; [apply Hl|apply N]; rewrite Hlits; apply in_or_app; simpl; auto). }
    split; [apply mt_in; split; auto; intros o Ho; apply Z; auto|]. apply forallb_forall. intros o Ho. apply Z; auto.
  - apply (monomorphic_extensionality_sound K c ls H); auto.
    + intros s. apply CT.
    + apply (mt_reducible M K CT R c Hm0).
    + intros w T HT. apply (et_vars M). eapply (mc_get M); eauto.
    + apply (mt_reducible M K CT R c Hm0).
Qed.
End MI.
