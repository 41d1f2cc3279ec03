(** C03: what the equality graph reports follows from what was asserted. *)
From Coq Require Import List Arith NArith Bool Lia Permutation.
Import ListNotations.
From Verif Require Import Term LocalContext Semantics TermProofs SemFacts FiniteModel Literal Clause ClauseSem ClauseSet ClauseSetProofs
  P_ClauseSet EqualityGraph EqualityGraphProofs.

Definition term_at (s : egraph) (i : nat) : option term := option_map ti_term (nth_error (eg_terms s) i).

Section Runs.
Context (ordk : nat -> list nat -> list nat) (ordc : nat -> list clauseid -> list clauseid).

(** [reached A Q s]: some sequence of calls leads to [s]; [A] are the ground clauses asserted in it,
    [Q] the terms and clauses that were only inserted or asked about. *)
Inductive reached : list (list literal) -> list (list literal) -> egraph -> Prop :=
| r_new : reached [] [] eg_new
| r_term A Q s n t s' id : reached A Q s -> insert_term ordk ordc n s t = Ok (s', id) -> reached A ([Lit true t t] :: Q) s'
| r_clause A Q s n c s' : reached A Q s -> insert_clause ordk ordc n s c = Ok s' -> reached (c :: A) Q s'
| r_equal A Q s n a b ta tb s' : reached A Q s -> term_at s a = Some ta -> term_at s b = Some tb ->
    set_terms_equal ordk ordc n s a b = Ok s' -> reached ([Lit true ta tb] :: A) Q s'
| r_not_equal A Q s n a b ta tb s' : reached A Q s -> term_at s a = Some ta -> term_at s b = Some tb ->
    set_terms_not_equal ordk ordc n s a b = Ok s' -> reached ([Lit false ta tb] :: A) Q s'
| r_evaluate A Q s n l s' o : reached A Q s -> evaluate_literal ordk ordc n s l = Ok (s', o) -> reached A ([l] :: Q) s'
| r_check A Q s n c s' b : reached A Q s -> check_clause ordk ordc n s c = Ok (s', b) -> reached A (c :: Q) s'.

(** an interpretation of the constants (and free variables) in which the assertions hold and all terms
    that occur are well-typed *)
Definition satisfies (M : Model) (rho : nat -> D M) (A Q : list (list literal)) : Prop :=
  (forall c, In c A -> cholds M rho c) /\ (forall c l, In c (A ++ Q) -> In l c -> lit_wt M rho l).
End Runs.

Section Main.
Context (ordk : nat -> list nat -> list nat) (ordc : nat -> list clauseid -> list clauseid).
Context (ordk_perm : forall n l, Permutation (ordk n l) l) (ordc_perm : forall n l, Permutation (ordc n l) l).
Notation reached := (reached ordk ordc).

Section Model.
Context (M : Model) (rho : nat -> D M).
Notation sok := (sok M rho).

Lemma sok_new : sok [] eg_new.
Proof.
  constructor; simpl; try tauto; try discriminate.
  - intros [|] ? H; discriminate.
  - intros [|] ? H; discriminate.
  - intros [|] ? H; discriminate.
  - apply consistent_new.
Qed.

Lemma ins_ok n tl s t s' id : insert_term ordk ordc n s t = Ok (s', id) -> wt M rho t -> sok tl s -> holds_term M rho tl s' t id.
Proof. apply insert_term_ok; auto. Qed.
Lemma proc_ok n tl s s' : process_pending ordk ordc n s = Ok s' -> sok tl s -> sok tl s'.
Proof. apply process_pending_ok; auto. Qed.

Lemma literal_id_ok n tl s l s' i : literal_id ordk ordc n s l = Ok (s', i) -> lit_wt M rho l -> sok tl s ->
  exists ext, sok (tl ++ ext) s' /\ litr (tl ++ ext) i /\ (lit_true (gval M rho (tl ++ ext)) i <-> lit_holds M rho l).
Proof.
  intros H [W1 W2] Hs. unfold literal_id in H.
  dob H. destruct x as [s1 li]. destruct (ins_ok _ _ _ _ _ _ H0 W1 Hs) as (e1 & S1 & N1).
  dob H. destruct x as [s2 ri]. destruct (ins_ok _ _ _ _ _ _ H1 W2 S1) as (e2 & S2 & N2).
  dob H. dob H. apply (group_ok M rho _ _ _ _ S2) in H2, H3. injection H as -> <-.
  rewrite <- app_assoc in *. exists (e1 ++ e2). split; auto.
  assert (N1' : nth_error (tl ++ e1 ++ e2) li = Some (left l)) by (rewrite app_assoc; apply nth_app; auto).
  destruct H2 as (A1 & A2 & A3), H3 as (B1 & B2 & B3). split; [apply lit_of_litr; auto|].
  rewrite lit_of_true. rewrite <- A3, <- B3. rewrite (tval_nth _ _ _ _ _ N1'), (tval_nth _ _ _ _ _ N2). unfold lit_holds. tauto.
Qed.
Lemma lit_true_app tl ext i : litr tl i -> (lit_true (gval M rho (tl ++ ext)) i <-> lit_true (gval M rho tl) i).
Proof. intros [R1 R2]. unfold lit_true, gval. rewrite !tval_app by auto. tauto. Qed.
Lemma literal_ids_ok n : forall c tl s s' is, literal_ids ordk ordc n s c = Ok (s', is) -> (forall l, In l c -> lit_wt M rho l) -> sok tl s ->
  exists ext, sok (tl ++ ext) s' /\ (forall i, In i is -> litr (tl ++ ext) i) /\ (clause_true (gval M rho (tl ++ ext)) is <-> cholds M rho c).
Proof.
  induction c as [|l c IH]; intros tl s s' is H W Hs; simpl in H.
  - injection H as <- <-. exists []. rewrite app_nil_r. split; auto. split; [intros i []|]. unfold clause_true, cholds. split; intros (x & [] & _).
  - dob H. destruct x as [s1 i]. destruct (literal_id_ok _ _ _ _ _ _ H0 (W l (or_introl eq_refl)) Hs) as (e1 & S1 & R1 & T1).
    dob H. destruct x as [s2 is']. injection H as -> <-.
    destruct (IH _ _ _ _ H1 ltac:(intros; apply W; simpl; auto) S1) as (e2 & S2 & R2 & T2).
    rewrite <- (lit_true_app _ e2 _ R1) in T1.
    assert (R1' : litr ((tl ++ e1) ++ e2) i) by (destruct R1; unfold litr; rewrite app_length; lia).
    rewrite <- app_assoc in *. exists (e1 ++ e2). split; auto.
    split; [intros j [<-|Hj]; auto|]. split.
    + intros (x & [<-|Hx] & T); [exists l; split; [simpl; auto|tauto]|].
      destruct (proj1 T2) as (y & Hy & U); [exists x; auto|]. exists y. split; simpl; auto.
    + intros (x & [<-|Hx] & T); [exists i; split; [simpl; auto|tauto]|].
      destruct (proj2 T2) as (y & Hy & U); [exists x; auto|]. exists y. split; simpl; auto.
Qed.

Lemma insert_clause_ok n tl s c s' : insert_clause ordk ordc n s c = Ok s' -> (forall l, In l c -> lit_wt M rho l) -> cholds M rho c ->
  sok tl s -> exists ext, sok (tl ++ ext) s'.
Proof.
  intros H W C Hs. assert (G : (do (s, ids) <- literal_ids ordk ordc n s c; process_pending ordk ordc n
      match clauseid_new ids with NTrue => s | NFalse => set_contra s | NClause c => push s (OClause c) end) = Ok s' ->
      exists ext, sok (tl ++ ext) s').
  { clear H. intros H. dob H. destruct x as [s1 ids]. destruct (literal_ids_ok _ _ _ _ _ _ H0 W Hs) as (ext & S1 & R & T).
    exists ext. eapply proc_ok; [exact H|].
    assert (O : okc M rho (tl ++ ext) ids) by (split; [auto|tauto]).
    apply clauseid_ok in O. destruct (clauseid_new ids); auto; [tauto|]. apply sok_push; auto. }
  destruct c as [|l [|l' c]]; auto. clear G. unfold insert_clause in H.
  destruct (W l (or_introl eq_refl)) as [W1 W2].
  dob H. destruct x as [s1 li]. destruct (ins_ok _ _ _ _ _ _ H0 W1 Hs) as (e1 & S1 & N1).
  dob H. destruct x as [s2 ri]. destruct (ins_ok _ _ _ _ _ _ H1 W2 S1) as (e2 & S2 & N2).
  rewrite <- app_assoc in *. exists (e1 ++ e2).
  assert (N1' : nth_error (tl ++ e1 ++ e2) li = Some (left l)) by (rewrite app_assoc; apply nth_app; auto).
  destruct C as (x & [<-|[]] & L). unfold lit_holds in L.
  destruct (positive l); (eapply proc_ok; [exact H|]); apply sok_push; auto; simpl; (split; [eapply nth_lt; eauto|]); (split; [eapply nth_lt; eauto|]);
    rewrite (tval_nth _ _ _ _ _ N1'), (tval_nth _ _ _ _ _ N2); auto.
Qed.

Lemma evaluate_literal_ok n tl s l s' o : evaluate_literal ordk ordc n s l = Ok (s', o) -> lit_wt M rho l -> sok tl s ->
  (exists ext, sok (tl ++ ext) s') /\ forall b, o = Some b -> (b = true <-> lit_holds M rho l).
Proof.
  intros H [W1 W2] Hs. unfold evaluate_literal in H.
  destruct (has_any_variable (left l) || has_any_variable (right l)).
  { injection H as <- <-. split; [exists []; rewrite app_nil_r; auto|discriminate]. }
  dob H. destruct x as [s1 li]. destruct (ins_ok _ _ _ _ _ _ H0 W1 Hs) as (e1 & S1 & N1).
  dob H. destruct x as [s2 ri]. destruct (ins_ok _ _ _ _ _ _ H1 W2 S1) as (e2 & S2 & N2).
  dob H. dob H. apply (group_ok M rho _ _ _ _ S2) in H2, H3. rewrite <- app_assoc in *.
  assert (N1' : nth_error (tl ++ e1 ++ e2) li = Some (left l)) by (rewrite app_assoc; apply nth_app; auto).
  assert (X : exists ext, sok (tl ++ ext) s2) by eauto.
  pose proof (tval_nth M rho _ _ _ N1') as V1. pose proof (tval_nth M rho _ _ _ N2) as V2.
  destruct (Nat.eqb_spec x x0) as [->|_].
  - injection H as <- <-. split; auto. intros b E; injection E as <-.
    assert (E : ev M rho (left l) = ev M rho (right l)) by (destruct H2 as (_ & _ & A), H3 as (_ & _ & B); congruence).
    unfold lit_holds. destruct (positive l); intuition congruence.
  - dob H. apply info_ok in H4. destruct (memb x0 (gi_ineq x1)) eqn:Em; injection H as <- <-; (split; [exact X|]); [|discriminate].
    intros b E; injection E as <-. apply memb_in in Em. destruct (so_gs M rho _ _ S2 _ _ H4) as [_ I]. destruct (I _ Em) as (_ & _ & I').
    assert (E : ev M rho (left l) <> ev M rho (right l)) by (destruct H2 as (_ & _ & A), H3 as (_ & _ & B); congruence).
    unfold lit_holds. destruct (positive l); simpl; intuition congruence.
Qed.

Lemma check_clause_ok n tl s c s' b : check_clause ordk ordc n s c = Ok (s', b) -> (forall l, In l c -> lit_wt M rho l) -> sok tl s ->
  (exists ext, sok (tl ++ ext) s') /\ (b = true -> cholds M rho c).
Proof.
  intros H W Hs. unfold check_clause in H. rewrite (so_con M rho _ _ Hs) in H.
  dob H. destruct x as [s1 b1].
  assert (X : (exists ext, sok (tl ++ ext) s1) /\ (b1 = true -> cholds M rho c)).
  { clear H b s'. revert tl s s1 b1 H0 W Hs. induction c as [|l c IH]; intros tl s s1 b1 H W Hs; simpl in H.
    - injection H as <- <-. split; [exists []; rewrite app_nil_r; auto|discriminate].
    - dob H. destruct x as [s2 v]. destruct (evaluate_literal_ok _ _ _ _ _ _ H0 (W l (or_introl eq_refl)) Hs) as [(e & S2) V].
      assert (R : some_literal_true ordk ordc n s2 c = Ok (s1, b1) -> (exists ext, sok (tl ++ ext) s1) /\ (b1 = true -> cholds M rho (l :: c))).
      { intros H'. destruct (IH _ _ _ _ H' ltac:(intros; apply W; simpl; auto) S2) as [(e' & S') T]. split.
        - exists (e ++ e'). rewrite app_assoc. auto.
        - intros E. destruct (T E) as (m & Hm & Hh). exists m. simpl; auto. }
      destruct v as [[]|]; auto. injection H as <- <-. split; [eauto|]. intros _. exists l. split; [simpl; auto|]. apply (V true); auto. }
  destruct X as [(e & S1) T]. destruct b1; [injection H as <- <-; split; [eauto|auto]|]. clear T H0.
  unfold clause_exists in H. destruct c as [|l c]; [injection H as <- <-; split; [eauto|discriminate]|].
  destruct (existsb _ (l :: c)); [injection H as <- <-; split; [eauto|discriminate]|].
  dob H. destruct x as [s2 ids]. injection H as -> <-.
  destruct (literal_ids_ok _ _ _ _ _ _ H0 W S1) as (e' & S2 & R & T). split; [exists (e ++ e'); rewrite app_assoc; auto|].
  pose proof (clause_id_equivalent ids (D M) (gval M rho ((tl ++ e) ++ e')) (val_dec M)) as E.
  destruct (clauseid_new ids) as [| |d]; intros B; try tauto.
  - rewrite (so_con M rho _ _ S2) in B. discriminate.
  - apply set_mem_in in B. apply (so_cls M rho _ _ S2) in B. destruct B. tauto.
Qed.

Lemma term_at_nth tl s i t : sok tl s -> term_at s i = Some t -> nth_error tl i = Some t.
Proof. intros Hs H. rewrite <- (so_tl M rho _ _ Hs), nth_error_map. exact H. Qed.

Lemma reached_ok A Q s : reached A Q s -> satisfies M rho A Q -> exists tl, sok tl s.
Proof.
  assert (WL : forall c l (A Q : list (list literal)), (forall c' l', In c' (A ++ c :: Q) -> In l' c' -> lit_wt M rho l') -> In l c -> lit_wt M rho l).
  { intros c l A0 Q0 H Hl. apply (H c l); auto. apply in_app_iff. simpl; auto. }
  assert (SQ : forall c A Q, satisfies M rho A (c :: Q) -> satisfies M rho A Q).
  { intros c A0 Q0 [S1 S2]. split; auto. intros c' l Hc. apply S2. apply in_app_iff in Hc. apply in_app_iff. simpl. tauto. }
  assert (SA : forall c A Q, satisfies M rho (c :: A) Q -> satisfies M rho A Q /\ cholds M rho c /\ forall l, In l c -> lit_wt M rho l).
  { intros c A0 Q0 [S1 S2]. split; [split|split].
    - intros; apply S1; simpl; auto.
    - intros c' l Hc. apply S2. simpl. auto.
    - apply S1; simpl; auto.
    - intros l Hl. apply (S2 c l); simpl; auto. }
  induction 1 as [|A Q s n t s' id H IH E|A Q s n c s' H IH E|A Q s n a b ta tb s' H IH Ea Eb E|A Q s n a b ta tb s' H IH Ea Eb E
    |A Q s n l s' o H IH E|A Q s n c s' b H IH E]; intros Sat.
  - exists []. apply sok_new.
  - destruct (IH (SQ _ _ _ Sat)) as (tl & Hs). destruct Sat as [_ S2].
    assert (W : lit_wt M rho (Lit true t t)) by (eapply WL; [exact S2|simpl; auto]).
    destruct (ins_ok _ _ _ _ _ _ E (proj1 W) Hs) as (e & S' & _). eauto.
  - destruct (SA _ _ _ Sat) as (S1 & C & W). destruct (IH S1) as (tl & Hs).
    destruct (insert_clause_ok _ _ _ _ _ E W C Hs) as (e & S'). eauto.
  - destruct (SA _ _ _ Sat) as (S1 & C & W). destruct (IH S1) as (tl & Hs). exists tl. eapply proc_ok; [exact E|].
    apply (term_at_nth tl) in Ea, Eb; auto. destruct C as (x & [<-|[]] & L). unfold lit_holds in L. simpl in L.
    apply sok_push; auto. split; [eapply nth_lt; eauto|]. split; [eapply nth_lt; eauto|].
    rewrite (tval_nth _ _ _ _ _ Ea), (tval_nth _ _ _ _ _ Eb). auto.
  - destruct (SA _ _ _ Sat) as (S1 & C & W). destruct (IH S1) as (tl & Hs). exists tl. eapply proc_ok; [exact E|].
    apply (term_at_nth tl) in Ea, Eb; auto. destruct C as (x & [<-|[]] & L). unfold lit_holds in L. simpl in L.
    apply sok_push; auto. split; [eapply nth_lt; eauto|]. split; [eapply nth_lt; eauto|].
    rewrite (tval_nth _ _ _ _ _ Ea), (tval_nth _ _ _ _ _ Eb). auto.
  - destruct (IH (SQ _ _ _ Sat)) as (tl & Hs). destruct Sat as [_ S2].
    assert (W : lit_wt M rho l) by (eapply WL; [exact S2|simpl; auto]).
    destruct (evaluate_literal_ok _ _ _ _ _ _ E W Hs) as [(e & S') _]. eauto.
  - destruct (IH (SQ _ _ _ Sat)) as (tl & Hs). destruct Sat as [_ S2].
    assert (W : forall l, In l c -> lit_wt M rho l) by (intros; eapply WL; [exact S2|auto]).
    destruct (check_clause_ok _ _ _ _ _ _ E W Hs) as [(e & S') _]. eauto.
Qed.
End Model.

(** C03: terms in the same group are equal, and groups recorded as different are different, in every
    interpretation that satisfies the assertions. *)
Theorem graph_groups_sound A Q s : reached A Q s -> forall M rho, satisfies M rho A Q ->
  forall i j ti tj, nth_error (eg_terms s) i = Some ti -> nth_error (eg_terms s) j = Some tj ->
  (ti_group ti = ti_group tj -> ev M rho (ti_term ti) = ev M rho (ti_term tj)) /\
  (forall g, nth_error (eg_groups s) (ti_group ti) = Some (Info g) -> In (ti_group tj) (gi_ineq g) ->
     ev M rho (ti_term ti) <> ev M rho (ti_term tj)).
Proof.
  intros R M rho Sat i j ti tj Hi Hj. destruct (reached_ok M rho _ _ _ R Sat) as (tl & Hs).
  pose proof (so_grp M rho _ _ Hs _ _ Hi) as (_ & _ & E1). pose proof (so_grp M rho _ _ Hs _ _ Hj) as (_ & _ & E2).
  assert (N1 : nth_error tl i = Some (ti_term ti)) by (rewrite <- (so_tl M rho _ _ Hs), nth_error_map, Hi; auto).
  assert (N2 : nth_error tl j = Some (ti_term tj)) by (rewrite <- (so_tl M rho _ _ Hs), nth_error_map, Hj; auto).
  rewrite (tval_nth _ _ _ _ _ N1) in E1. rewrite (tval_nth _ _ _ _ _ N2) in E2. rewrite E1, E2. split; [congruence|].
  intros g Hg Hin. destruct (so_gs M rho _ _ Hs _ _ Hg) as [_ I]. apply (I _ Hin).
Qed.

(** C03: a literal's reported truth value is its truth value. *)
Theorem evaluate_literal_sound A Q s : reached A Q s -> forall n l s' b, evaluate_literal ordk ordc n s l = Ok (s', Some b) ->
  forall M rho, satisfies M rho A ([l] :: Q) -> (b = true <-> lit_holds M rho l).
Proof.
  intros R n l s' b H M rho Sat. assert (Sat' : satisfies M rho A Q).
  { destruct Sat as [S1 S2]. split; auto. intros c' k Hc. apply S2. apply in_app_iff in Hc. apply in_app_iff. simpl. tauto. }
  destruct (reached_ok M rho _ _ _ R Sat') as (tl & Hs).
  assert (W : lit_wt M rho l) by (apply (proj2 Sat [l] l); [apply in_app_iff; simpl|simpl]; auto).
  destruct (evaluate_literal_ok _ _ _ _ _ _ _ _ H W Hs) as [_ V]. auto.
Qed.

(** C03: a clause that is reported as known follows from the assertions. *)
Theorem graph_check_clause_sound A Q s : reached A Q s -> forall n c s', check_clause ordk ordc n s c = Ok (s', true) ->
  forall M rho, satisfies M rho A (c :: Q) -> cholds M rho c.
Proof.
  intros R n c s' H M rho Sat. assert (Sat' : satisfies M rho A Q).
  { destruct Sat as [S1 S2]. split; auto. intros c' k Hc. apply S2. apply in_app_iff in Hc. apply in_app_iff. simpl. tauto. }
  destruct (reached_ok M rho _ _ _ R Sat') as (tl & Hs).
  assert (W : forall l, In l c -> lit_wt M rho l) by (intros l Hl; apply (proj2 Sat c l); [apply in_app_iff; simpl|simpl]; auto).
  destruct (check_clause_ok _ _ _ _ _ _ _ _ H W Hs) as [_ V]. auto.
Qed.

(** C03: a contradiction is reported only if nothing satisfies the assertions. *)
Theorem graph_contradiction_sound A Q s : reached A Q s -> eg_contra s = true ->
  forall M rho, ~ satisfies M rho A Q.
Proof. intros R H M rho Sat. destruct (reached_ok M rho _ _ _ R Sat) as (tl & Hs). rewrite (so_con M rho _ _ Hs) in H. discriminate. Qed.
End Main.
Print Assumptions graph_groups_sound.
Print Assumptions evaluate_literal_sound.
Print Assumptions graph_check_clause_sound.
Print Assumptions graph_contradiction_sound.

(** A non-trivial run: [a = b], [f a != c], [f b = c or g c = a]; the graph then knows [g c = b]; with
    [g c != b] it reports a contradiction. *)
Definition eg_idk (_ : nat) (l : list nat) := l.
Definition eg_idc (_ : nat) (l : list clauseid) := l.
Definition eg_c (i : N) : term := TSym (SGlobal 0 i).
Definition eg_A : list (list literal) :=
  [[Lit true (TApp (eg_c 4) (eg_c 2)) (eg_c 3); Lit true (TApp (eg_c 5) (eg_c 3)) (eg_c 1)];
   [Lit false (TApp (eg_c 4) (eg_c 1)) (eg_c 3)];
   [Lit true (eg_c 1) (eg_c 2)]].
Definition eg_goal : literal := Lit true (TApp (eg_c 5) (eg_c 3)) (eg_c 2).
Definition eg_I (s : symbol) : V :=
  match s with
  | SType _ _ => VBase 0 0 2
  | SGlobal _ i => if N.leb i 2 then VElt 0 0 2 0 else if N.eqb i 3 then VElt 0 0 2 1
      else if N.eqb i 4 then VFun (VBase 0 0 2) [VElt 0 0 2 0; VElt 0 0 2 0] else VFun (VBase 0 0 2) [VElt 0 0 2 1; VElt 0 0 2 0]
  | STypeclass _ _ => VSort 1
  | _ => VTrue
  end.
Definition eg_M : Model := fin_model (fun k => if N.eqb k 0 then [VBool; VBase 0 0 2] else [VBase 0 0 2]) eg_I.
Definition eg_run (l : list (list literal)) : res egraph := foldm (fun s c => insert_clause eg_idk eg_idc 40 s c) (rev l) eg_new.

Lemma eg_run_reached l : forall s, eg_run l = Ok s -> reached eg_idk eg_idc l [] s.
Proof.
  unfold eg_run. induction l as [|c l IH]; intros s H; simpl in H.
  - injection H as <-. constructor.
  - assert (S : forall l1 s0, foldm (fun s c => insert_clause eg_idk eg_idc 40 s c) (l1 ++ [c]) s0 = Ok s ->
      exists s1, foldm (fun s c => insert_clause eg_idk eg_idc 40 s c) l1 s0 = Ok s1 /\ insert_clause eg_idk eg_idc 40 s1 c = Ok s).
    { induction l1 as [|d l1 IH1]; intros s0 H0.
      - cbn [app foldm] in H0. apply rbind_ok in H0. destruct H0 as (s2 & H1 & H2). exists s0. split; auto. congruence.
      - cbn [app foldm] in H0. apply rbind_ok in H0. destruct H0 as (s2 & H1 & H2). destruct (IH1 _ H2) as (s3 & H3 & H4). exists s3. split; auto.
        cbn [foldm]. rewrite H1. auto. }
    destruct (S _ _ H) as (s1 & H1 & H2). eapply r_clause; eauto.
Qed.

Example graph_sound_case :
  (exists s s', reached eg_idk eg_idc eg_A [] s /\ evaluate_literal eg_idk eg_idc 40 s eg_goal = Ok (s', Some true) /\
     eg_contra s = false) /\
  satisfies eg_M (fun _ => VJunk) eg_A [[eg_goal]] /\
  (exists s, reached eg_idk eg_idc ([Lit false (TApp (eg_c 5) (eg_c 3)) (eg_c 2)] :: eg_A) [] s /\ eg_contra s = true).
Proof.
  split; [|split].
  - destruct (eg_run eg_A) as [s| |] eqn:E; [|vm_compute in E; discriminate|vm_compute in E; discriminate].
    exists s. pose proof (eg_run_reached _ _ E) as R. vm_compute in E. injection E as <-. eexists. split; [exact R|].
    split; vm_compute; reflexivity.
  - split.
    + intros c [<-|[<-|[<-|[]]]].
      * eexists. split; [right; left; reflexivity|]. vm_compute. reflexivity.
      * eexists. split; [left; reflexivity|]. vm_compute. discriminate.
      * eexists. split; [left; reflexivity|]. vm_compute. reflexivity.
    + intros c l [<-|[<-|[<-|[<-|[]]]]] Hl; simpl in Hl; repeat (destruct Hl as [<-|Hl]); try contradiction; split; vm_compute; tauto.
  - destruct (eg_run ([Lit false (TApp (eg_c 5) (eg_c 3)) (eg_c 2)] :: eg_A)) as [s| |] eqn:E; [|vm_compute in E; discriminate|vm_compute in E; discriminate].
    exists s. split; [apply eg_run_reached; auto|]. vm_compute in E. injection E as <-. reflexivity.
Qed.
