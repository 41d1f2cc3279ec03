(** The operations of the equality graph return from every state with the invariant, and keep it. *)
From Coq Require Import List Arith NArith Bool Lia Permutation Wf_nat.
Import ListNotations.
From Verif Require Import Term Literal Clause SemFacts ClauseSet ClauseSetProofs P_ClauseSet EqualityGraph EqualityGraphProofs EqualityGraphClosure EqualityGraphRemap EqualityGraphSteps.

Definition sep (s : egraph) (i j : nat) : Prop := In (ONeq i j) (eg_pending s) \/ apart s i j.
(** how the graph develops *)
Record goes (s s' : egraph) : Prop := {
  q_shape : exists ext, shape s' = shape s ++ ext;
  q_dec : forall d i, map_get decomp_eqb (eg_decomps s) d = Some i -> map_get decomp_eqb (eg_decomps s') d = Some i;
  q_opq : forall t i, map_get term_eqb (eg_opaque s) t = Some i -> map_get term_eqb (eg_opaque s') t = Some i;
  q_con : eg_contra s = true -> eg_contra s' = true;
  q_rest : eg_contra s' = true \/ (
    (forall i j, conn s i j -> conn s' i j) /\ (forall i j, sep s i j -> sep s' i j) /\
    exists f : nat -> nat,
      (forall i ti, nth_error (eg_terms s) i = Some ti -> exists ti', nth_error (eg_terms s') i = Some ti' /\ ti_group ti' = f (ti_group ti)) /\
      (forall a b r, map_get key_eqb (eg_amap s) (a, b) = Some r -> exists r', map_get key_eqb (eg_amap s') (f a, f b) = Some r' /\ conn s' r r'))
}.
Lemma goes_refl s : goes s s.
Proof.
  constructor; auto; [exists []; rewrite app_nil_r; auto|]. right. split; auto. split; auto. exists (fun g => g). split; [eauto|].
  intros a b r H. exists r. split; auto using conn_refl.
Qed.
Lemma goes_trans a b c : goes a b -> goes b c -> goes a c.
Proof.
  intros [A1 A2 A3 A4 A5] [B1 B2 B3 B4 B5]. constructor; auto.
  - destruct A1 as (x & A1), B1 as (y & B1). exists (x ++ y). rewrite B1, A1, app_assoc. auto.
  - destruct B5 as [B5|(C1 & C2 & g & G1 & G2)]; auto. destruct A5 as [A5|(D1 & D2 & f & F1 & F2)]; auto. right. split; auto. split; auto.
    exists (fun x => g (f x)). split.
    + intros i ti H. destruct (F1 _ _ H) as (t2 & H2 & E2). destruct (G1 _ _ H2) as (t3 & H3 & E3). exists t3. split; auto. congruence.
    + intros x y r H. destruct (F2 _ _ _ H) as (r2 & H2 & C2'). destruct (G2 _ _ _ H2) as (r3 & H3 & C3). exists r3. split; auto. eapply conn_trans; [|exact C3]. auto.
Qed.
Lemma goes_nth s s' i ti : goes s s' -> nth_error (eg_terms s) i = Some ti ->
  exists ti', nth_error (eg_terms s') i = Some ti' /\ ti_term ti' = ti_term ti /\ ti_decomp ti' = ti_decomp ti.
Proof.
  intros [(ext & E) _ _ _ _] H. assert (X : nth_error (shape s') i = Some (ti_term ti, ti_decomp ti)).
  { rewrite E, nth_error_app1; [|unfold shape; rewrite map_length; eapply nth_lt; eauto]. unfold shape. rewrite nth_error_map, H. auto. }
  unfold shape in X. rewrite nth_error_map in X. destruct (nth_error (eg_terms s') i) as [t|]; [|discriminate]. injection X as X1 X2. eauto.
Qed.
Lemma goes_len s s' : goes s s' -> length (eg_terms s) <= length (eg_terms s').
Proof. intros [(ext & E) _ _ _ _]. apply (f_equal (@length _)) in E. unfold shape in E. rewrite app_length, !map_length in E. lia. Qed.

(** a step of [process_pending] *)
Lemma pop_goes s o rest s' : eg_pending s = o :: rest -> eg_contra s = false -> evolves (set_pending s rest) s' ->
  match o with OEq a b => same_group s' a b | ONeq a b => eg_contra s' = true \/ apart s' a b | OClause _ => True end -> goes s s'.
Proof.
  intros P C E H. pose proof (evolves_conn _ _ E) as EC.
  destruct E as [E1 E2 E3 E4 E5 (f & F1 & F2 & F3)]. constructor; auto.
  - exists []. rewrite app_nil_r. auto.
  - intros d i. cbn in E2. rewrite E2. auto.
  - intros t i. cbn in E3. rewrite E3. auto.
  - destruct (eg_contra s') eqn:C'; auto. right. split; [|split].
    + apply conn_lift.
      * intros i j (ti & tj & Hi & Hj & G). apply EC, conn_grp. exists ti, tj. auto.
      * intros i j Hij. rewrite P in Hij. destruct Hij as [->|Hij]; [apply conn_grp; auto|]. apply EC, conn_pend. auto.
    + intros i j [Hij|Hij].
      * rewrite P in Hij. destruct Hij as [->|Hij]; [right; destruct H; [discriminate|auto]|]. left. apply E4. auto.
      * destruct Hij as (ti & tj & Hi & Hj & R). destruct (F1 _ _ Hi) as (ti' & Hi' & Ei), (F1 _ _ Hj) as (tj' & Hj' & Ej).
        destruct (F3 _ _ R) as [X|X]; [discriminate|]. right. exists ti', tj'. split; auto. split; auto. rewrite Ei, Ej. auto.
    + exists f. auto.
Qed.

(** ** the invariant *)
Definition congi (s : egraph) (i : nat) : Prop := forall ti f a, nth_error (eg_terms s) i = Some ti -> ti_decomp ti = DApp f a ->
  exists tf ta r, nth_error (eg_terms s) f = Some tf /\ nth_error (eg_terms s) a = Some ta /\
    map_get key_eqb (eg_amap s) (ti_group tf, ti_group ta) = Some r /\ conn s i r.
Definition sweqi (s : egraph) (i : nat) : Prop := forall ti sw, nth_error (eg_terms s) i = Some ti -> swapped_eq (ti_term ti) = Some sw ->
  exists j tj, nth_error (eg_terms s) j = Some tj /\ ti_term tj = sw /\ conn s i j.
Definition inv (X : list nat) (s : egraph) : Prop :=
  jwf s /\ (eg_contra s = true \/ forall i, i < length (eg_terms s) -> congi s i /\ (In i X \/ sweqi s i)).
Lemma goes_congi s s' i : goes s s' -> i < length (eg_terms s) -> congi s i -> eg_contra s' = true \/ congi s' i.
Proof.
  intros G L H. destruct (q_rest _ _ G) as [C|(C1 & C2 & f & F1 & F2)]; auto. right.
  intros ti' x y Hi D. destruct (nth_error (eg_terms s) i) as [ti|] eqn:Ei; [|apply nth_error_None in Ei; lia].
  destruct (goes_nth _ _ _ _ G Ei) as (t2 & H2 & _ & D2). rewrite Hi in H2. injection H2 as <-.
  destruct (H ti x y Ei) as (tf & ta & r & Hf & Ha & Hm & Hc); [congruence|].
  destruct (F1 _ _ Hf) as (tf' & Hf' & Ef), (F1 _ _ Ha) as (ta' & Ha' & Ea). destruct (F2 _ _ _ Hm) as (r' & Hm' & Hc').
  exists tf', ta', r'. rewrite Ef, Ea. repeat (split; auto). eapply conn_trans; [|exact Hc']. auto.
Qed.
Lemma goes_sweqi s s' i : goes s s' -> i < length (eg_terms s) -> sweqi s i -> eg_contra s' = true \/ sweqi s' i.
Proof.
  intros G L H. destruct (q_rest _ _ G) as [C|(C1 & _)]; auto. right. intros ti' sw Hi E.
  destruct (nth_error (eg_terms s) i) as [ti|] eqn:Ei; [|apply nth_error_None in Ei; lia].
  destruct (goes_nth _ _ _ _ G Ei) as (t2 & H2 & T2 & _). rewrite Hi in H2. injection H2 as <-.
  destruct (H ti sw Ei) as (j & tj & Hj & Ej & Cj); [congruence|]. destruct (goes_nth _ _ _ _ G Hj) as (tj' & Hj' & Tj & _).
  exists j, tj'. split; auto. split; [congruence|auto].
Qed.
(** the invariant after a development that adds the terms in [N] *)
Lemma inv_goes X s s' : inv X s -> jwf s' -> goes s s' ->
  (eg_contra s' = false -> forall i, length (eg_terms s) <= i < length (eg_terms s') -> congi s' i /\ (In i X \/ sweqi s' i)) -> inv X s'.
Proof.
  intros [J H] J' G N. split; auto. destruct (eg_contra s') eqn:C; auto. right. intros i Hi.
  destruct (Nat.lt_ge_cases i (length (eg_terms s))) as [L|L]; [|auto].
  destruct H as [H|H]; [apply (q_con _ _ G) in H; congruence|]. destruct (H i L) as [H1 H2]. split.
  - destruct (goes_congi _ _ _ G L H1); [congruence|auto].
  - destruct H2 as [H2|H2]; auto. destruct (goes_sweqi _ _ _ G L H2); [congruence|auto].
Qed.

Lemma decomp_refl d : decomp_eqb d d = true. Proof. apply decomp_eqb_eq; auto. Qed.
Lemma get_dset (m : list (decomp * nat)) d i d' : map_get decomp_eqb (map_set decomp_eqb m d i) d' = if decomp_eqb d d' then Some i else map_get decomp_eqb m d'.
Proof. apply (get_set decomp_eqb decomp_eqb_eq). Qed.
Lemma get_tset (m : list (term * nat)) d i d' : map_get term_eqb (map_set term_eqb m d i) d' = if term_eqb d d' then Some i else map_get term_eqb m d'.
Proof. apply (get_set term_eqb term_eqb_eq). Qed.
Lemma dget_none_neq (m : list (decomp * nat)) d d' i : map_get decomp_eqb m d = None -> map_get decomp_eqb m d' = Some i -> decomp_eqb d d' = false.
Proof. intros H H'. destruct (decomp_eqb d d') eqn:E; auto. apply decomp_eqb_eq in E. congruence. Qed.
Lemma tget_none_neq (m : list (term * nat)) d d' i : map_get term_eqb m d = None -> map_get term_eqb m d' = Some i -> term_eqb d d' = false.
Proof. intros H H'. destruct (term_eqb d d') eqn:E; auto. apply term_eqb_eq in E. congruence. Qed.

(** ** each term has one number *)
Lemma term_unique s : jwf s -> forall t i j ti tj, nth_error (eg_terms s) i = Some ti -> nth_error (eg_terms s) j = Some tj ->
  ti_term ti = t -> ti_term tj = t -> i = j.
Proof.
  intros J. destruct (j_d _ J) as (D1 & D2 & D3). induction t as [a|f IHf a IHa|k A IHA b IHb]; intros i j ti tj Hi Hj Ei Ej;
    pose proof (D1 _ _ Hi) as Xi; pose proof (D1 _ _ Hj) as Xj; rewrite Ei in Xi; rewrite Ej in Xj.
  - destruct (ti_decomp ti) as [a1|f1 a1|], (ti_decomp tj) as [a2|f2 a2|];
      repeat match goal with H : _ /\ _ |- _ => destruct H | H : exists _, _ |- _ => destruct H end; try discriminate. congruence.
  - destruct (ti_decomp ti) as [a1|f1 a1|], (ti_decomp tj) as [a2|f2 a2|];
      try (repeat match goal with H : _ /\ _ |- _ => destruct H | H : exists _, _ |- _ => destruct H end; discriminate).
    destruct Xi as [Mi (tf & ta & Hf & Ha & Et)], Xj as [Mj (tf' & ta' & Hf' & Ha' & Et')]. injection Et as Et1 Et2. injection Et' as Et1' Et2'.
    assert (f1 = f2) by (eapply (IHf _ _ tf tf'); eauto). assert (a1 = a2) by (eapply (IHa _ _ ta ta'); eauto). congruence.
  - destruct (ti_decomp ti) as [a1|f1 a1|], (ti_decomp tj) as [a2|f2 a2|];
      try (repeat match goal with H : _ /\ _ |- _ => destruct H | H : exists _, _ |- _ => destruct H end; discriminate).
    destruct Xi as [_ Mi], Xj as [_ Mj]. congruence.
Qed.

(** ** a new term *)
Definition fresh (s : egraph) (t : term) (d : decomp) : Prop :=
  match d with
  | DAtomic a => t = TAtom a /\ map_get decomp_eqb (eg_decomps s) d = None
  | DApp f a => map_get decomp_eqb (eg_decomps s) d = None /\ exists tf ta, nth_error (eg_terms s) f = Some tf /\ nth_error (eg_terms s) a = Some ta /\
         t = TApp (ti_term tf) (ti_term ta)
  | DOpaque => (exists k A b, t = TBind k A b) /\ map_get term_eqb (eg_opaque s) t = None
  end.
Definition register (s : egraph) (t : term) (d : decomp) : egraph :=
  let (s, id) := new_term s t d in match d with DOpaque => add_opaque s t id | _ => add_decomp s d id end.
Lemma litn_mono n m l : n <= m -> litn n l -> litn m l. Proof. intros H [A B]. split; lia. Qed.
Lemma opn_mono n m o : n <= m -> opn n o -> opn m o.
Proof. intros H. destruct o as [a b|a b|c]; simpl; try lia. intros X l Hl. eapply litn_mono; eauto. Qed.
Lemma nth_snoc_old {A} (l : list A) x i y : nth_error l i = Some y -> nth_error (l ++ [x]) i = Some y.
Proof. intros H. rewrite nth_error_app1; auto. eapply nth_lt; eauto. Qed.
Lemma nth_snoc_new {A} (l : list A) x : nth_error (l ++ [x]) (length l) = Some x.
Proof. rewrite nth_error_app2, Nat.sub_diag; auto. Qed.
Lemma register_fields s t d : let s' := register s t d in let id := length (eg_terms s) in
  eg_terms s' = eg_terms s ++ [TI t (length (eg_groups s)) d] /\ eg_groups s' = eg_groups s ++ [Info (GI [id] [] [])] /\ eg_apps s' = eg_apps s /\
  eg_clauses s' = eg_clauses s /\ eg_amap s' = eg_amap s /\ eg_pending s' = eg_pending s /\ eg_contra s' = eg_contra s /\
  eg_decomps s' = match d with DOpaque => eg_decomps s | _ => map_set decomp_eqb (eg_decomps s) d id end /\
  eg_opaque s' = match d with DOpaque => map_set term_eqb (eg_opaque s) t id | _ => eg_opaque s end.
Proof. destruct d; cbv zeta; unfold register, new_term; repeat split. Qed.
Lemma register_jwf s t d : jwf s -> fresh s t d -> jwf (register s t d) /\ goes s (register s t d).
Proof.
  intros J F. pose proof (jwf_len _ J) as LG. destruct J as [JG JI JR JA JD JC].
  destruct (register_fields s t d) as (R1 & R2 & R3 & R4 & R5 & R6 & R7 & R8 & R9). set (s' := register s t d) in *. clearbody s'.
  set (id := length (eg_terms s)) in *.
  assert (Lv : forall g gi, nth_error (eg_groups s') g = Some (Info gi) -> nth_error (eg_groups s) g = Some (Info gi) \/ (g = id /\ gi = GI [id] [] [])).
  { intros g gi H. rewrite R2 in H. apply nth_snoc in H. destruct H as [H|[-> H]]; auto. injection H as <-. right. split; auto. }
  assert (Lo : forall g p, nth_error (eg_groups s) g = Some p -> nth_error (eg_groups s') g = Some p) by (intros g p H; rewrite R2; apply nth_snoc_old; auto).
  assert (Rl : forall g h, rel (eg_groups s') g h <-> rel (eg_groups s) g h).
  { intros g h. split; intros (i & H & I); [|exists i; auto]. apply Lv in H. destruct H as [H|[_ ->]]; [exists i; auto|destruct I]. }
  assert (Ln : length (eg_groups s') = S (length (eg_groups s))) by (rewrite R2, app_length; simpl; lia).
  assert (To : forall i ti, nth_error (eg_terms s) i = Some ti -> nth_error (eg_terms s') i = Some ti) by (intros i ti H; rewrite R1; apply nth_snoc_old; auto).
  assert (Dm : forall d0 i, map_get decomp_eqb (eg_decomps s) d0 = Some i -> map_get decomp_eqb (eg_decomps s') d0 = Some i).
  { intros d0 i H. rewrite R8. destruct d as [a|f a|]; auto; rewrite get_dset; erewrite dget_none_neq; eauto; simpl in F; tauto. }
  assert (Om : forall u i, map_get term_eqb (eg_opaque s) u = Some i -> map_get term_eqb (eg_opaque s') u = Some i).
  { intros u i H. rewrite R9. destruct d as [a|f a|]; auto. rewrite get_tset. erewrite tget_none_neq; eauto. simpl in F; tauto. }
  split.
  - constructor.
    + destruct JG as [K1 K2 K3 K4]. constructor.
      * rewrite Ln, R1, app_length. simpl. lia.
      * intros i ti H. rewrite R1 in H. apply nth_snoc in H. destruct H as [H|[-> ->]].
        -- destruct (K2 _ _ H) as (gi & L & I). exists gi. auto.
        -- cbn [ti_group]. exists (GI [id] [] []). split; [rewrite R2; apply nth_snoc_new|simpl; auto].
      * intros g gi u H I. apply Lv in H. destruct H as [H|[-> ->]].
        -- destruct (K3 _ _ _ H I) as (ti & Hi & E). exists ti. auto.
        -- destruct I as [<-|[]]. eexists. split; [rewrite R1; apply nth_snoc_new|]. simpl. auto.
      * intros g gi H. apply Lv in H. destruct H as [H|[-> ->]]; [eauto|discriminate].
    + destruct JI as [K1 K2 K3]. constructor.
      * intros g gi H. apply Lv in H. destruct H as [H|[-> ->]]; [eauto|constructor].
      * intros g H. apply Rl in H. apply (K2 _ H).
      * intros g h H. apply Rl in H. apply Rl. auto.
    + destruct JR as (rk & K). exists rk. intros g h H. rewrite Ln. rewrite R2 in H. apply nth_snoc in H. destruct H as [H|[_ H]]; [|discriminate].
      destruct (K _ _ H) as (K1 & K2 & K3). split; [lia|]. split; auto. rewrite R2. unfold remapped in *. rewrite filter_app, app_length. lia.
    + rewrite R3, R5. destruct JA as [K1 K2 K3 K4 K5]. constructor; auto.
      * intros g gi k H I. apply Lv in H. destruct H as [H|[-> ->]]; [eauto|destruct I].
      * intros k a H. destruct (K2 _ _ H). split; auto. lia.
      * intros k a g H E. destruct (K3 _ _ _ H E) as (gi & L & I). exists gi. auto.
    + destruct JD as (D1 & D2 & D3). split; [|split].
      * intros i ti H. rewrite R1 in H. apply nth_snoc in H. destruct H as [H|[-> ->]].
        -- specialize (D1 _ _ H). destruct (ti_decomp ti) as [a|f a|]; [destruct D1; auto| |destruct D1; auto].
           destruct D1 as [X (tf & ta & Hf & Ha & E)]. split; auto. exists tf, ta. auto.
        -- cbn [ti_decomp ti_term]. rewrite R8, R9. destruct d as [a|f a|]; simpl in F.
           ++ destruct F as [-> F]. split; auto. rewrite get_dset, decomp_refl. auto.
           ++ destruct F as [F (tf & ta & Hf & Ha & E)]. rewrite get_dset, decomp_refl. split; auto. exists tf, ta. auto.
           ++ destruct F as [F1 F2]. split; auto. rewrite get_tset, (proj2 (term_eqb_eq t t) eq_refl). auto.
      * intros d0 i H. rewrite R8 in H.
        assert (N : map_get decomp_eqb (eg_decomps s) d0 = Some i -> exists ti, nth_error (eg_terms s') i = Some ti /\ ti_decomp ti = d0).
        { intros H'. destruct (D2 _ _ H') as (ti & Hi & E). exists ti. auto. }
        assert (N' : d <> DOpaque -> map_get decomp_eqb (map_set decomp_eqb (eg_decomps s) d id) d0 = Some i -> exists ti, nth_error (eg_terms s') i = Some ti /\ ti_decomp ti = d0).
        { intros _ H'. rewrite get_dset in H'. destruct (decomp_eqb d d0) eqn:E; auto. apply decomp_eqb_eq in E. subst d0. injection H' as <-.
          eexists. split; [rewrite R1; apply nth_snoc_new|reflexivity]. }
        destruct d; auto; apply N'; auto; discriminate.
      * intros u i H. rewrite R9 in H.
        assert (N : map_get term_eqb (eg_opaque s) u = Some i -> exists ti, nth_error (eg_terms s') i = Some ti /\ ti_term ti = u).
        { intros H'. destruct (D3 _ _ H') as (ti & Hi & E). exists ti. auto. }
        destruct d; auto. rewrite get_tset in H. destruct (term_eqb t u) eqn:E; auto. apply term_eqb_eq in E. subst u. injection H as <-.
        eexists. split; [rewrite R1; apply nth_snoc_new|reflexivity].
    + rewrite Ln. destruct JC as [C1 C2 C3]. constructor; rewrite ?R4, ?R6; auto.
      * intros c Hc l Hl. eapply litn_mono; [|eapply C2; eauto]. lia.
      * intros o Ho. eapply opn_mono; [|eapply C3; eauto]. lia.
  - constructor; auto.
    + exists [(t, d)]. unfold shape. rewrite R1, map_app. auto.
    + congruence.
    + right. assert (SG : forall i j, same_group s i j -> same_group s' i j) by (intros i j (ti & tj & A & B & C); exists ti, tj; auto).
      split; [|split].
      * apply conn_lift; [intros; apply conn_grp; auto|]. intros i j H. apply conn_pend. rewrite R6. auto.
      * intros i j [H|(ti & tj & A & B & C)]; [left; rewrite R6; auto|]. right. exists ti, tj. split; auto. split; auto. apply Rl. auto.
      * exists (fun g => g). split; [eauto|]. intros a b r H. exists r. rewrite R5. split; auto using conn_refl.
Qed.
Lemma register_goes_amap s t d : eg_amap (register s t d) = eg_amap s. Proof. destruct d; reflexivity. Qed.

Section Total.
Context (ordk : nat -> list nat -> list nat) (ordc : nat -> list clauseid -> list clauseid).
Context (ordk_perm : forall n l, Permutation (ordk n l) l) (ordc_perm : forall n l, Permutation (ordc n l) l).
Notation process_pending := (process_pending ordk ordc).
Notation insert_term := (insert_term ordk ordc).

(** ** process_pending *)
Lemma process_fuel n : forall s, process_pending n s <> NoFuel -> process_pending (S n) s = process_pending n s.
Proof.
  induction n as [|n IH]; intros s H; [exfalso; apply H; reflexivity|].
  change (process_pending (S (S n)) s) with (match eg_pending s with [] => Ok s | o :: rest =>
    let s := set_pending s rest in if eg_contra s then Ok s else do s <- process_one ordk ordc s o; process_pending (S n) s end).
  cbn [EqualityGraph.process_pending] in *. destruct (eg_pending s) as [|o rest]; auto. cbv zeta in *. destruct (eg_contra (set_pending s rest)); auto.
  destruct (process_one ordk ordc (set_pending s rest) o) as [s1| |]; cbn [rbind] in *; auto.
Qed.
Lemma process_fuel_le n m s : n <= m -> process_pending n s <> NoFuel -> process_pending m s = process_pending n s.
Proof.
  induction 1 as [|m L IH]; auto. intros H. rewrite process_fuel; auto. rewrite IH; auto.
Qed.
Lemma jwf_pop s o rest : jwf s -> eg_pending s = o :: rest -> jwf (set_pending s rest).
Proof. intros [H1 H2 H3 H4 H5 H6] P. constructor; auto. destruct H6 as [C1 C2 C3]. constructor; auto. intros x Hx. apply C3. rewrite P. simpl; auto. Qed.
Definition settled (s : egraph) : Prop := eg_contra s = false -> eg_pending s = [].

Lemma process_one_wp s o rest : jwf s -> eg_pending s = o :: rest -> eg_contra s = false ->
  wp (process_one ordk ordc (set_pending s rest) o) (fun s' => jwf s' /\ goes s s' /\ length (eg_terms s') = length (eg_terms s) /\
    below (livec (eg_groups s)) (unrelated (eg_groups s)) (weight (eg_pending s)) s').
Proof.
  intros J P C. pose proof (jwf_pop _ _ _ J P) as J1. set (s1 := set_pending s rest) in *.
  assert (R : opn (length (eg_groups s)) o) by (apply (c_pend _ _ (j_c _ J)); rewrite P; simpl; auto).
  assert (K : forall s' w, stepped s1 s' w -> w = oweight o ->
    match o with OEq a b => same_group s' a b | ONeq a b => eg_contra s' = true \/ apart s' a b | OClause _ => True end ->
    jwf s' /\ goes s s' /\ length (eg_terms s') = length (eg_terms s) /\ below (livec (eg_groups s)) (unrelated (eg_groups s)) (weight (eg_pending s)) s').
  { intros s' w [S1 S2 S3] -> E. split; auto. split; [eapply pop_goes; eauto|]. split; [apply (shape_len s1), (e_shape _ _ S2)|]. rewrite P. exact S3. }
  destruct o as [a b|a b|c]; simpl in R; cbn [process_one].
  - eapply wp_mono; [|apply (set_terms_equal_once_wp ordk ordc ordk_perm ordc_perm s1); tauto]. intros s' [S1 S2]. apply (K s' _ S1); auto.
  - eapply wp_mono; [|apply (set_terms_not_equal_once_wp ordc ordc_perm s1); tauto]. intros s' [S1 S2]. apply (K s' _ S1); auto.
  - eapply wp_mono; [|apply (insert_clause_normalized_wp s1); auto]. intros s' S1. apply (K s' _ S1); auto.
Qed.

Lemma process_pending_wp : forall s, jwf s -> exists n, wp (process_pending n s) (fun s' => jwf s' /\ goes s s' /\
  length (eg_terms s') = length (eg_terms s) /\ settled s').
Proof.
  assert (X : forall l u w s, livec (eg_groups s) = l -> unrelated (eg_groups s) = u -> weight (eg_pending s) = w -> jwf s ->
    exists n, wp (process_pending n s) (fun s' => jwf s' /\ goes s s' /\ length (eg_terms s') = length (eg_terms s) /\ settled s')).
  { induction l as [l IHl] using lt_wf_ind. induction u as [u IHu] using lt_wf_ind. induction w as [w IHw] using lt_wf_ind.
    intros s El Eu Ew J. destruct (eg_pending s) as [|o rest] eqn:P.
    { exists 1. cbn [EqualityGraph.process_pending]. rewrite P. cbn [wp]. split; auto. split; auto using goes_refl. split; auto. intros _. auto. }
    destruct (eg_contra s) eqn:C.
    { exists 1. cbn [EqualityGraph.process_pending]. rewrite P. cbv zeta. cbn [set_pending eg_contra]. rewrite C. cbn [wp]. split; [eapply jwf_pop; eauto|]. split.
      - constructor; auto. exists []; rewrite app_nil_r; auto.
      - split; auto. intros E. cbn in E. congruence. }
    destruct (wp_ok _ _ (process_one_wp s o rest J P C)) as (s1 & E1 & J1 & G1 & L1 & B).
    assert (Y : exists n, wp (process_pending n s1) (fun s' => jwf s' /\ goes s1 s' /\ length (eg_terms s') = length (eg_terms s1) /\ settled s')).
    { rewrite P, Ew in B. destruct B as [B|(B1 & [B2|[B2 B3]])].
      - eapply (IHl (livec (eg_groups s1))); eauto. lia.
      - eapply (IHu (unrelated (eg_groups s1))); eauto; lia.
      - eapply (IHw (weight (eg_pending s1))); eauto; lia. }
    destruct Y as (n & Y). exists (S n). cbn [EqualityGraph.process_pending]. rewrite P. cbv zeta. cbn [set_pending eg_contra]. rewrite C, E1. cbn [rbind].
    eapply wp_mono; [|exact Y]. intros s' (K1 & K2 & K3 & K4). split; auto. split; [eapply goes_trans; eauto|]. split; auto. congruence. }
  intros s J. eapply X; eauto.
Qed.
Lemma process_inv X s : inv X s -> exists n, wp (process_pending n s) (fun s' => inv X s' /\ goes s s' /\ length (eg_terms s') = length (eg_terms s) /\ settled s').
Proof.
  intros I. destruct (process_pending_wp s (proj1 I)) as (n & H). exists n. eapply wp_mono; [|exact H]. intros s' (J & G & L & S). split; auto.
  eapply inv_goes; eauto. intros _ i Hi. lia.
Qed.

(** ** applications of groups *)
Lemma insert_group_application_wp s f a r tf ta tr : jwf s -> nth_error (eg_terms s) f = Some tf -> nth_error (eg_terms s) a = Some ta -> nth_error (eg_terms s) r = Some tr ->
  wp (insert_group_application s (ti_group tf) (ti_group ta) r) (fun s' => jwf s' /\ goes s s' /\ eg_terms s' = eg_terms s /\ eg_contra s' = eg_contra s /\
    eg_decomps s' = eg_decomps s /\
    exists x, map_get key_eqb (eg_amap s') (ti_group tf, ti_group ta) = Some x /\ conn s' r x).
Proof.
  intros J Hf Ha Hr. unfold insert_group_application. unfold get_group_id at 1. rewrite Hr. cbn [rbind unwrap].
  set (fg := ti_group tf) in *. set (ag := ti_group ta) in *.
  assert (Rr : r < length (eg_groups s)) by (rewrite (jwf_len _ J); eapply nth_lt; eauto).
  destruct (map_get key_eqb (eg_amap s) (fg, ag)) as [x|] eqn:M.
  - assert (Rx : x < length (eg_groups s)). { destruct (a_map _ _ _ (j_a _ J) _ _ M) as (k & Hk). apply (a_app _ _ _ (j_a _ J)) in Hk. simpl in Hk. tauto. }
    destruct (jwf_term s x J Rx) as (tx & gx & X1 & X2 & X3). unfold get_group_id. rewrite X1. cbn [rbind unwrap wp].
    destruct (Nat.eqb_spec (ti_group tx) (ti_group tr)) as [E|N].
    + split; auto. split; auto using goes_refl. repeat (split; auto). exists x. split; auto. apply conn_grp. exists tr, tx. auto.
    + set (s' := push s (OEq x r)). split; [|split; [|repeat (split; auto)]].
      * destruct J as [J1 J2 J3 J4 J5 J6]. constructor; auto. apply cwf_push; auto. simpl. auto.
      * constructor; auto; [exists []; rewrite app_nil_r; auto|]. right. split; [|split].
        -- apply conn_lift; [intros i j H; apply conn_grp; auto|]. intros i j H. apply conn_pend. simpl. auto.
        -- intros i j [H|H]; [left; simpl; auto|right; auto].
        -- exists (fun g => g). split; [eauto|]. intros p q y H. exists y. split; auto using conn_refl.
      * exists x. split; auto. apply conn_sym, conn_pend. simpl; auto.
  - destruct (g_grp _ _ (j_g _ J) _ _ Hf) as (fi & Lf & _), (g_grp _ _ (j_g _ J) _ _ Ha) as (ai & La & _). fold fg in Lf. fold ag in La.
    set (id := length (eg_apps s)). apply wp_bind.
    set (add := fun g i => if Nat.eqb g fg || Nat.eqb g ag then GI (gi_terms i) (gi_apps i ++ [id]) (gi_ineq i) else i).
    assert (Y : wp (foldm (fun gs g => match nth_error gs g with
        | Some (Info i) => Ok (upd gs g (Info (GI (gi_terms i) (gi_apps i ++ [id]) (gi_ineq i)))) | _ => Panic end) (key_groups (fg, ag)) (eg_groups s))
       (fun gs => length gs = length (eg_groups s) /\ remapped gs = remapped (eg_groups s) /\
          forall g, nth_error gs g = match nth_error (eg_groups s) g with Some (Info i) => Some (Info (add g i)) | p => p end)).
    { assert (P1 : forall gs g i, nth_error gs g = Some (Info i) -> let gs' := upd gs g (Info (GI (gi_terms i) (gi_apps i ++ [id]) (gi_ineq i))) in
         length gs' = length gs /\ remapped gs' = remapped gs).
      { intros gs g i H. split; [apply upd_length|]. pose proof (remapped_upd gs g _ (Info (GI (gi_terms i) (gi_apps i ++ [id]) (gi_ineq i))) H) as Q. simpl in Q. lia. }
      assert (P2 : forall x y ix iy, x <> y -> nth_error (eg_groups s) x = Some (Info ix) -> nth_error (eg_groups s) y = Some (Info iy) ->
         (forall g, (Nat.eqb g fg || Nat.eqb g ag) = (Nat.eqb g x || Nat.eqb g y)) ->
         wp (foldm (fun gs g => match nth_error gs g with
            | Some (Info i) => Ok (upd gs g (Info (GI (gi_terms i) (gi_apps i ++ [id]) (gi_ineq i)))) | _ => Panic end) [x; y] (eg_groups s))
           (fun gs => length gs = length (eg_groups s) /\ remapped gs = remapped (eg_groups s) /\
          forall g, nth_error gs g = match nth_error (eg_groups s) g with Some (Info i) => Some (Info (add g i)) | p => p end)).
      { intros x y ix iy N Hx Hy Eg. cbn [foldm]. rewrite Hx. cbn [rbind]. rewrite nth_upd. destruct (Nat.eqb_spec x y); [congruence|]. rewrite Hy. cbn [rbind wp].
        destruct (P1 _ _ _ Hx) as [A1 A2].
        assert (Hy' : nth_error (upd (eg_groups s) x (Info (GI (gi_terms ix) (gi_apps ix ++ [id]) (gi_ineq ix)))) y = Some (Info iy)).
        { rewrite nth_upd. destruct (Nat.eqb_spec x y); [congruence|auto]. }
        destruct (P1 _ _ _ Hy') as [B1 B2].
        split; [congruence|]. split; [congruence|]. intros g. rewrite !nth_upd. unfold add. rewrite Eg, (Nat.eqb_sym y g), (Nat.eqb_sym x g).
        destruct (Nat.eqb_spec g y) as [->|].
        - destruct (Nat.eqb_spec y x); [congruence|]. rewrite Hy. cbn [option_map orb]. auto.
        - destruct (Nat.eqb_spec g x) as [->|]; [rewrite Hx; auto|]. cbn [orb]. destruct (nth_error (eg_groups s) g) as [[|]|]; auto. }
      unfold key_groups. destruct (Nat.eqb_spec fg ag) as [E|N].
      - cbn [foldm]. rewrite Lf. cbn [rbind wp]. destruct (P1 _ _ _ Lf) as [A1 A2]. split; auto. split; auto.
        intros g. rewrite nth_upd. unfold add. rewrite <- E, orb_diag, (Nat.eqb_sym fg g). destruct (Nat.eqb_spec g fg) as [->|]; [rewrite Lf; auto|].
        destruct (nth_error (eg_groups s) g) as [[|]|]; auto.
      - destruct (Nat.leb fg ag); [apply (P2 fg ag fi ai)|apply (P2 ag fg ai fi)]; auto. intros g. apply orb_comm. }
    eapply wp_mono; [|exact Y]. clear Y. intros gs (L & Rm & P). cbn [wp].
    assert (Q1 : forall g i, nth_error (eg_groups s) g = Some (Info i) -> nth_error gs g = Some (Info (add g i))) by (intros g i H; rewrite P, H; auto).
    assert (Q2 : forall g i', nth_error gs g = Some (Info i') -> exists i, nth_error (eg_groups s) g = Some (Info i) /\ i' = add g i).
    { intros g i' H. rewrite P in H. destruct (nth_error (eg_groups s) g) as [[|i]|]; try discriminate. injection H as <-. eauto. }
    assert (T : forall g i, gi_terms (add g i) = gi_terms i /\ gi_ineq (add g i) = gi_ineq i /\ incl (gi_apps i) (gi_apps (add g i)) /\
       (forall k, In k (gi_apps (add g i)) -> In k (gi_apps i) \/ k = id)).
    { intros g i. unfold add. destruct (_ || _); simpl; repeat split; auto using incl_refl; [apply incl_appl, incl_refl|].
      intros k Hk. apply in_app_iff in Hk. destruct Hk as [Hk|[<-|[]]]; auto. }
    assert (Rl : forall g h, rel gs g h <-> rel (eg_groups s) g h).
    { intros g h. split; intros (i & H & I).
      - destruct (Q2 _ _ H) as (i0 & H0 & ->). rewrite (proj1 (proj2 (T g i0))) in I. exists i0. auto.
      - exists (add g i). split; auto. rewrite (proj1 (proj2 (T g i))). auto. }
    set (am := map_set key_eqb (eg_amap s) (fg, ag) r).
    assert (Gm : forall q, map_get key_eqb am q = if key_eqb (fg, ag) q then Some r else map_get key_eqb (eg_amap s) q) by (intros; apply (get_set key_eqb key_eqb_eq)).
    assert (Gr : key_eqb (fg, ag) (fg, ag) = true) by (apply key_eqb_eq; auto).
    assert (Go : forall q y, map_get key_eqb (eg_amap s) q = Some y -> map_get key_eqb am q = Some y).
    { intros q y H. rewrite Gm. destruct (key_eqb (fg, ag) q) eqn:E; auto. apply key_eqb_eq in E. subst q. congruence. }
    split; [|split; [|repeat (split; auto)]].
    + destruct J as [[K1 K2 K3 K4] [I1 I2 I3] (rk & R) [A1 A2 A3 A4 A5] JD [C1 C2 C3]]. constructor; cbn [set_apps set_groups eg_terms eg_groups eg_apps eg_amap eg_decomps eg_opaque]; auto.
      * constructor; [congruence| | |].
        -- intros i ti H. destruct (K2 _ _ H) as (gi & G & I). eexists. split; [apply Q1; eauto|]. rewrite (proj1 (T _ _)). auto.
        -- intros g gi u H I. destruct (Q2 _ _ H) as (i & Hi & ->). rewrite (proj1 (T _ _)) in I. eauto.
        -- intros g gi H. destruct (Q2 _ _ H) as (i & Hi & ->). rewrite (proj1 (T _ _)). eauto.
      * constructor.
        -- intros g gi H. destruct (Q2 _ _ H) as (i & Hi & ->). rewrite (proj1 (proj2 (T _ _))). eauto.
        -- intros g H. apply Rl in H. apply (I2 _ H).
        -- intros g h H. apply Rl in H. apply Rl. auto.
      * exists rk. intros g h H. rewrite L, Rm. rewrite P in H. destruct (nth_error (eg_groups s) g) as [[|]|] eqn:E; try discriminate. injection H as ->. auto.
      * assert (Nk : forall k x, nth_error (eg_apps s) k = Some (Some x) -> ai_key x <> (fg, ag)).
        { intros k x H E. apply A2 in H. rewrite E, M in H. destruct H; discriminate. }
        constructor.
        -- intros g gi k H I. destruct (Q2 _ _ H) as (i & Hi & ->). apply T in I. rewrite app_length. simpl. destruct I as [I| ->]; [|unfold id; lia].
           pose proof (A1 _ _ _ Hi I). lia.
        -- intros k x H. rewrite L. apply nth_snoc in H. destruct H as [H|[_ H]]; [destruct (A2 _ _ H); auto|]. assert (x = AI (fg, ag) r) by congruence. subst x. cbn [ai_key ai_res]. rewrite Gm, Gr. auto.
        -- intros k x g H E. apply nth_snoc in H. destruct H as [H|[-> H]].
           ++ destruct (A3 _ _ _ H E) as (gi & G & I). exists (add g gi). split; auto. apply T. auto.
           ++ assert (x = AI (fg, ag) r) by congruence. subst x. cbn [ai_key fst snd] in E. assert (B : (Nat.eqb g fg || Nat.eqb g ag) = true) by (destruct E as [->| ->]; rewrite Nat.eqb_refl, ?orb_true_r; auto).
              assert (G : exists gi, nth_error (eg_groups s) g = Some (Info gi)) by (destruct E as [->| ->]; eauto). destruct G as (gi & G).
              exists (add g gi). split; auto. unfold add. rewrite B. simpl. apply in_app_iff. right. simpl; auto.
        -- intros k k' x x' H H' E. apply nth_snoc in H, H'. destruct H as [H|[-> H]], H' as [H'|[-> H']]; auto; [eapply A4; eauto| |].
           ++ assert (x' = AI (fg, ag) r) by congruence. subst x'. exfalso. apply (Nk _ _ H). auto.
           ++ assert (x = AI (fg, ag) r) by congruence. subst x. exfalso. apply (Nk _ _ H'). auto.
        -- intros q y H. rewrite Gm in H. destruct (key_eqb (fg, ag) q) eqn:E.
           ++ apply key_eqb_eq in E. subst q. injection H as <-. exists id. apply nth_snoc_new.
           ++ destruct (A5 _ _ H) as (k & Hk). exists k. apply nth_snoc_old. auto.
      * rewrite L. constructor; auto.
    + constructor; auto; [exists []; rewrite app_nil_r; auto|]. right. split; [|split].
      * apply conn_lift; [intros i j H; apply conn_grp; auto|intros i j H; apply conn_pend; auto].
      * intros i j [H|(ti & tj & X1 & X2 & X3)]; [left; auto|]. right. exists ti, tj. split; auto. split; auto. apply Rl. auto.
      * exists (fun g => g). split; [eauto|]. intros p q y H. exists y. split; auto using conn_refl.
    + exists r. split; [cbn [set_apps eg_amap]; rewrite Gm, Gr; auto|apply conn_refl].
Qed.

(** ** more fuel *)
Definition more {A} (x y : res A) : Prop := x <> NoFuel -> y = x.
Lemma more_refl {A} (x : res A) : more x x. Proof. intros _; auto. Qed.
Lemma more_bind {A B} (x y : res A) (f g : A -> res B) : more x y -> (forall a, more (f a) (g a)) -> more (rbind x f) (rbind y g).
Proof. intros H1 H2 H. destruct x as [a| |]; simpl in *; [|rewrite H1 by discriminate; auto|congruence]. rewrite H1 by discriminate. simpl. apply H2; auto. Qed.
Lemma insert_application_more i1 i2 s f a : (forall s t, more (i1 s t) (i2 s t)) -> more (insert_application i1 s f a) (insert_application i2 s f a).
Proof.
  intros H. unfold insert_application. destruct (map_get _ _ _); [apply more_refl|]. apply more_bind; [apply more_refl|]. intros ft.
  apply more_bind; [apply more_refl|]. intros at_. cbv zeta. destruct (new_term _ _ _) as [s1 id]. apply more_bind; [apply more_refl|]. intros fg.
  apply more_bind; [apply more_refl|]. intros ag. apply more_bind; [apply more_refl|]. intros s2. destruct (swapped_eq _); [|apply more_refl].
  apply more_bind; auto. intros [s3 sid]. apply more_refl.
Qed.
Lemma insert_term_more n : forall s t, more (insert_term n s t) (insert_term (S n) s t).
Proof.
  induction n as [|n IH]; intros s t; [intros H; exfalso; apply H; reflexivity|].
  change (insert_term (S (S n)) s t) with (do (s, id) <- match t with
      | TAtom a => Ok (insert_atom s a)
      | TApp f a => do (s, fid) <- insert_term (S n) s f; do (s, aid) <- insert_term (S n) s a; insert_application (insert_term (S n)) s fid aid
      | TBind _ _ _ => Ok (insert_opaque_term s t) end; do s <- process_pending (S n) s; Ok (s, id)).
  change (insert_term (S n) s t) with (do (s, id) <- match t with
      | TAtom a => Ok (insert_atom s a)
      | TApp f a => do (s, fid) <- insert_term n s f; do (s, aid) <- insert_term n s a; insert_application (insert_term n) s fid aid
      | TBind _ _ _ => Ok (insert_opaque_term s t) end; do s <- process_pending n s; Ok (s, id)).
  apply more_bind.
  - destruct t as [a|f a|k A b]; try apply more_refl. apply more_bind; [apply IH|]. intros [s1 fid]. apply more_bind; [apply IH|]. intros [s2 aid].
    apply insert_application_more. apply IH.
  - intros [s1 id]. apply more_bind; [intros H; apply process_fuel; auto|]. intros s2. apply more_refl.
Qed.
Lemma insert_term_le n m s t : n <= m -> more (insert_term n s t) (insert_term m s t).
Proof. induction 1 as [|m L IH]; [apply more_refl|]. intros H. rewrite insert_term_more; rewrite IH; auto. Qed.
Lemma wp_more {A} (x y : res A) Q : more x y -> wp x Q -> wp y Q.
Proof. intros H W. destruct x; simpl in W; try tauto. rewrite H by discriminate. auto. Qed.
Lemma process_le n m s : n <= m -> more (process_pending n s) (process_pending m s).
Proof. intros L H. apply process_fuel_le; auto. Qed.
Lemma application_le n m s f a : n <= m -> more (insert_application (insert_term n) s f a) (insert_application (insert_term m) s f a).
Proof. intros L. apply insert_application_more. intros. apply insert_term_le; auto. Qed.

(** ** insert_term *)
Definition present (s : egraph) (t : term) : Prop := exists i ti, nth_error (eg_terms s) i = Some ti /\ ti_term ti = t.
Lemma goes_present s s' t : goes s s' -> present s t -> present s' t.
Proof. intros G (i & ti & H & E). destruct (goes_nth _ _ _ _ G H) as (ti' & H' & E' & _). exists i, ti'. split; auto. congruence. Qed.
Definition inserted (X : list nat) (s : egraph) (t : term) (r : egraph * nat) : Prop :=
  inv X (fst r) /\ goes s (fst r) /\ exists ti, nth_error (eg_terms (fst r)) (snd r) = Some ti /\ ti_term ti = t.
Lemma inv_weaken X x s : inv X s -> inv (x :: X) s.
Proof. intros [J [C|H]]; split; auto. right. intros i Hi. destruct (H i Hi) as [A [B|B]]; split; simpl; auto. Qed.
Lemma inv_goes1 X s s' : inv X s -> jwf s' -> goes s s' -> length (eg_terms s') = S (length (eg_terms s)) ->
  (eg_contra s' = false -> congi s' (length (eg_terms s)) /\ (In (length (eg_terms s)) X \/ sweqi s' (length (eg_terms s)))) -> inv X s'.
Proof. intros I J G L H. apply (inv_goes X s s' I J G). intros C i Hi. assert (i = length (eg_terms s)) by lia. subst i. auto. Qed.
Lemma snoc_len {A} (l : list A) x : length (l ++ [x]) = S (length l). Proof. rewrite app_length. simpl. lia. Qed.

Lemma application_wp X s f a tf ta : inv X s -> nth_error (eg_terms s) f = Some tf -> nth_error (eg_terms s) a = Some ta ->
  (map_get decomp_eqb (eg_decomps s) (DApp f a) = None -> forall sw, swapped_eq (TApp (ti_term tf) (ti_term ta)) = Some sw ->
     forall X' s', inv X' s' -> goes s s' -> present s' (TApp (ti_term tf) (ti_term ta)) -> exists n, wp (insert_term n s' sw) (inserted X' s' sw)) ->
  exists n, wp (insert_application (insert_term n) s f a) (inserted X s (TApp (ti_term tf) (ti_term ta))).
Proof.
  intros I Hf Ha Hsw. pose proof (proj1 I) as J. destruct (map_get decomp_eqb (eg_decomps s) (DApp f a)) as [id|] eqn:M.
  - exists 0. unfold insert_application. rewrite M. cbn [wp]. split; auto. split; [apply goes_refl|]. cbn [fst snd].
    destruct (j_d _ J) as (D1 & D2 & _). destruct (D2 _ _ M) as (ti & Hi & E). exists ti. split; auto. specialize (D1 _ _ Hi). rewrite E in D1.
    destruct D1 as (_ & tf' & ta' & Hf' & Ha' & Et). rewrite Hf in Hf'. rewrite Ha in Ha'. injection Hf' as <-. injection Ha' as <-. auto.
  - specialize (Hsw eq_refl). set (t := TApp (ti_term tf) (ti_term ta)) in *. set (id := length (eg_terms s)).
    assert (F : fresh s t (DApp f a)) by (split; auto; exists tf, ta; auto).
    destruct (register_jwf s t (DApp f a) J F) as [J3 G3]. destruct (register_fields s t (DApp f a)) as (R1 & _ & _ & _ & _ & _ & R7 & _).
    assert (Hu : forall n, insert_application (insert_term n) s f a = let s := register s t (DApp f a) in
        do s <- insert_group_application s (ti_group tf) (ti_group ta) id;
        match swapped_eq t with None => Ok (s, id) | Some sw => do (s, sid) <- insert_term n s sw; Ok (push s (OEq id sid), id) end).
    { intros n. transitivity (let s0 := register s t (DApp f a) in
        do fg <- get_group_id s0 f; do ag <- get_group_id s0 a; do s <- insert_group_application s0 fg ag id;
        match swapped_eq t with None => Ok (s, id) | Some sw => do (s, sid) <- insert_term n s sw; Ok (push s (OEq id sid), id) end).
      - unfold insert_application. rewrite M. unfold get_term. rewrite Hf, Ha. reflexivity.
      - cbv zeta. unfold get_group_id. rewrite R1, (nth_snoc_old _ _ _ _ Hf), (nth_snoc_old _ _ _ _ Ha). reflexivity. }
    set (s3 := register s t (DApp f a)) in *.
    assert (Hf3 : nth_error (eg_terms s3) f = Some tf) by (rewrite R1; apply nth_snoc_old; auto).
    assert (Ha3 : nth_error (eg_terms s3) a = Some ta) by (rewrite R1; apply nth_snoc_old; auto).
    assert (Hi3 : nth_error (eg_terms s3) id = Some (TI t (length (eg_groups s)) (DApp f a))) by (rewrite R1; apply nth_snoc_new).
    destruct (wp_ok _ _ (insert_group_application_wp s3 f a id tf ta _ J3 Hf3 Ha3 Hi3)) as (s4 & E4 & J4 & G4 & T4 & C4 & D4 & x & Mx & Cx).
    pose proof (goes_trans _ _ _ G3 G4) as G.
    assert (L4 : length (eg_terms s4) = S (length (eg_terms s))) by (rewrite T4, R1, snoc_len; auto).
    assert (Cg : congi s4 id).
    { intros ti y z Hy Ez. rewrite T4, Hi3 in Hy. injection Hy as <-. injection Ez as <- <-. exists tf, ta, x. rewrite T4. auto. }
    assert (I4 : inv (id :: X) s4). { apply (inv_goes1 (id :: X) s); auto using inv_weaken. intros _. split; auto. left. simpl. auto. }
    destruct (swapped_eq t) as [sw|] eqn:Sw.
    + destruct (Hsw sw eq_refl (id :: X) s4 I4 G) as (n & W). { exists id, (TI t (length (eg_groups s)) (DApp f a)). rewrite T4. auto. }
      exists n. rewrite Hu. cbv zeta. rewrite E4. cbn [rbind]. apply wp_bind. eapply wp_mono; [|exact W].
      intros [s5 sid] (I5 & G5 & (tj & Hj & Ej)). cbn [fst snd] in *. cbn [wp].
      assert (Hi5 : exists ti, nth_error (eg_terms s5) id = Some ti /\ ti_term ti = t).
      { destruct (goes_nth s4 s5 id (TI t (length (eg_groups s)) (DApp f a)) G5) as (ti & Hi & Et & _); [rewrite T4; auto|]. exists ti. auto. }
      set (s6 := push s5 (OEq id sid)). pose proof (proj1 I5) as J5.
      assert (J6 : jwf s6).
      { destruct Hi5 as (ti & Hi & _). apply nth_lt in Hi. apply nth_lt in Hj. rewrite <- (jwf_len _ J5) in Hi, Hj.
        destruct J5 as [K1 K2 K3 K4 K5 K6]. constructor; auto. apply cwf_push; auto. simpl. auto. }
      assert (G6 : goes s5 s6).
      { constructor; auto; [exists []; rewrite app_nil_r; auto|]. right. split; [|split].
        - apply conn_lift; [intros i j H; apply conn_grp; auto|]. intros i j H. apply conn_pend. simpl. auto.
        - intros i j [H|H]; [left; simpl; auto|right; auto].
        - exists (fun g => g). split; [eauto|]. intros p q y H. exists y. split; auto using conn_refl. }
      assert (I6 : inv (id :: X) s6) by (apply (inv_goes _ s5); auto; intros _ i Hi; cbn in Hi; lia).
      split; [|split; [|exact Hi5]].
      * split; auto. cbn [fst]. destruct I6 as [_ [C|H]]; auto. right. intros i Hi. destruct (H i Hi) as [H1 H2]. split; auto.
        destruct H2 as [[<-|H2]|H2]; auto. right. intros ti sw' Hti Es. destruct Hi5 as (ti' & Hi' & Et). cbn in Hti. rewrite Hi' in Hti. injection Hti as <-.
        rewrite Et, Sw in Es. injection Es as <-. exists sid, tj. split; auto. split; auto. apply conn_pend. simpl; auto.
      * cbn [fst]. eapply goes_trans; [exact G|]. eapply goes_trans; eauto.
    + exists 0. rewrite Hu. cbv zeta. rewrite E4. cbn [rbind wp]. split; [|split; auto].
      * cbn [fst]. apply (inv_goes1 X s); auto. intros _. split; auto. right. intros ti sw Hti Es. fold id in Hti. rewrite T4, Hi3 in Hti. injection Hti as <-. cbn [ti_term] in Es. congruence.
      * cbn [fst snd]. exists (TI t (length (eg_groups s)) (DApp f a)). rewrite T4. auto.
Qed.

Lemma register_inv X s t d : inv X s -> fresh s t d -> (forall f a, d <> DApp f a) -> swapped_eq t = None -> inv X (register s t d) /\ goes s (register s t d) /\
  exists ti, nth_error (eg_terms (register s t d)) (length (eg_terms s)) = Some ti /\ ti_term ti = t.
Proof.
  intros I F Nd Ns. destruct (register_jwf s t d (proj1 I) F) as [J' G']. destruct (register_fields s t d) as (R1 & _).
  split; [|split; auto].
  - apply (inv_goes1 X s); auto; [rewrite R1, snoc_len; auto|]. intros _. split.
    + intros ti f a H E. rewrite R1, nth_snoc_new in H. injection H as <-. exfalso. apply (Nd f a). auto.
    + right. intros ti sw H E. rewrite R1, nth_snoc_new in H. injection H as <-. cbn [ti_term] in E. congruence.
  - eexists. split; [rewrite R1; apply nth_snoc_new|]. auto.
Qed.
(** the end of [insert_term] *)
Lemma insert_end X s t n r : inserted X s t r -> exists m, forall k, n <= k -> m <= k ->
  wp (do s' <- process_pending k (fst r); Ok (s', snd r)) (fun r' => inserted X s t r' /\ settled (fst r')).
Proof.
  intros (I & G & (ti & Hi & Et)). destruct (process_inv X (fst r) I) as (m & W). exists m. intros k _ Hk. apply wp_bind.
  eapply wp_mono; [|eapply wp_more; [apply process_le; exact Hk|exact W]]. intros s' (I' & G' & L & St). cbn [wp fst snd]. split; auto.
  split; auto. split; [eapply goes_trans; eauto|]. cbn [fst snd]. destruct (goes_nth _ _ _ _ G' Hi) as (ti' & Hi' & Et' & _). exists ti'. split; auto. congruence.
Qed.
Definition inserted' X s t r := inserted X s t r /\ settled (fst r).

Lemma insert_leaf X s t : inv X s -> match t with TApp _ _ => False | _ => True end -> exists n, wp (insert_term n s t) (inserted' X s t).
Proof.
  intros I L. assert (Y : exists r, match t with TAtom a => insert_atom s a | _ => insert_opaque_term s t end = r /\ inserted X s t r).
  { destruct (j_d _ (proj1 I)) as (D1 & D2 & D3). destruct t as [a|f a|k A b]; [| destruct L |].
    - unfold insert_atom. destruct (map_get decomp_eqb (eg_decomps s) (DAtomic a)) as [id|] eqn:M.
      + eexists. split; [reflexivity|]. split; auto. split; [apply goes_refl|]. cbn [fst snd]. destruct (D2 _ _ M) as (ti & Hi & E). exists ti. split; auto.
        specialize (D1 _ _ Hi). rewrite E in D1. tauto.
      + eexists. split; [reflexivity|]. destruct (register_inv X s (TAtom a) (DAtomic a)) as (A1 & A2 & A3); auto; [split; auto|discriminate|]. split; auto.
    - unfold insert_opaque_term. destruct (map_get term_eqb (eg_opaque s) (TBind k A b)) as [id|] eqn:M.
      + eexists. split; [reflexivity|]. split; auto. split; [apply goes_refl|]. cbn [fst snd]. destruct (D3 _ _ M) as (ti & Hi & E). exists ti. split; auto.
      + eexists. split; [reflexivity|]. destruct (register_inv X s (TBind k A b) DOpaque) as (A1 & A2 & A3); auto; [split; eauto|discriminate|]. split; auto. }
  destruct Y as (r & E & Y). destruct (insert_end X s t 0 r Y) as (m & W). exists (S m). specialize (W m (Nat.le_0_l _) (le_n _)).
  destruct t as [a|f a|k A b]; [| destruct L |]; cbn [EqualityGraph.insert_term]; rewrite E; cbn [rbind]; destruct r; exact W.
Qed.
Lemma insert_app X s f a : inv X s -> (forall X s, inv X s -> exists n, wp (insert_term n s f) (inserted' X s f)) ->
  (forall X s, inv X s -> exists n, wp (insert_term n s a) (inserted' X s a)) ->
  (forall s', goes s s' -> forall fi ai tf ta, nth_error (eg_terms s') fi = Some tf -> ti_term tf = f -> nth_error (eg_terms s') ai = Some ta -> ti_term ta = a ->
     jwf s' -> map_get decomp_eqb (eg_decomps s') (DApp fi ai) = None -> forall sw, swapped_eq (TApp f a) = Some sw ->
     forall X' s'', inv X' s'' -> goes s' s'' -> present s'' (TApp f a) -> exists n, wp (insert_term n s'' sw) (inserted X' s'' sw)) ->
  exists n, wp (insert_term n s (TApp f a)) (inserted' X s (TApp f a)).
Proof.
  intros I Hf Ha Hsw. destruct (Hf X s I) as (n1 & W1). destruct (wp_ok _ _ W1) as ([s1 fid] & E1 & (I1 & G1 & (tf & Tf & Ef)) & _). cbn [fst snd] in *.
  destruct (Ha X s1 I1) as (n2 & W2). destruct (wp_ok _ _ W2) as ([s2 aid] & E2 & (I2 & G2 & (ta & Ta & Ea)) & _). cbn [fst snd] in *.
  destruct (goes_nth _ _ _ _ G2 Tf) as (tf2 & Tf2 & Ef2 & _).
  destruct (application_wp X s2 fid aid tf2 ta I2 Tf2 Ta) as (n3 & W3).
  { replace (ti_term tf2) with f by congruence. rewrite Ea. intros M. apply (Hsw s2 (goes_trans _ _ _ G1 G2) fid aid tf2 ta); auto; [congruence|apply I2]. }
  replace (ti_term tf2) with f in W3 by congruence. rewrite Ea in W3. destruct (wp_ok _ _ W3) as (r & E3 & (I3 & G3 & T3)).
  assert (Y : inserted X s (TApp f a) r) by (split; [exact I3|split; [eapply goes_trans; [exact G1|]; eapply goes_trans; eauto|exact T3]]).
  destruct (insert_end X s _ 0 r Y) as (m & W). set (k := n1 + n2 + n3 + m). exists (S k). cbn [EqualityGraph.insert_term].
  rewrite (insert_term_le n1 k s f) by (try rewrite E1; try discriminate; unfold k; lia). rewrite E1. cbn [rbind].
  rewrite (insert_term_le n2 k s1 a) by (try rewrite E2; try discriminate; unfold k; lia). rewrite E2. cbn [rbind].
  rewrite (application_le n3 k s2 fid aid) by (try rewrite E3; try discriminate; unfold k; lia). rewrite E3. cbn [rbind].
  destruct r as [s3 id]. apply W; unfold k; lia.
Qed.
Lemma insert_present t : forall X s, inv X s -> present s t -> exists n, wp (insert_term n s t) (inserted' X s t).
Proof.
  induction t as [a|f IHf a IHa|k A IHA b IHb]; intros X s I P; try (solve [apply insert_leaf; auto]).
  destruct P as (i & ti & Hi & Et). destruct (j_d _ (proj1 I)) as (D1 & _). specialize (D1 _ _ Hi). rewrite Et in D1.
  destruct (ti_decomp ti) as [x|x y|] eqn:Ed; [destruct D1; discriminate| |destruct D1 as [(? & ? & ? & ?) _]; discriminate].
  destruct D1 as [M (tf & ta & Hf & Ha & E)]. injection E as E1 E2.
  assert (Pf : present s f) by (exists x, tf; auto). assert (Pa : present s a) by (exists y, ta; auto).
  destruct (IHf X s I Pf) as (n1 & W1). destruct (wp_ok _ _ W1) as ([s1 fid] & F1 & (I1 & G1 & (uf & Uf & Ef)) & _). cbn [fst snd] in *.
  destruct (IHa X s1 I1 (goes_present _ _ _ G1 Pa)) as (n2 & W2). destruct (wp_ok _ _ W2) as ([s2 aid] & F2 & (I2 & G2 & (ua & Ua & Ea)) & _). cbn [fst snd] in *.
  destruct (goes_nth _ _ _ _ G2 Uf) as (uf2 & Uf2 & Ef2 & _). pose proof (goes_trans _ _ _ G1 G2) as G.
  assert (fid = x). { destruct (goes_nth _ _ _ _ G Hf) as (w & Hw & Ew & _). apply (term_unique s2 (proj1 I2) f fid x uf2 w); auto; congruence. }
  assert (aid = y). { destruct (goes_nth _ _ _ _ G Ha) as (w & Hw & Ew & _). apply (term_unique s2 (proj1 I2) a aid y ua w); auto; congruence. }
  subst fid aid. destruct (application_wp X s2 x y uf2 ua I2 Uf2 Ua) as (n3 & W3).
  { intros N. rewrite (q_dec _ _ G _ _ M) in N. discriminate. }
  replace (ti_term uf2) with f in W3 by congruence. rewrite Ea in W3. destruct (wp_ok _ _ W3) as (r & F3 & (I3 & G3 & T3)).
  assert (Y : inserted X s (TApp f a) r) by (split; [exact I3|split; [eapply goes_trans; eauto|exact T3]]).
  destruct (insert_end X s _ 0 r Y) as (m & W). set (k := n1 + n2 + n3 + m). exists (S k). cbn [EqualityGraph.insert_term].
  rewrite (insert_term_le n1 k s f) by (try rewrite F1; try discriminate; unfold k; lia). rewrite F1. cbn [rbind].
  rewrite (insert_term_le n2 k s1 a) by (try rewrite F2; try discriminate; unfold k; lia). rewrite F2. cbn [rbind].
  rewrite (application_le n3 k s2 x y) by (try rewrite F3; try discriminate; unfold k; lia). rewrite F3. cbn [rbind].
  destruct r as [s3 id]. apply W; unfold k; lia.
Qed.

Fixpoint sz (t : term) : nat := match t with TAtom _ => 1 | TApp f a => S (sz f + sz a) | TBind _ A b => S (sz A + sz b) end.
Lemma sz_pos t : 1 <= sz t. Proof. destruct t; simpl; lia. Qed.
Lemma swapped_shape t sw : swapped_eq t = Some sw -> exists x y z, sw = teq x z y /\ (t = teq x y z \/ sz sw < sz t).
Proof.
  unfold swapped_eq. pose proof (spine_eq t) as E. destruct (args t) as [|x [|y [|z [|w l]]]]; try discriminate.
  destruct (head_atom (spine_head t)) as [| |[]] eqn:Hh; try discriminate. destruct (term_eqb _ _); [discriminate|]. intros H; injection H as <-.
  exists x, y, z. split; auto. cbn [fold_left] in E. destruct (spine_head_shape t) as [(a & Ha)|(k & A & b & Ha)]; rewrite Ha in *.
  - left. rewrite E. simpl in Hh. rewrite Hh. auto.
  - right. rewrite E. pose proof (sz_pos A). pose proof (sz_pos b). simpl. lia.
Qed.
Lemma swapped_teq x y z sw : swapped_eq (teq x y z) = Some sw -> sw = teq x z y.
Proof.
  unfold swapped_eq. change (args (teq x y z)) with [x; y; z]. change (spine_head (teq x y z)) with (TSym SEq). cbn [head_atom].
  destruct (term_eqb _ _); [discriminate|]. intros H; injection H as <-. auto.
Qed.

Theorem insert_total : forall k t, sz t <= k -> forall X s, inv X s -> exists n, wp (insert_term n s t) (inserted' X s t).
Proof.
  induction k as [|k IH]; intros t L X s I; [pose proof (sz_pos t); lia|].
  destruct t as [a|f a|b A c]; try (solve [apply insert_leaf; auto]). simpl in L. pose proof (sz_pos f). pose proof (sz_pos a).
  apply insert_app; auto; [intros; apply IH; auto; lia|intros; apply IH; auto; lia|].
  intros s1 G1 fi ai tf ta _ _ _ _ _ _ sw Hsw X' s' I' _ P.
  assert (Z : exists n, wp (insert_term n s' sw) (inserted' X' s' sw)).
  2:{ destruct Z as (n & Z). exists n. eapply wp_mono; [|exact Z]. intros r [R _]. auto. }
  destruct (swapped_shape _ _ Hsw) as (x & y & z & -> & [E|Lt]); [|apply IH; auto; simpl in *; lia].
  injection E as -> ->. simpl in L. unfold teq. apply insert_app; auto; [intros; apply IH; auto; simpl; lia|intros; apply IH; auto; simpl; lia|].
  intros s2 G2 fi2 ai2 tf2 ta2 _ _ _ _ _ _ sw2 Hsw2 X2 s3 I3 G3 P3.
  assert (Z : exists n, wp (insert_term n s3 sw2) (inserted' X2 s3 sw2)).
  2:{ destruct Z as (n & Z). exists n. eapply wp_mono; [|exact Z]. intros r [R _]. auto. }
  change (swapped_eq (teq x z y) = Some sw2) in Hsw2. apply swapped_teq in Hsw2. subst sw2.
  apply insert_present; auto. eapply goes_present; [exact G3|]. eapply goes_present; [exact G2|]. exact P.
Qed.
End Total.
