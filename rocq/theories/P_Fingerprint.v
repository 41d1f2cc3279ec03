(** Property C34: the fingerprint index never misses a match. *)
From Coq Require Import List Arith NArith Bool Lia.
Import ListNotations.
From Verif Require Import Term LocalContext TermProofs Literal Typing TypingProofs VariableMap VariableMapProofs
  InferenceProofs Fingerprint.

(** ** what is assumed of terms and maps *)
(** The types of types: [Type0] and the type classes. *)
Definition kind (T : term) : Prop := T = TSym SType0 \/ exists m i, T = TSym (STypeclass m i).

(** A map from variables of [c] to terms over [out] that respects types.  A type variable may go to any
    type, whatever its own type class. *)
Definition typed_map (K : kctx) (c : lctx) (m : vmap) (out : lctx) : Prop :=
  closed_map m /\
  forall i T, get_var_type c i = Some T -> exists T', get_type K out (apply_to_term m (TVar i)) = Some T' /\
    (T' = apply_to_term m T \/ kind T /\ kind T').

(** Every subterm has a type and no binder is applied. *)
Definition well_formed (K : kctx) (c : lctx) (t : term) : Prop :=
  forall p s, term_at_path t p = Some s ->
    get_type K c s <> None /\ (forall f a, s = TApp f a -> exists x, spine_head f = TAtom x).

Lemma path_nil t : term_at_path t [] = Some t.
Proof. destruct t; reflexivity. Qed.

(** ** substitution and types *)
Lemma shift_apply m t : closed_map m -> forall c k, apply_to_term m (shift_up c k t) = shift_up c k (apply_to_term m t).
Proof.
  intros Hm. induction t as [[i|i|s]|f IHf a IHa|b A IHA x IHx]; intros c k; cbn [shift_up apply_to_term]; auto.
  - destruct (vget m i) as [r|] eqn:E; auto. symmetry. apply shift_up_lc.
    pose proof (Hm _ _ E) as L. clear E. unfold lc, has_escaping_bound_variable in L. revert L.
    enough (G : forall d e, d <= e -> has_escaping_at d r = false -> has_escaping_at e r = false) by (apply G; lia).
    clear. induction r as [[i|i|s]|f IHf a IHa|b A IHA x IHx]; intros d e H; simpl; auto.
    + rewrite !Nat.leb_gt. lia.
    + rewrite !orb_false_iff. intros [H1 H2]. split; eauto.
    + rewrite !orb_false_iff. intros [H1 H2]. split; eauto. eapply IHx; [|eauto]. lia.
  - destruct (Nat.leb c i); auto.
  - rewrite IHf, IHa. auto.
  - rewrite IHA, IHx. auto.
Qed.
Lemma lc_more r : lc r -> forall d, lc_at d r.
Proof.
  unfold lc, lc_at, has_escaping_bound_variable. intros L e. revert L.
  enough (G : forall d e, d <= e -> has_escaping_at d r = false -> has_escaping_at e r = false) by (apply G; lia).
  clear. induction r as [[i|i|s]|f IHf a IHa|b A IHA x IHx]; intros d e H; simpl; auto.
  - rewrite !Nat.leb_gt. lia.
  - rewrite !orb_false_iff. intros [H1 H2]. split; eauto.
  - rewrite !orb_false_iff. intros [H1 H2]. split; eauto. eapply IHx; [|eauto]. lia.
Qed.
Lemma open_apply m r t : closed_map m -> forall d,
  apply_to_term m (open_at d r t) = open_at d (apply_to_term m r) (apply_to_term m t).
Proof.
  intros Hm. induction t as [[i|i|s]|f IHf a IHa|b A IHA x IHx]; intros d; cbn [open_at apply_to_term]; auto.
  - destruct (vget m i) as [u|] eqn:E; auto. symmetry. apply open_at_lc, lc_more. eapply Hm; eauto.
  - destruct (Nat.ltb i d); auto. destruct (Nat.eqb i d); auto. apply shift_apply; auto.
  - rewrite IHf, IHa. auto.
  - rewrite IHA, IHx. auto.
Qed.
Lemma apply_no_vars m t : vars t = [] -> apply_to_term m t = t.
Proof.
  induction t as [[i|i|s]|f IHf a IHa|b A IHA x IHx]; cbn [apply_to_term]; auto.
  - discriminate.
  - rewrite vars_app. intros H. apply app_eq_nil in H. destruct H. rewrite IHf, IHa; auto.
  - rewrite vars_bind. intros H. apply app_eq_nil in H. destruct H. rewrite IHA, IHx; auto.
Qed.

Section Types.
Context (K : kctx) (HK : kclosed K).

Lemma get_type_instance c m out t : typed_map K c m out -> forall T, get_type K c t = Some T ->
  (exists x, spine_head t = TAtom x) ->
  exists T', get_type K out (apply_to_term m t) = Some T' /\ (T' = apply_to_term m T \/ kind T /\ kind T').
Proof.
  intros [Hm Hv]. induction t as [[i|i|s]|f IHf a _|b A _ x _]; intros T HT [y Hh].
  - apply Hv. exact HT.
  - discriminate.
  - exists (symbol_type K s). split; [reflexivity|]. left. unfold get_type in HT. simpl in HT. inversion HT.
    symmetry. apply apply_no_vars, HK.
  - rewrite get_type_app in HT. destruct (get_type K c f) as [F|] eqn:Ef; [|discriminate].
    destruct (IHf F eq_refl) as (F' & E' & R); [exists y; exact Hh|]. apply type_apply_some in HT. destruct HT as (A & B & -> & ->).
    destruct R as [->|[[?|(? & ? & ?)] _]]; try discriminate. cbn [apply_to_term] in *.
    exists (open_at 0 (apply_to_term m a) (apply_to_term m B)). rewrite get_type_app, E'. split; [apply type_apply_pi|].
    left. symmetry. apply open_apply; auto.
  - discriminate.
Qed.

Lemma from_type_instance m T : from_type T = CVariable \/ from_type (apply_to_term m T) = from_type T.
Proof. destruct T as [[i|i|s]|f a|b A x]; auto. Qed.

(** ** the category of a well-formed term *)
(** The second term arises from the first by putting terms for bound variables. *)
Inductive filled : term -> term -> Prop :=
| filled_bound i t : filled (TBound i) t
| filled_atom a : filled (TAtom a) (TAtom a)
| filled_app f a f' a' : filled f f' -> filled a a' -> filled (TApp f a) (TApp f' a')
| filled_bind k A b A' b' : filled A A' -> filled b b' -> filled (TBind k A b) (TBind k A' b').
Lemma filled_refl t : filled t t.
Proof. induction t; constructor; auto. Qed.
Lemma filled_open t u : filled t u -> forall d r, filled t (open_at d r u).
Proof.
  induction 1; intros d r; cbn [open_at]; try (constructor; auto; fail).
  destruct a as [i|i|s]; constructor.
Qed.
Lemma filled_category t u : filled t u -> (forall i, t <> TBound i) -> from_type u = from_type t.
Proof. intros H N. destruct H; auto. exfalso. eapply N; eauto. Qed.

Lemma get_type_prefix c l : forall f T, get_type K c (apply f l) = Some T -> get_type K c f <> None.
Proof.
  induction l as [|a l IH]; intros f T H; [simpl in H; congruence|]. cbn in H. apply IH in H.
  rewrite get_type_app in H. destruct (get_type K c f); congruence.
Qed.
Lemma peel_spec c t T l : get_type K c t = Some T -> forall f ty F, t = apply f l -> get_type K c f = Some F ->
  filled ty F -> (forall i, ty <> TBound i) -> peel K c t (length l) ty = Some (from_type T).
Proof.
  intros HT. induction l as [|a l IH]; intros f ty F Et Ef Hf N; cbn [length peel].
  - simpl in Et. subst f. rewrite HT in Ef. inversion Ef; subst. f_equal. symmetry. apply filled_category; auto.
  - cbn in Et. rewrite HT. cbn [option_map].
    pose proof HT as HT'. rewrite Et in HT'. apply get_type_prefix in HT'. rewrite get_type_app, Ef in HT'.
    destruct (type_apply_with_arg F a) as [U|] eqn:EU; [|congruence].
    pose proof EU as EU'. apply type_apply_some in EU'. destruct EU' as (A & B & -> & ->).
    inversion Hf; subst; try (exfalso; eapply N; eauto; fail).
    destruct (match b with TAtom (BoundVar _) => true | _ => false end) eqn:Eb.
    + destruct b as [[|?|]| |]; try discriminate. reflexivity.
    + transitivity (peel K c (apply (TApp f a) l) (length l) b).
      { destruct b as [[|?|]| |]; try discriminate; reflexivity. }
      apply (IH (TApp f a) b (open_at 0 a B) eq_refl).
      * rewrite get_type_app, Ef. exact EU.
      * apply filled_open. auto.
      * intros i ->. discriminate.
Qed.

Lemma head_count_spine t : forall x, spine_head t = TAtom x -> head_and_count t = (x, length (args t)) /\ t = apply (TAtom x) (args t).
Proof.
  enough (G : forall x l, spine_head t = TAtom x -> exists n, head_and_count t = (x, n) /\ n + length l = length (args_acc t l)
     /\ apply t l = apply (TAtom x) (args_acc t l)).
  { intros x H. destruct (G x [] H) as (n & E1 & E2 & E3). unfold args. simpl in *. rewrite Nat.add_0_r in E2. subst. auto. }
  induction t as [a|f IHf a _|b A _ y _]; intros x l H; simpl in *.
  - inversion H; subst. exists 0. auto.
  - destruct (IHf x (a :: l) H) as (n & E1 & E2 & E3). rewrite E1. exists (S n). split; auto. split; [simpl in *; lia|].
    rewrite <- E3. reflexivity.
  - discriminate.
Qed.

Lemma category_spec c t T : get_type K c t = Some T -> (forall f a, t = TApp f a -> exists x, spine_head f = TAtom x) ->
  type_category K c t = Some CVariable \/ (type_category K c t = Some (from_type T) /\ forall A b, t <> TBind KLam A b).
Proof.
  intros HT HA. destruct t as [[i|i|s]|f a|k A b].
  - right. split; [|discriminate]. unfold get_type in HT. simpl in *. rewrite HT. auto.
  - discriminate.
  - right. split; [|discriminate]. unfold get_type in HT. simpl in *. inversion HT. auto.
  - destruct (HA f a eq_refl) as [x Hx].
    destruct (head_count_spine (TApp f a) x Hx) as [E1 E2]. cbn [type_category]. rewrite E1.
    pose proof HT as HP. rewrite E2 in HP. apply get_type_prefix in HP.
    destruct x as [i|i|s].
    + right. split; [|discriminate]. unfold get_type in HP. simpl in HP. destruct (get_var_type c i) as [U|] eqn:G; [|congruence].
      destruct (match U with TAtom (BoundVar _) => true | _ => false end) eqn:EU.
      * exfalso. destruct U as [[|j|]| |]; try discriminate. pose proof HT as H2. rewrite E2 in H2.
        assert (Hl : args (TApp f a) <> []) by (destruct (args (TApp f a)) eqn:E; [simpl in E2; discriminate|discriminate]).
        destruct (args (TApp f a)) as [|y r]; [congruence|]. cbn in H2. apply get_type_prefix in H2. rewrite get_type_app in H2.
        unfold get_type in H2. simpl in H2. rewrite G in H2. simpl in H2. congruence.
      * apply (peel_spec c (TApp f a) T (args (TApp f a)) HT (TVar i) U U E2); [exact G|apply filled_refl|].
        intros j ->. discriminate.
    + unfold get_type in HP. simpl in HP. congruence.
    + right. split; [|discriminate].
      apply (peel_spec c (TApp f a) T (args (TApp f a)) HT (TSym s) (symbol_type K s) (symbol_type K s) E2); [reflexivity|apply filled_refl|].
      intros j Ej. pose proof HT as H2. rewrite E2 in H2.
      destruct (args (TApp f a)) as [|y r]; [simpl in E2; discriminate|]. cbn in H2. apply get_type_prefix in H2. rewrite get_type_app in H2.
      unfold get_type in H2. simpl in H2. rewrite Ej in H2. simpl in H2. congruence.
  - destruct k; simpl; unfold get_type in HT; simpl in HT; try inversion HT; auto; right; (split; [reflexivity|discriminate]).
Qed.

(** The category of a term and the type of an instance. *)
Definition agrees (g : category) (U : term) : Prop :=
  g = CVariable \/ g = from_type U \/ ((g = CType0 \/ exists m i, g = CTypeclass m i) /\ kind U).
Lemma category_instance c m out t : typed_map K c m out -> well_formed K c t ->
  exists g, type_category K c t = Some g /\
    (g = CVariable \/ exists U, get_type K out (apply_to_term m t) = Some U /\ agrees g U).
Proof.
  intros Hm W. destruct (W [] t (path_nil t)) as [W1 W2]. destruct (get_type K c t) as [T|] eqn:ET; [|congruence].
  destruct (category_spec c t T ET W2) as [E|[E NL]]; rewrite E; [eauto|].
  exists (from_type T). split; auto. destruct t as [[i|i|s]|f a|k A b].
  - destruct (get_type_instance c m out _ Hm T ET) as (U & EU & R); [simpl; eauto|]. right. exists U. split; auto.
    destruct R as [->|[KT KU]].
    + destruct (from_type_instance m T) as [E1|E1]; [left; auto|right; left; auto].
    + right. right. split; auto. destruct KT as [->|(? & ? & ->)]; simpl; eauto.
  - discriminate.
  - destruct (get_type_instance c m out _ Hm T ET) as (U & EU & R); [simpl; eauto|]. right. exists U. split; auto.
    destruct R as [->|[KT KU]].
    + destruct (from_type_instance m T) as [E1|E1]; [left; auto|right; left; auto].
    + right. right. split; auto. destruct KT as [->|(? & ? & ->)]; simpl; eauto.
  - destruct (W2 f a eq_refl) as [x Hx].
    destruct (get_type_instance c m out _ Hm T ET) as (U & EU & R); [simpl; eauto|]. right. exists U. split; auto.
    destruct R as [->|[KT KU]].
    + destruct (from_type_instance m T) as [E1|E1]; [left; auto|right; left; auto].
    + right. right. split; auto. destruct KT as [->|(? & ? & ->)]; simpl; eauto.
  - right. destruct k; try (exfalso; eapply NL; eauto; fail); unfold get_type in ET; simpl in ET; inversion ET; subst;
      eexists; (split; [unfold get_type; cbn [apply_to_term tsize get_type_fuel]; reflexivity|]); right; left; reflexivity.
Qed.
Lemma agrees_match g1 g2 U : agrees g1 U -> agrees g2 U -> could_match g1 g2 = true.
Proof.
  assert (Self : forall g, could_match g g = true) by (intros []; simpl; auto; rewrite !N.eqb_refl; auto).
  intros [->|[->|[[->|(? & ? & ->)] Hk]]].
  - destruct g2; auto.
  - intros [->|[->|[[->|(? & ? & ->)] Hk]]]; auto.
    + destruct (from_type U); auto.
    + destruct Hk as [->|(? & ? & ->)]; auto.
    + destruct Hk as [->|(? & ? & ->)]; auto.
  - intros [->|[->|[[->|(? & ? & ->)] _]]]; auto. destruct Hk as [->|(? & ? & ->)]; auto.
  - intros [->|[->|[[->|(? & ? & ->)] _]]]; auto. destruct Hk as [->|(? & ? & ->)]; auto.
Qed.

(** ** paths *)
Lemma path_instance m p : forall t s, term_at_path t p = Some s -> term_at_path (apply_to_term m t) p = Some (apply_to_term m s).
Proof.
  induction p as [|x p IH]; intros t s H; [rewrite path_nil in *; congruence|].
  destruct t as [a|f a|k A b]; try discriminate. simpl in *. destruct x; auto.
Qed.
Lemma stops_below m p : forall t, term_at_path t p = None -> stops t p = Below \/
  (stops t p = Nothing /\ stops (apply_to_term m t) p = Nothing /\ term_at_path (apply_to_term m t) p = None).
Proof.
  induction p as [|x p IH]; intros t H; [rewrite path_nil in H; discriminate|].
  destruct t as [[i|i|s]|f a|k A b]; simpl in *; auto. destruct x; auto.
Qed.
Lemma stops_nothing p : forall t, term_at_path t p = None -> stops t p = Below \/ stops t p = Nothing.
Proof. intros t H. destruct (stops_below [] p t H) as [?|(? & _ & _)]; auto. Qed.
Lemma well_formed_path c t p s : well_formed K c t -> term_at_path t p = Some s -> well_formed K c s.
Proof.
  intros W H p' s' H'. apply (W (p ++ p')). clear W. revert t H. induction p as [|x p IH]; intros t H.
  - rewrite path_nil in H. inversion H; subst. auto.
  - destruct t as [a|f a|k A b]; try discriminate. simpl in *. destruct x; auto.
Qed.
Lemma head_instance m t : forall s, head_atom t = Sym s -> head_atom (apply_to_term m t) = Sym s.
Proof. induction t as [[i|i|s]|f IHf a _|k A IHA b _]; simpl; intros s0 H; auto; discriminate. Qed.

Lemma component_total c t p : well_formed K c t -> exists x, component_at K c t p = Some x.
Proof.
  intros W. unfold component_at. destruct (term_at_path t p) as [s|] eqn:E; [|eauto].
  destruct (W _ _ E) as [W1 W2]. destruct (get_type K c s) as [T|] eqn:ET; [|congruence].
  destruct (category_spec c s T ET W2) as [->|[-> _]]; simpl; eauto.
Qed.

Lemma categories_match c1 m1 c2 m2 out s1 s2 g1 g2 : typed_map K c1 m1 out -> typed_map K c2 m2 out ->
  well_formed K c1 s1 -> well_formed K c2 s2 -> apply_to_term m1 s1 = apply_to_term m2 s2 ->
  type_category K c1 s1 = Some g1 -> type_category K c2 s2 = Some g2 -> could_match g1 g2 = true.
Proof.
  intros H1 H2 W1 W2 E G1 G2.
  destruct (category_instance c1 m1 out s1 H1 W1) as (h1 & E1 & R1). rewrite G1 in E1. inversion E1; subst h1.
  destruct (category_instance c2 m2 out s2 H2 W2) as (h2 & E2 & R2). rewrite G2 in E2. inversion E2; subst h2.
  destruct R1 as [->|(U1 & T1 & A1)]; [auto|]. destruct R2 as [->|(U2 & T2 & A2)]; [destruct g1; auto|].
  rewrite E, T2 in T1. inversion T1; subst. eapply agrees_match; eauto.
Qed.

Lemma components_unify c1 m1 c2 m2 out t1 t2 p x1 x2 : typed_map K c1 m1 out -> typed_map K c2 m2 out ->
  well_formed K c1 t1 -> well_formed K c2 t2 -> apply_to_term m1 t1 = apply_to_term m2 t2 ->
  component_at K c1 t1 p = Some x1 -> component_at K c2 t2 p = Some x2 -> could_unify1 x1 x2 = true.
Proof.
  intros H1 H2 W1 W2 E X1 X2. unfold component_at in X1, X2.
  destruct (term_at_path t1 p) as [s1|] eqn:P1; destruct (term_at_path t2 p) as [s2|] eqn:P2.
  - destruct (type_category K c1 s1) as [g1|] eqn:G1; [|discriminate]. destruct (type_category K c2 s2) as [g2|] eqn:G2; [|discriminate].
    cbn [option_map] in X1, X2. inversion X1; inversion X2; subst. clear X1 X2.
    assert (Es : apply_to_term m1 s1 = apply_to_term m2 s2).
    { pose proof (path_instance m1 p _ _ P1) as Q1. pose proof (path_instance m2 p _ _ P2) as Q2. rewrite E, Q2 in Q1. congruence. }
    cbn [could_unify1]. rewrite (categories_match c1 m1 c2 m2 out s1 s2 g1 g2); eauto using well_formed_path.
    destruct (head_atom s1) as [i|i|a1] eqn:A1; auto. destruct (head_atom s2) as [j|j|a2] eqn:A2; auto.
    apply (head_instance m1) in A1. apply (head_instance m2) in A2. rewrite Es, A2 in A1. inversion A1; subst.
    unfold atom_same. simpl. apply term_eqb_refl.
  - inversion X2; subst. destruct (stops_below m2 p t2 P2) as [->|(-> & _ & N)]; [destruct x1; auto|].
    pose proof (path_instance m1 p _ _ P1) as Q1. rewrite E, N in Q1. discriminate.
  - inversion X1; subst. destruct (stops_below m1 p t1 P1) as [->|(-> & _ & N)]; [auto|].
    pose proof (path_instance m2 p _ _ P2) as Q2. rewrite <- E, N in Q2. discriminate.
  - inversion X1; inversion X2; subst. destruct (stops_nothing p t1 P1) as [->| ->]; auto.
    destruct (stops_nothing p t2 P2) as [->| ->]; auto.
Qed.

(** The identity respects the types of well-typed variables. *)
Lemma apply_nil t : apply_to_term [] t = t.
Proof. induction t as [[i|i|s]|f IHf a IHa|k A IHA b IHb]; simpl; auto; try congruence. unfold vget. destruct i; auto. Qed.
Lemma identity_typed c : typed_map K c [] c.
Proof.
  split; [intros i t; unfold vget; destruct i; discriminate|]. intros i T H. exists T. rewrite apply_nil. split; [exact H|].
  left. symmetry. apply apply_nil.
Qed.

Lemma components_specialize c1 m c2 t1 t2 p x1 x2 : typed_map K c1 m c2 ->
  well_formed K c1 t1 -> well_formed K c2 t2 -> t2 = apply_to_term m t1 ->
  component_at K c1 t1 p = Some x1 -> component_at K c2 t2 p = Some x2 -> could_specialize1 x1 x2 = true.
Proof.
  intros H W1 W2 E X1 X2. unfold component_at in X1, X2.
  destruct (term_at_path t1 p) as [s1|] eqn:P1.
  - pose proof (path_instance m p _ _ P1) as Q1. rewrite <- E in Q1. rewrite Q1 in X2.
    destruct (type_category K c1 s1) as [g1|] eqn:G1; [|discriminate].
    destruct (type_category K c2 (apply_to_term m s1)) as [g2|] eqn:G2; [|discriminate].
    cbn [option_map] in X1, X2. inversion X1; inversion X2; subst. clear X1 X2. cbn [could_specialize1].
    rewrite (categories_match c1 m c2 [] c2 s1 (apply_to_term m s1) g1 g2); eauto using well_formed_path, identity_typed.
    2:{ symmetry. apply apply_nil. }
    destruct (head_atom s1) as [i|i|a1] eqn:A1; auto. rewrite (head_instance m s1 a1 A1). simpl.
    unfold atom_same. apply term_eqb_refl.
  - inversion X1; subst. destruct (stops_below m p t1 P1) as [->|(-> & S2 & N)]; [auto|].
    rewrite N, S2 in X2. inversion X2; subst. auto.
Qed.

(** ** the index *)
Lemma category_eqb_refl g : category_eqb g g = true.
Proof. destruct g; simpl; auto; rewrite !N.eqb_refl; auto. Qed.
Lemma category_eqb_eq g h : category_eqb g h = true -> g = h.
Proof.
  destruct g, h; simpl; try discriminate; auto; rewrite andb_true_iff, !N.eqb_eq; intros [-> ->]; auto.
Qed.
Lemma searched_ok c1 m1 c2 m2 out t1 t2 g1 g2 : typed_map K c1 m1 out -> typed_map K c2 m2 out ->
  well_formed K c1 t1 -> well_formed K c2 t2 -> apply_to_term m1 t1 = apply_to_term m2 t2 ->
  type_category K c1 t1 = Some g1 -> type_category K c2 t2 = Some g2 ->
  ~ (get_type K c2 t2 = Some type0 /\ exists m i, get_type K c1 t1 = Some (TSym (STypeclass m i))) ->
  searched g2 g1 = true.
Proof.
  intros H1 H2 W1 W2 E G1 G2 No.
  pose proof (categories_match _ _ _ _ _ _ _ _ _ H1 H2 W1 W2 E G1 G2) as CM.
  destruct (W1 [] t1 (path_nil t1)) as [Y1 A1]. destruct (get_type K c1 t1) as [T1|] eqn:E1; [|congruence].
  destruct (W2 [] t2 (path_nil t2)) as [Y2 A2]. destruct (get_type K c2 t2) as [T2|] eqn:E2; [|congruence].
  destruct (category_spec c1 t1 T1 E1 A1) as [Z1|[Z1 _]]; rewrite G1 in Z1; inversion Z1 as [J1].
  { destruct g2; simpl; auto using orb_true_r. }
  destruct (category_spec c2 t2 T2 E2 A2) as [Z2|[Z2 _]]; rewrite G2 in Z2; inversion Z2 as [J2]; [reflexivity|].
  destruct (category_eqb g1 g2) eqn:Q.
  { apply category_eqb_eq in Q. rewrite <- J1, <- J2, Q. destruct g2; simpl; rewrite ?N.eqb_refl; auto. }
  subst g1 g2. destruct (from_type T2) eqn:F2; auto; destruct (from_type T1) eqn:F1; simpl in CM, Q |- *; auto;
    rewrite ?andb_true_r in *; try congruence.
  - exfalso. destruct (category_instance c2 m2 out t2 H2 W2) as (g & Eg & R). rewrite G2 in Eg. inversion Eg; subst g.
    destruct (category_instance c1 m1 out t1 H1 W1) as (g & Eg1 & R1). rewrite G1 in Eg1. inversion Eg1; subst g.
    destruct R as [|(U & TU & [?|[B|[[?|(? & ? & ?)] _]]])]; try discriminate.
    destruct R1 as [|(U1 & TU1 & R1)]; try discriminate. rewrite E, TU in TU1. inversion TU1; subst U1.
    destruct R1 as [?|[B1|[_ [->|(? & ? & ->)]]]]; try discriminate. congruence.
  - exfalso. apply No. assert (T2 = type0) by (destruct T2 as [[?|?|[]]|?|[] ? ?]; try discriminate; auto).
    assert (T1 = TSym (STypeclass m i)).
    { destruct T1 as [[?|?|[]]|?|[] ? ?]; try discriminate. simpl in F1. inversion F1; auto. }
    subst. eauto.
Qed.

Lemma all_some_map {X Y} (f : X -> option Y) l : (forall x, exists y, f x = Some y) -> exists r, all_some (map f l) = Some r.
Proof. intros H. induction l as [|x l [r IH]]; simpl; eauto. destruct (H x) as [y ->]. rewrite IH. eauto. Qed.
Lemma fingerprint_total c t : well_formed K c t -> exists f, fingerprint K c t = Some f.
Proof. intros W. apply all_some_map. intros p. apply component_total. auto. Qed.
Lemma category_total c t : well_formed K c t -> exists g, type_category K c t = Some g.
Proof.
  intros W. destruct (W [] t (path_nil t)) as [W1 W2]. destruct (get_type K c t) as [T|] eqn:ET; [|congruence].
  destruct (category_spec c t T ET W2) as [->|[-> _]]; eauto.
Qed.
Lemma all_some_combine (rel : component -> component -> bool) (f g : list path_step -> option component) l : forall a b,
  (forall p x y, f p = Some x -> g p = Some y -> rel x y = true) ->
  all_some (map f l) = Some a -> all_some (map g l) = Some b -> forallb (fun p => rel (fst p) (snd p)) (combine a b) = true.
Proof.
  induction l as [|p l IH]; intros a b H E1 E2; simpl in *.
  - inversion E1; inversion E2; subst. auto.
  - destruct (f p) as [x|] eqn:Ex; [|discriminate]. destruct (all_some (map f l)) as [a'|]; [|discriminate].
    destruct (g p) as [y|] eqn:Ey; [|discriminate]. destruct (all_some (map g l)) as [b'|]; [|discriminate].
    inversion E1; inversion E2; subst. simpl. rewrite (H p x y Ex Ey). simpl. apply IH; auto.
Qed.
End Types.

Fixpoint insert_terms {T} (K : kctx) (x : index (list component) T) (ops : list (lctx * term * T)) : option (index (list component) T) :=
  match ops with
  | [] => Some x
  | (c, t, v) :: r => match insert_term K x c t v with Some x' => insert_terms K x' r | None => None end
  end.
Fixpoint insert_literals {T} (K : kctx) (x : index (list component * list component) T) (ops : list (lctx * literal * T)) :=
  match ops with
  | [] => Some x
  | (c, l, v) :: r => match insert_literal K x c l v with Some x' => insert_literals K x' r | None => None end
  end.
Lemma insert_terms_in {T} K ops : forall (x x' : index (list component) T), insert_terms K x ops = Some x' ->
  (forall e, In e x -> In e x') /\
  forall c t v, In (c, t, v) ops -> exists g f, type_category K c t = Some g /\ fingerprint K c t = Some f /\ In (g, f, v) x'.
Proof.
  induction ops as [|[[c t] v] ops IH]; intros x x' E; cbn [insert_terms] in E.
  - inversion E; subst. split; auto. simpl; tauto.
  - unfold insert_term in E. destruct (fingerprint K c t) as [f|] eqn:Ef; [|discriminate].
    destruct (type_category K c t) as [g|] eqn:Eg; [|discriminate]. destruct (IH _ _ E) as [M I]. split.
    + intros e He. apply M, in_or_app. auto.
    + intros c0 t0 v0 [H|H]; [|eauto]. inversion H; subst. exists g, f. split; auto. split; auto. apply M, in_or_app. simpl. auto.
Qed.
Lemma insert_literals_in {T} K ops : forall (x x' : index _ T), insert_literals K x ops = Some x' ->
  (forall e, In e x -> In e x') /\
  forall c l v, In (c, l, v) ops -> exists g f f', type_category K c (left l) = Some g /\ fingerprint K c (left l) = Some f /\
    fingerprint K c (right l) = Some f' /\ In (g, (f, f'), v) x'.
Proof.
  induction ops as [|[[c l] v] ops IH]; intros x x' E; cbn [insert_literals] in E.
  - inversion E; subst. split; auto. simpl; tauto.
  - unfold insert_literal, lit_fingerprint in E. destruct (fingerprint K c (left l)) as [f|] eqn:Ef; [|discriminate].
    destruct (fingerprint K c (right l)) as [f'|] eqn:Ef'; [|discriminate].
    destruct (type_category K c (left l)) as [g|] eqn:Eg; [|discriminate]. destruct (IH _ _ E) as [M I]. split.
    + intros e He. apply M, in_or_app. auto.
    + intros c0 t0 v0 [H|H]; [|eauto]. inversion H; subst. exists g, f, f'. split; auto. split; auto. split; auto. apply M, in_or_app. simpl. auto.
Qed.

(** If a stored term and the query have a common instance under maps that respect types, the query
    returns the stored value, unless the query is a type and the stored term a variable for members of a
    type class. *)
Theorem unifying_terms_are_found :
  forall T K (ops : list (lctx * term * T)) x c1 t1 v m1 c2 t2 m2 out, kclosed K ->
  insert_terms K [] ops = Some x -> In (c1, t1, v) ops ->
  well_formed K c1 t1 -> well_formed K c2 t2 -> typed_map K c1 m1 out -> typed_map K c2 m2 out ->
  apply_to_term m1 t1 = apply_to_term m2 t2 ->
  ~ (get_type K c2 t2 = Some type0 /\ exists m i, get_type K c1 t1 = Some (TSym (STypeclass m i))) ->
  exists found, find_unifying K x c2 t2 = Some found /\ In v found.
Proof.
  intros T K ops x c1 t1 v m1 c2 t2 m2 out HK Ins I W1 W2 H1 H2 E No.
  destruct (insert_terms_in K ops [] x Ins) as [_ G]. destruct (G _ _ _ I) as (g1 & f1 & G1 & F1 & Ix).
  destruct (fingerprint_total K c2 t2 W2) as [f2 F2]. destruct (category_total K c2 t2 W2) as [g2 G2].
  unfold find_unifying. rewrite F2, G2. eexists. split; [reflexivity|].
  apply in_map_iff. exists (g1, f1, v). split; auto. apply filter_In. split; auto. cbn [fst snd]. apply andb_true_iff. split.
  - eapply searched_ok with (m1 := m1) (m2 := m2); eauto.
  - unfold could_unify, fingerprint in *. apply (all_some_combine could_unify1 (component_at K c2 t2) (component_at K c1 t1) paths); auto.
    intros p a b Ha Hb. eapply (components_unify K HK c2 m2 c1 m1 out); eauto.
Qed.
Print Assumptions unifying_terms_are_found.

(** If a stored literal is an instance of the queried sides, the query returns it, with the same exception. *)
Theorem specializations_are_found :
  forall T K (ops : list (lctx * literal * T)) x c1 l v c2 a b m, kclosed K ->
  insert_literals K [] ops = Some x -> In (c1, l, v) ops ->
  well_formed K c1 (left l) -> well_formed K c1 (right l) -> well_formed K c2 a -> well_formed K c2 b ->
  typed_map K c2 m c1 -> left l = apply_to_term m a -> right l = apply_to_term m b ->
  ~ (get_type K c2 a = Some type0 /\ exists m i, get_type K c1 (left l) = Some (TSym (STypeclass m i))) ->
  exists found, find_specializing K x c2 a b = Some found /\ In v found.
Proof.
  intros T K ops x c1 l v c2 a b m HK Ins I W1 W1' W2 W2' H2 E E' No.
  destruct (insert_literals_in K ops [] x Ins) as [_ G]. destruct (G _ _ _ I) as (g1 & f1 & f1' & G1 & F1 & F1' & Ix).
  destruct (fingerprint_total K c2 a W2) as [f2 F2]. destruct (fingerprint_total K c2 b W2') as [f2' F2'].
  destruct (category_total K c2 a W2) as [g2 G2].
  unfold find_specializing, lit_fingerprint. rewrite F2, F2', G2. eexists. split; [reflexivity|].
  apply in_map_iff. exists (g1, (f1, f1'), v). split; auto. apply filter_In. split; auto. cbn [fst snd]. rewrite !andb_true_iff.
  split; [|split].
  - apply (searched_ok K HK c1 [] c2 m c1 (left l) a g1 g2); auto; [apply identity_typed|rewrite apply_nil; auto].
  - unfold could_specialize, fingerprint in *.
    apply (all_some_combine could_specialize1 (component_at K c2 a) (component_at K c1 (left l)) paths); auto.
    intros p y z Ha Hb. eapply (components_specialize K HK c2 m c1 a (left l)); eauto.
  - unfold could_specialize, fingerprint in *.
    apply (all_some_combine could_specialize1 (component_at K c2 b) (component_at K c1 (right l)) paths); auto.
    intros p y z Ha Hb. eapply (components_specialize K HK c2 m c1 b (right l)); eauto.
Qed.
Print Assumptions specializations_are_found.

(** A binder that is applied: its category comes from the type of an unrelated variable [x0], and the
    term is not even found by itself under another numbering. *)
Definition sc (i : N) : term := TSym (SScoped i).
Definition A : term := TSym (SType 0 3).
Definition B : term := TSym (SType 0 4).
(** 1 has type [A], 2 type [A -> B], 3 type [(t: Type0) -> t -> t], 4 type [A -> A -> A]. *)
Definition Kf : kctx :=
  {| k_type := fun _ _ => TSym SType0; k_global := fun _ _ => tbool;
     k_scoped := fun i => if N.eqb i 1 then A else if N.eqb i 2 then TBind KPi A B
       else if N.eqb i 3 then TBind KPi (TSym SType0) (TBind KPi (TBound 0) (TBound 1))
       else TBind KPi A (TBind KPi A A);
     k_instance := fun _ _ _ => true; k_extends := fun _ _ => false; k_value_params := fun _ => false |}.
Lemma Kf_closed : kclosed Kf.
Proof. intros s. destruct s; try reflexivity. simpl. destruct (N.eqb i 1), (N.eqb i 2), (N.eqb i 3); reflexivity. Qed.

Theorem types_miss_class_variables_refuted :
  exists x, insert_terms Kf [] [([Some (TSym (STypeclass 0 1))], TVar 0, 7)] = Some x /\
    typed_map Kf [Some (TSym (STypeclass 0 1))] [Some A] [] /\ apply_to_term [Some A] (TVar 0) = A /\
    find_unifying Kf x [] A = Some [].
Proof.
  eexists. split; [reflexivity|]. split; [|split; reflexivity]. split.
  - intros [|[|i]] t H; inversion H; subst; reflexivity.
  - intros [|[|i]] T H; inversion H; subst; exists (TSym SType0). split; [reflexivity|].
    right. split; [right; eauto|left; auto].
Qed.
Print Assumptions types_miss_class_variables_refuted.

Theorem applied_binder_refuted :
  exists x t, insert_terms Kf [] [([Some (TBind KPi A B)], t, 7)] = Some x /\ vars t = [] /\ get_type Kf [] t = Some A /\
    find_unifying Kf x [Some (TBind KPi A A)] t = Some [].
Proof.
  eexists. exists (TApp (TBind KLam A (TBound 0)) (sc 1)). split; [reflexivity|]. repeat split; reflexivity.
Qed.
Print Assumptions applied_binder_refuted.

(** ** cases *)
(** [g(x0, c)] is stored; [g(c, x0)] has the common instance [g(c, c)] with it. *)
Example unify_case :
  exists x, insert_terms Kf [] [([Some A], TApp (TApp (sc 4) (TVar 0)) (sc 1), 7); ([], TApp (sc 2) (sc 1), 8)] = Some x /\
    find_unifying Kf x [Some A] (TApp (TApp (sc 4) (sc 1)) (TVar 0)) = Some [7] /\
    apply_to_term [Some (sc 1)] (TApp (TApp (sc 4) (TVar 0)) (sc 1)) = apply_to_term [Some (sc 1)] (TApp (TApp (sc 4) (sc 1)) (TVar 0)) /\
    typed_map Kf [Some A] [Some (sc 1)] [].
Proof.
  eexists. split; [reflexivity|]. split; [reflexivity|]. split; [reflexivity|]. split.
  - intros [|[|i]] t H; inversion H; subst; reflexivity.
  - intros [|[|i]] T H; inversion H; subst; exists A. split; [reflexivity|]. left. reflexivity.
Qed.
Example well_formed_case : well_formed Kf [Some A] (TApp (TApp (sc 4) (TVar 0)) (sc 1)).
Proof.
  intros p s. destruct p as [|[] [|[] [|? ?]]]; simpl; intros H; inversion H; subst;
    (split; [discriminate|]); intros f a E; inversion E; subst; simpl; eauto.
Qed.
(** A polymorphic function: the query [p(T, x)] at a type variable finds the stored [p(A, c)]. *)
Example specialize_case :
  exists x, insert_literals Kf [] [([], Lit true (TApp (TApp (sc 3) A) (sc 1)) (sc 1), 7)] = Some x /\
    find_specializing Kf x [Some (TSym SType0); Some (TVar 0)] (TApp (TApp (sc 3) (TVar 0)) (TVar 1)) (TVar 1) = Some [7].
Proof. eexists. split; reflexivity. Qed.
