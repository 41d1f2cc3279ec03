(** C65: what blocks export holds outside of them.  Interpretations are those of BlockExportProofs.v. *)
From Coq Require Import List Arith Bool Lia Sorted.
Import ListNotations.
From Verif Require Import BlockExport BlockExportProofs.

Section Blocks.
  Context (S : meaning) (module : nat) (known inst : nat -> bool).
  Notation local := (local known inst).
  Notation externalize := (externalize_bool module known inst).

  (** ** Interpretations inside a block
      The arguments of the block have the values [f], the constants that are not known outside the values [g]; everything
      else has the value that it has outside. *)
  Definition is_arg (args : list (nat * atype)) n := existsb (Nat.eqb n) (map fst args).
  Definition with_args (I : consts S) args (f : nat -> D S) : consts S :=
    fun m n t => if (m =? module) && is_arg args n then f n else I m n t.
  Definition inside (I : consts S) args (f g : nat -> D S) : consts S :=
    fun m n t => if (m =? module) && is_arg args n then f n else if (m =? module) && negb (known n) && negb (inst n) then g n else I m n t.
  Definition typed_args (args : list (nat * atype)) (f : nat -> D S) := forall a t, In (a, t) args -> dom S t (f a).
  Definition typed_locals (args : list (nat * atype)) v (g : nat -> D S) :=
    forall n t, In (module, n, t) (constants v) -> local n -> ~ In n (map fst args) -> dom S t (g n).
  (** All occurrences of such a constant have its type. *)
  Definition one_type (args : list (nat * atype)) v :=
    forall n t t', In (module, n, t) (constants v) -> In (module, n, t') (constants v) -> local n -> ~ In n (map fst args) -> t = t'.

  Lemma is_arg_in args n : is_arg args n = true <-> In n (map fst args).
  Proof.
    unfold is_arg. rewrite existsb_exists. split; [intros (x & Hx & E); apply Nat.eqb_eq in E; subst; auto|]. intros H. exists n. split; auto. apply Nat.eqb_refl.
  Qed.
  Lemma Forall2_length {A B} (R : A -> B -> Prop) l l' : Forall2 R l l' -> length l = length l'.
  Proof. induction 1; simpl; auto. Qed.
  Lemma Forall2_nth {A B} (R : A -> B -> Prop) l l' a b : Forall2 R l l' -> forall i, i < length l -> R (nth i l a) (nth i l' b).
  Proof. induction 1; simpl; intros i Hi; [lia|]. destruct i; auto. apply IHForall2. lia. Qed.

  (** ** The exported value
      It says: for all values of the arguments there are values of the local constants for which the claim of the block holds. *)
Theorem externalized_meaning : forall I args v, NoDup (map fst args) -> one_type args v ->
    (holds S I (externalize args v) <->
     forall f, typed_args args f -> exists g, typed_locals args v g /\ holds S (inside I args f g) v).
  Proof.
    intros I args v ND OT. unfold externalize_bool. set (exs := filter _ _). set (names := map fst args ++ map fst exs).
    set (rep := fun m n t => if m =? module then option_map (fun i => AVar i t) (position n names) else None).
    destruct (unk_ok module known inst v []) as (U1 & U2 & U3). specialize (U3 (SSorted_nil _)).
    assert (Ex : forall n t, In (n, t) exs <-> In (n, t) (unknown_constants module known inst v []) /\ ~ In n (map fst args)).
    { intros n t. unfold exs. rewrite filter_In. cbn [fst]. change (existsb (Nat.eqb n) (map fst args)) with (is_arg args n). rewrite negb_true_iff, <- not_true_iff_false, is_arg_in. tauto. }
    assert (Ek : forall n, In n (map fst exs) <-> (local n /\ exists t, In (module, n, t) (constants v)) /\ ~ In n (map fst args)).
    { intros n. split.
      - intros H. apply in_map_iff in H. destruct H as ([x t] & <- & H). apply Ex in H. destruct H as [H X]. split; auto. simpl. destruct (proj1 (U1 x)) as [[]|Y]; auto. apply in_map_iff. exists (x, t). auto.
      - intros [H X]. apply in_map_iff. assert (Hn : In n (map fst (unknown_constants module known inst v []))) by (apply U1; auto).
        apply in_map_iff in Hn. destruct Hn as ([x t] & E & Hx). simpl in E. subst x. exists (n, t). split; auto. apply Ex. auto. }
    assert (NE : NoDup (map fst exs)).
    { apply sorted_nodup in U3. unfold exs. clear - U3. induction (unknown_constants module known inst v []) as [|[x t] l IH]; simpl in *; [constructor|]. inversion U3; subst.
      destruct (negb _); simpl; auto. constructor; auto. intros H. apply in_map_iff in H. destruct H as (e & E & H). apply filter_In in H. destruct H as [H _]. apply H1. rewrite <- E. apply in_map. auto. }
    assert (Main : forall xs ys f g, length xs = length args -> length ys = length exs ->
      (forall n i, position n (map fst args) = Some i -> nth i xs (m_bool S false) = f n) -> (forall n i, position n (map fst exs) = Some i -> nth i ys (m_bool S false) = g n) ->
      eval S I (xs ++ ys) (replace_constants rep (insert_stack 0 (length names) v)) = eval S (inside I args f g) [] v).
    { intros xs ys f g Lx Ly Hf Hg. assert (Ln : length (xs ++ ys) = length names) by (unfold names; rewrite !app_length, !map_length; lia).
      assert (Rep : forall m n t x, rep m n t = Some x -> forall E, eval S I ((xs ++ ys) ++ E) x = eval S I (xs ++ ys) x).
      { intros m n t x H E. unfold rep in H. destruct (m =? module); [|discriminate]. destruct (position n names) as [i|] eqn:P; [|discriminate]. injection H as <-. simpl.
        apply position_some in P. assert (i < length names) by (apply nth_error_Some; congruence). rewrite app_nth1; auto. lia. }
      pose proof (eval_replace S I (xs ++ ys) rep (insert_stack 0 (length names) v) Rep []) as E1. rewrite app_nil_r in E1. rewrite E1.
      rewrite <- Ln. pose proof (eval_insert S (fun m n t => match rep m n t with Some x => eval S I (xs ++ ys) x | None => I m n t end) [] (xs ++ ys) v []) as E2. simpl in E2. rewrite app_nil_r in E2. rewrite E2.
      apply eval_constants. intros m n t Hc. unfold rep, inside. destruct (Nat.eqb_spec m module) as [->|]; simpl; auto. destruct (is_arg args n) eqn:Ea.
      - apply is_arg_in in Ea. assert (Hn : ~ In n (map fst exs)) by (intros X; apply Ek in X; tauto). unfold names. rewrite position_left by auto.
        destruct (position_in _ _ Ea) as (i & Ei & Li). rewrite map_length in Li. rewrite Ei. simpl. rewrite app_nth1 by lia. auto.
      - assert (Ha : ~ In n (map fst args)) by (intros X; apply is_arg_in in X; congruence). destruct (negb (known n) && negb (inst n)) eqn:El.
        + apply andb_prop in El. destruct El as [K1 K2]. apply negb_true_iff in K1, K2. assert (Hn : In n (map fst exs)) by (apply Ek; split; auto; split; [split; auto|eauto]).
          destruct (position_in _ _ Hn) as (i & Ei & Li). unfold names. rewrite (position_right _ _ _ _ Ei), map_length. simpl. rewrite app_nth2 by lia. rewrite Lx, Nat.add_comm, Nat.add_sub. auto.
        + replace (position n names) with (@None nat); auto. symmetry. apply position_none. unfold names. intros X. apply in_app_or in X. destruct X as [X|X]; auto.
          apply Ek in X. destruct X as [[[K1 K2] _] _]. rewrite K1, K2 in El. discriminate. }
    rewrite holds_forall. split.
    - intros H f Tf. set (xs := map (fun a => f (fst a)) args).
      assert (Fx : Forall2 (dom S) (map snd args) xs) by (apply Forall2_map, Forall_forall; intros [a t] Ha; apply (Tf a t Ha)).
      specialize (H xs Fx). apply eval_exists in H. destruct H as (ys & Fy & H).
      set (g := fun n => match position n (map fst exs) with Some i => nth i ys (m_bool S false) | None => m_bool S false end).
      exists g. assert (Ly : length ys = length exs) by (apply Forall2_length in Fy; rewrite map_length in Fy; auto). split.
      + intros n t Hc Hl Hn. assert (Hi : In n (map fst exs)) by (apply Ek; split; auto; split; eauto).
        destruct (position_in _ _ Hi) as (i & Ei & Li). unfold g. rewrite Ei. rewrite map_length in Li. pose proof (Forall2_nth _ _ _ 0 (m_bool S false) Fy i) as X. rewrite map_length in X. specialize (X Li).
        replace t with (nth i (map snd exs) 0); auto. apply position_some in Ei. rewrite nth_error_map in Ei. destruct (nth_error exs i) as [[x u]|] eqn:En; [|discriminate]. simpl in Ei. injection Ei as ->.
        assert (In (n, u) exs) as Hx by (apply nth_error_In in En; auto). apply Ex in Hx. destruct Hx as [Hx _]. apply U2 in Hx. destruct Hx as [[]|Hx].
        replace (nth i (map snd exs) 0) with u by (symmetry; apply nth_error_nth; rewrite nth_error_map, En; auto). apply (OT n); auto.
      + unfold holds. rewrite <- (Main xs ys f g); auto.
        * unfold xs. apply map_length.
        * intros n i Ei. apply position_some in Ei. rewrite nth_error_map in Ei. destruct (nth_error args i) as [[x u]|] eqn:En; [|discriminate]. simpl in Ei. injection Ei as ->.
          apply nth_error_nth. unfold xs. rewrite nth_error_map, En. auto.
        * intros n i Ei. unfold g. rewrite Ei. auto.
    - intros H xs Fx. set (f := fun n => match position n (map fst args) with Some i => nth i xs (m_bool S false) | None => m_bool S false end).
      assert (Lx : length xs = length args) by (apply Forall2_length in Fx; rewrite map_length in Fx; auto).
      destruct (H f) as (g & Tg & Hg).
      { intros a t Ha. assert (Hi : In a (map fst args)) by (apply in_map_iff; exists (a, t); auto). destruct (position_in _ _ Hi) as (i & Ei & Li). unfold f. rewrite Ei. rewrite map_length in Li.
        pose proof (Forall2_nth _ _ _ 0 (m_bool S false) Fx i) as X. rewrite map_length in X. specialize (X Li). replace t with (nth i (map snd args) 0); auto.
        apply position_some in Ei. destruct (In_nth_error _ _ Ha) as (j & Ej). assert (i = j) as -> .
        { apply (proj1 (NoDup_nth_error (map fst args)) ND); [rewrite map_length; auto|]. rewrite Ei, nth_error_map, Ej. auto. }
        apply nth_error_nth. rewrite nth_error_map, Ej. auto. }
      apply eval_exists. exists (map (fun e => g (fst e)) exs). split.
      + apply Forall2_map, Forall_forall. intros [n t] Hn. apply Ex in Hn. destruct Hn as [Hn Ha]. simpl. pose proof (U2 n t Hn) as [[]|Hc]. apply (Tg n t); auto.
        destruct (proj1 (U1 n)) as [[]|[X _]]; auto. apply in_map_iff. exists (n, t). auto.
      + unfold holds in Hg. rewrite (Main xs _ f g); auto.
        * apply map_length.
        * intros n i Ei. unfold f. rewrite Ei. auto.
        * intros n i Ei. apply position_some in Ei. rewrite nth_error_map in Ei. destruct (nth_error exs i) as [[x u]|] eqn:En; [|discriminate]. simpl in Ei. injection Ei as ->.
          apply nth_error_nth. rewrite nth_error_map, En. auto.
  Qed.

  (** ** If statements
      The condition holds in the first block, its negation in the second one.  Each block shows its last claim for some
      values of its local constants.  Then all exported facts hold, also the claim alone if both blocks have the same one. *)
Theorem if_statement_sound : forall I eqb condition body else_body, (forall a b, eqb a b = true -> a = b) ->
    (forall v, body = Some v -> one_type [] v /\
      (holds S I condition -> exists g, typed_locals [] v g /\ holds S (inside I [] g g) v)) ->
    (forall v, else_body = Some (Some v) -> one_type [] v /\
      (~ holds S I condition -> exists g, typed_locals [] v g /\ holds S (inside I [] g g) v)) ->
    forall e, In e (if_statement module known inst eqb condition body else_body) -> holds S I e.
  Proof.
    intros I eqb condition body else_body Heq Hb He e Hi.
    assert (Out : forall v g, one_type [] v -> typed_locals [] v g -> holds S (inside I [] g g) v -> holds S I (externalize [] v)).
    { intros v g OT T H. apply externalized_meaning; [constructor|auto|]. intros f _. exists g. split; auto. unfold holds in *. erewrite eval_constants; [exact H|].
      intros m n t _. unfold inside. destruct (m =? module); auto. }
    unfold if_statement in Hi. assert (Imp : forall c x, (holds S I c -> holds S I x) -> holds S I (ABinary BImplies c x)).
    { intros c x H. unfold holds in *. simpl. rewrite truth_implies. destruct (truth S (eval S I [] c)); simpl; auto. }
    assert (First : forall v, body = Some v -> holds S I (ABinary BImplies condition (externalize [] v))).
    { intros v E. destruct (Hb v E) as [OT X]. apply Imp. intros Hc. destruct (X Hc) as (g & T & H). eapply Out; eauto. }
    assert (Neg : holds S I (negate condition) <-> ~ holds S I condition).
    { unfold holds. rewrite truth_negate. destruct (truth S (eval S I [] condition)); simpl; intuition congruence. }
    apply in_map_iff in Hi. destruct Hi as ([x c] & <- & Hi). simpl. apply in_app_or in Hi. destruct Hi as [Hi|Hi].
    - destruct body as [v|]; simpl in Hi; [|contradiction]. destruct Hi as [[= <- _]|[]]. auto.
    - destruct else_body as [[w|]|]; simpl in Hi; try contradiction.
      destruct (He w eq_refl) as [OT X]. assert (Second : ~ holds S I condition -> holds S I (externalize [] w)).
      { intros Hc. destruct (X Hc) as (g & T & H). eapply Out; eauto. }
      destruct body as [v|]; simpl in Hi.
      + destruct (eqb (externalize [] w) (externalize [] v)) eqn:E; destruct Hi as [[= <- _]|[]].
        * apply Heq in E. destruct (bool_dec (truth S (eval S I [] condition)) true) as [Hc|Hc]; [|auto]. rewrite E. pose proof (First v eq_refl) as F. unfold holds in *. simpl in F. rewrite truth_implies, Hc in F. auto.
        * apply Imp. intros Hc. apply Second, Neg. auto.
      + destruct Hi as [[= <- _]|[]]. apply Imp. intros Hc. apply Second, Neg. auto.
  Qed.

  (** ** Match statements
      A case is the index of its constructor, the number of constructors, the constructor, the arguments of the pattern and
      the last claim of its block. *)
  Record mcase := CASE { mc_index : nat; mc_total : nat; mc_constructor : aval; mc_args : list (nat * atype); mc_claim : aval }.
  Definition mc_model (c : mcase) := (mc_index c, mc_total c, mc_claim c).

  Lemma match_loop_covers all cases : forall indices disjuncts e T, (forall c, In c cases -> mc_total c = T /\ mc_index c < T) ->
    NoDup indices -> (forall i, In i indices -> i < T) -> match_loop module known inst all (map mc_model cases) indices disjuncts = Some e ->
    exists l, reduce BOr l = Some e /\ (forall d, In d disjuncts -> In d l) /\
      forall i, i < T -> In i indices \/ exists c, In c cases /\ mc_index c = i /\ In (externalize [] (mc_claim c)) l.
  Proof.
    induction cases as [|c cases IH]; intros indices disjuncts e T Hc ND Hi E; [discriminate|]. cbn [map match_loop mc_model] in E.
    destruct (existsb (Nat.eqb (mc_index c)) indices) eqn:Ed; [discriminate|]. destruct (Hc c (or_introl eq_refl)) as [Ht Hl].
    assert (Hn : ~ In (mc_index c) indices).
    { intros X. assert (Y : existsb (Nat.eqb (mc_index c)) indices = true) by (apply existsb_exists; exists (mc_index c); split; auto; apply Nat.eqb_refl). congruence. }
    assert (ND' : NoDup (indices ++ [mc_index c])).
    { apply NoDup_rev in ND. rewrite <- (rev_involutive (indices ++ _)). apply NoDup_rev. rewrite rev_app_distr. simpl. constructor; auto. rewrite <- in_rev. auto. }
    assert (Hi' : forall i, In i (indices ++ [mc_index c]) -> i < T).
    { intros i X. apply in_app_or in X. destruct X as [X|[<-|[]]]; auto. }
    destruct ((mc_total c =? length (indices ++ [mc_index c])) && (all <=? mc_total c)) eqn:Ef.
    - apply andb_prop in Ef. destruct Ef as [Ef _]. apply Nat.eqb_eq in Ef. exists (disjuncts ++ [externalize [] (mc_claim c)]). split; auto. split; [intros d Hd; apply in_or_app; auto|].
      intros i Hx. assert (Inc : incl (seq 0 T) (indices ++ [mc_index c])).
      { apply NoDup_length_incl; auto; [rewrite seq_length; lia|]. intros x X. apply in_seq. specialize (Hi' x X). lia. }
      assert (In i (indices ++ [mc_index c])) as X by (apply Inc, in_seq; lia). apply in_app_or in X. destruct X as [X|[X|[]]]; auto.
      right. exists c. split; [left; auto|]. split; auto. apply in_or_app. right. left. auto.
    - destruct (IH _ _ e T (fun x X => Hc x (or_intror X)) ND' Hi' E) as (l & El & Hd & Hl'). exists l. split; auto. split; [intros d X; apply Hd, in_or_app; auto|].
      intros i Hx. destruct (Hl' i Hx) as [X|(c' & X & Y & Z)]; [|right; exists c'; split; [right; auto|auto]].
      apply in_app_or in X. destruct X as [X|[X|[]]]; auto. right. exists c. split; [left; auto|]. split; auto. apply Hd, in_or_app. right. left. auto.
  Qed.

  (** The value of the scrutinee is made by one of the constructors.  Each block shows its last claim from the premise that
      its pattern matches, for some values of its other local constants.  Then the exported disjunction holds. *)
Theorem match_statement_sound : forall I scrutinee cases T e,
    (forall c, In c cases -> mc_total c = T /\ mc_index c < T /\ NoDup (map fst (mc_args c)) /\ one_type [] (mc_claim c) /\
      forall n t, In (n, t) (mc_args c) -> local n /\ forall t', In (module, n, t') (constants (mc_claim c)) -> t' = t) ->
    (exists i, i < T /\ forall c, In c cases -> mc_index c = i -> exists f, typed_args (mc_args c) f /\
      holds S (with_args I (mc_args c) f) (match_premise module scrutinee (mc_constructor c) (mc_args c))) ->
    (forall c f, In c cases -> typed_args (mc_args c) f ->
      holds S (with_args I (mc_args c) f) (match_premise module scrutinee (mc_constructor c) (mc_args c)) ->
      exists g, typed_locals (mc_args c) (mc_claim c) g /\ holds S (inside I (mc_args c) f g) (mc_claim c)) ->
    match_statement module known inst (map mc_model cases) = Some e -> holds S I e.
  Proof.
    intros I scrutinee cases T e Hc (i & Hi & Hcov) Hp E. unfold match_statement in E.
    destruct (match_loop_covers _ cases [] [] e T (fun c X => conj (proj1 (Hc c X)) (proj1 (proj2 (Hc c X)))) (NoDup_nil _) (fun i X => match X with end) E) as (l & El & _ & Hl).
    destruct (Hl i Hi) as [[]|(c & Xc & Xi & Xl)]. apply (truth_reduce S I [] l e El). exists (externalize [] (mc_claim c)). split; auto.
    destruct (Hc c Xc) as (_ & _ & NDa & OT & Ha). destruct (Hcov c Xc Xi) as (f & Tf & Hf). destruct (Hp c f Xc Tf Hf) as (g & Tg & Hg).
    apply (externalized_meaning I []); [constructor|auto|]. intros f' _. exists (fun n => if is_arg (mc_args c) n then f n else g n). split.
    - intros n t X L _. destruct (is_arg (mc_args c) n) eqn:Ea.
      + apply is_arg_in in Ea. apply in_map_iff in Ea. destruct Ea as ([x u] & Ex & Xu). simpl in Ex. subst x. destruct (Ha n u Xu) as [_ Y]. rewrite (Y t X). apply Tf. auto.
      + apply (Tg n t); auto. intros Y. apply is_arg_in in Y. congruence.
    - unfold holds in *. erewrite eval_constants; [exact Hg|]. intros m n t X. unfold inside. destruct (Nat.eqb_spec m module) as [->|]; simpl; auto.
      destruct (is_arg (mc_args c) n) eqn:Ea; auto. apply is_arg_in in Ea. apply in_map_iff in Ea. destruct Ea as ([x u] & Ex & Xu). simpl in Ex. subst x.
      destruct (Ha n u Xu) as [[K1 K2] _]. rewrite K1, K2. auto.
  Qed.

  (** ** Theorem statements
      The block shows the goal from the premise, for all values of the arguments and some interpretation of what is only
      known in the block.  The names of the arguments are new.  Then the theorem holds. *)
Theorem theorem_statement_sound : forall I args claim, NoDup (map fst args) ->
    (forall n t, In (module, n, t) (constants claim) -> ~ In n (map fst args)) ->
    (forall f, typed_args args f ->
      (forall p, fst (theorem_block module args claim) = Some p -> holds S (with_args I args f) p) ->
      exists J, (forall m n t, In (m, n, t) (constants claim) \/ (m = module /\ In (n, t) args) -> J m n t = with_args I args f m n t) /\
        holds S J (snd (theorem_block module args claim))) ->
    holds S I (theorem_fact args claim).
  Proof.
    intros I args claim ND Fr H. unfold theorem_fact. apply holds_forall. intros xs Fx.
    assert (Lx : length xs = length args) by (apply Forall2_length in Fx; rewrite map_length in Fx; auto).
    set (f := fun n => match position n (map fst args) with Some i => nth i xs (m_bool S false) | None => m_bool S false end).
    assert (Fi : forall i a t, nth_error args i = Some (a, t) -> f a = nth i xs (m_bool S false)).
    { intros i a t En. unfold f. assert (Hi : In a (map fst args)) by (apply in_map_iff; exists (a, t); split; auto; apply nth_error_In in En; auto).
      destruct (position_in _ _ Hi) as (j & Ej & Lj). rewrite Ej. apply position_some in Ej. assert (i = j) as -> ; auto.
      apply (proj1 (NoDup_nth_error (map fst args)) ND); [rewrite map_length; apply nth_error_Some; congruence|]. rewrite Ej, nth_error_map, En. auto. }
    assert (Tf : typed_args args f).
    { intros a t Ha. destruct (In_nth_error _ _ Ha) as (i & En). rewrite (Fi i a t En). pose proof (Forall2_nth _ _ _ 0 (m_bool S false) Fx i) as X. rewrite map_length in X.
      assert (Li : i < length args) by (apply nth_error_Some; congruence). specialize (X Li). replace t with (nth i (map snd args) 0); auto. apply nth_error_nth. rewrite nth_error_map, En. auto. }
    assert (B : forall J v, (forall m n t, In (m, n, t) (constants v) -> ~ (m = module /\ In n (map fst args))) ->
      (forall m n t, In (m, n, t) (constants v) \/ (m = module /\ In (n, t) args) -> J m n t = with_args I args f m n t) ->
      eval S J [] (bind_values 0 0 (internal_args module args) v) = eval S I xs v).
    { intros J v Fv HJ. pose proof (eval_bind S J (internal_args module args) v []) as E. simpl in E. rewrite app_nil_r in E. rewrite E.
      replace (map (eval S J []) (internal_args module args)) with xs.
      - apply eval_constants. intros m n t Hn. rewrite HJ by auto. unfold with_args. destruct (Nat.eqb_spec m module); simpl; auto. destruct (is_arg args n) eqn:Ea; auto.
        apply is_arg_in in Ea. destruct (Fv m n t Hn). auto.
      - unfold internal_args. rewrite map_map. simpl. apply nth_ext with (d := m_bool S false) (d' := m_bool S false); [rewrite map_length; auto|]. intros i Li. symmetry. rewrite Lx in Li.
        destruct (nth_error args i) as [[a t]|] eqn:En; [|apply nth_error_None in En; lia]. apply nth_error_nth. rewrite nth_error_map, En. simpl. f_equal.
        rewrite HJ by (right; split; auto; apply nth_error_In in En; auto). unfold with_args. rewrite Nat.eqb_refl. simpl.
        replace (is_arg args a) with true by (symmetry; apply is_arg_in, in_map_iff; exists (a, t); split; auto; apply nth_error_In in En; auto). apply (Fi i a t En). }
    assert (Fr' : forall m n t, In (m, n, t) (constants claim) -> ~ (m = module /\ In n (map fst args))) by (intros m n t Hn [-> X]; apply (Fr n t); auto).
    assert (Whole : snd (theorem_block module args claim) = bind_values 0 0 (internal_args module args) claim -> fst (theorem_block module args claim) = None -> truth S (eval S I xs claim) = true).
    { intros E1 E2. destruct (H f Tf) as (J & HJ & Hh); [rewrite E2; discriminate|]. rewrite E1 in Hh. unfold holds in Hh. rewrite (B J claim) in Hh; auto. }
    destruct claim; try (apply Whole; reflexivity). destruct op; try (apply Whole; reflexivity).
    simpl in H. simpl. rewrite truth_implies. destruct (truth S (eval S I xs claim1)) eqn:E1; auto. simpl. simpl in Fr'.
    destruct (H f Tf) as (J & HJ & Hh).
    - intros p [= <-]. unfold holds. rewrite (B (with_args I args f) claim1); auto. intros m n t Hn. apply (Fr' m n t). apply in_or_app. auto.
    - unfold holds in Hh. rewrite (B J claim2) in Hh; auto.
      + intros m n t Hn. apply (Fr' m n t). apply in_or_app. auto.
      + intros m n t [Hn|Hn]; apply HJ; auto. left. apply in_or_app. auto.
  Qed.
End Blocks.
Print Assumptions externalized_meaning.
Print Assumptions if_statement_sound.
Print Assumptions match_statement_sound.
Print Assumptions theorem_statement_sound.

(** ** Concrete cases
    Every type has the elements 0, 1, 2; 1 is true; a function adds its arguments modulo 3. *)
Fixpoint bl_tuples (k : nat) : list (list nat) := match k with O => [[]] | S k => flat_map (fun x => map (cons x) (bl_tuples k)) [0; 1; 2] end.
Lemma bl_tuples_ok (ts : list atype) : forall xs, Forall2 (fun _ n => n < 3) ts xs <-> In xs (bl_tuples (length ts)).
Proof.
  induction ts as [|t ts IH]; intros xs; cbn [length bl_tuples].
  - split; [intros H; inversion H; subst; left; auto|intros [<-|[]]; constructor].
  - rewrite in_flat_map. split.
    + intros H. inversion H as [|? x ? xs' Hx Hr]; subst. exists x. split; [simpl; lia|]. apply in_map, IH. auto.
    + intros (x & Hx & H). apply in_map_iff in H. destruct H as (l & <- & H). constructor; [simpl in Hx; lia|apply IH; auto].
Qed.
Lemma bl_length k : forall xs, In xs (bl_tuples k) -> length xs = k.
Proof.
  induction k as [|k IH]; cbn [bl_tuples]; intros xs H; [destruct H as [<-|[]]; auto|]. apply in_flat_map in H. destruct H as (x & _ & H). apply in_map_iff in H. destruct H as (l & <- & H). simpl. auto.
Qed.
Lemma bl_forallb k (f g : list nat -> nat) : (forall xs, length xs = k -> f xs = g xs) -> forallb (fun xs => f xs =? 1) (bl_tuples k) = forallb (fun xs => g xs =? 1) (bl_tuples k).
Proof. intros H. pose proof (bl_length k) as L. induction (bl_tuples k) as [|x l IH]; simpl; auto. rewrite H by (apply L; left; auto). rewrite IH; auto. intros y Hy. apply L. right. auto. Qed.
Lemma bl_existsb k (f g : list nat -> nat) : (forall xs, length xs = k -> f xs = g xs) -> existsb (fun xs => f xs =? 1) (bl_tuples k) = existsb (fun xs => g xs =? 1) (bl_tuples k).
Proof. intros H. pose proof (bl_length k) as L. induction (bl_tuples k) as [|x l IH]; simpl; auto. rewrite H by (apply L; left; auto). rewrite IH; auto. intros y Hy. apply L. right. auto. Qed.
Definition bl_b (b : bool) := if b then 1 else 0.
Lemma bl_b1 b : (bl_b b =? 1) = b.
Proof. destruct b; auto. Qed.
Definition bl_S : meaning.
Proof.
  refine {| D := nat; dom := fun _ n => n < 3; truth := fun n => n =? 1; m_app := fun f l => (f + list_sum l) mod 3; m_tapp := fun f _ => f; m_lam := fun _ _ => 0;
    m_op := fun op a b => match op with BImplies => bl_b (implb (a =? 1) (b =? 1)) | BEquals => bl_b (a =? b) | BNotEquals => bl_b (negb (a =? b)) | BAnd => bl_b ((a =? 1) && (b =? 1)) | BOr => bl_b ((a =? 1) || (b =? 1)) end;
    m_not := fun a => bl_b (negb (a =? 1)); m_try := fun a _ => a; m_all := fun ts f => bl_b (forallb (fun xs => f xs =? 1) (bl_tuples (length ts))); m_ex := fun ts f => bl_b (existsb (fun xs => f xs =? 1) (bl_tuples (length ts)));
    m_bool := bl_b; m_ite := fun c a b => if c =? 1 then a else b; m_match := fun d _ => d |}.
  - apply bl_b1.
  - intros. apply bl_b1.
  - intros. apply bl_b1.
  - intros. apply bl_b1.
  - intros. rewrite bl_b1. apply Nat.eqb_eq.
  - intros. rewrite !bl_b1. auto.
  - intros. rewrite bl_b1, forallb_forall. split; intros H xs Hx; apply H, bl_tuples_ok; auto.
  - intros. rewrite bl_b1, existsb_exists. split; intros (xs & Hx & H); exists xs; split; auto; apply bl_tuples_ok; auto.
  - auto.
  - intros. f_equal. apply bl_forallb. auto.
  - intros. f_equal. apply bl_existsb. auto.
  - auto.
Defined.
Definition bl_known (n : nat) := 10 <=? n.
Definition bl_inst (n : nat) := n =? 50.
Definition bl_I : consts bl_S := fun _ n _ => if n =? 10 then 2 else if n =? 21 then 1 else 0.

(** [forall(x: A) { let y: A satisfy { y != x }  y != x or forall(z: A) { z = x } }] *)
Definition bl_claim := ABinary BOr (ABinary BNotEquals (AConst 0 2 7) (AConst 0 1 7)) (AForAll [7] (ABinary BEquals (AVar 0 7) (AConst 0 1 7))).
Example externalized_meaning_case : NoDup (map fst [(1, 7)]) /\ one_type 0 bl_known bl_inst [(1, 7)] bl_claim /\
  externalize_bool 0 bl_known bl_inst [(1, 7)] bl_claim =
    AForAll [7] (AExists [7] (ABinary BOr (ABinary BNotEquals (AVar 1 7) (AVar 0 7)) (AForAll [7] (ABinary BEquals (AVar 2 7) (AVar 0 7))))) /\
  holds bl_S bl_I (externalize_bool 0 bl_known bl_inst [(1, 7)] bl_claim).
Proof.
  split; [repeat constructor; simpl; tauto|]. split; [|split; reflexivity].
  intros n t t' H H' _ _. simpl in H, H'. intuition congruence.
Qed.

(** [if c10 = c11 { let y: A = c10  y = c10 } else { let z: A = c10  z = c10 }]: the second fact is the claim alone. *)
Definition bl_eqb (a b : aval) :=
  match a, b with
  | AExists [t] (ABinary BEquals (AVar i u) (AConst m n w)), AExists [t'] (ABinary BEquals (AVar i' u') (AConst m' n' w')) =>
      (t =? t') && (i =? i') && (u =? u') && (m =? m') && (n =? n') && (w =? w')
  | _, _ => false
  end.
Lemma bl_eqb_ok a b : bl_eqb a b = true -> a = b.
Proof.
  destruct a; try discriminate. destruct ts as [|t [|]]; try discriminate. destruct a; try discriminate. destruct op; try discriminate. destruct a1; try discriminate. destruct a2; try discriminate.
  destruct b; try discriminate. destruct ts as [|t' [|]]; try discriminate. destruct b; try discriminate. destruct op; try discriminate. destruct b1; try discriminate. destruct b2; try discriminate.
  simpl. rewrite !andb_true_iff, !Nat.eqb_eq. intros (((((-> & ->) & ->) & ->) & ->) & ->). auto.
Qed.
Definition bl_said n := ABinary BEquals (AConst 0 n 7) (AConst 0 10 7).
Definition bl_cond := ABinary BEquals (AConst 0 10 7) (AConst 0 11 7).
Example if_statement_case :
  (forall a b, bl_eqb a b = true -> a = b) /\
  (forall n, n = 2 \/ n = 3 -> one_type 0 bl_known bl_inst [] (bl_said n) /\
    exists g, typed_locals bl_S 0 bl_known bl_inst [] (bl_said n) g /\ holds bl_S (inside bl_S 0 bl_known bl_inst bl_I [] g g) (bl_said n)) /\
  if_statement 0 bl_known bl_inst bl_eqb bl_cond (Some (bl_said 2)) (Some (Some (bl_said 3))) =
    [ABinary BImplies bl_cond (AExists [7] (ABinary BEquals (AVar 0 7) (AConst 0 10 7))); AExists [7] (ABinary BEquals (AVar 0 7) (AConst 0 10 7))].
Proof.
  split; [exact bl_eqb_ok|]. split; [|reflexivity]. intros n Hn. split.
  - intros x t t' H H' _ _. simpl in H, H'. intuition congruence.
  - exists (fun _ => 2). split; [intros x t _ _ _; simpl; lia|]. destruct Hn as [-> | ->]; reflexivity.
Qed.

(** [match c10 { c20 { c10 = c20 }  c21(p) { c21(p) = c10 } }] *)
Definition bl_case0 := CASE 0 2 (AConst 0 20 7) [] (ABinary BEquals (AConst 0 10 7) (AConst 0 20 7)).
Definition bl_case1 := CASE 1 2 (AConst 0 21 8) [(3, 7)] (ABinary BEquals (AApp (AConst 0 21 8) [AConst 0 3 7]) (AConst 0 10 7)).
Example match_statement_case : let cases := [bl_case0; bl_case1] in
  (forall c, In c cases -> mc_total c = 2 /\ mc_index c < 2 /\ NoDup (map fst (mc_args c)) /\ one_type 0 bl_known bl_inst [] (mc_claim c) /\
    forall n t, In (n, t) (mc_args c) -> local bl_known bl_inst n /\ forall t', In (0, n, t') (constants (mc_claim c)) -> t' = t) /\
  (exists i, i < 2 /\ forall c, In c cases -> mc_index c = i -> exists f, typed_args bl_S (mc_args c) f /\
    holds bl_S (with_args bl_S 0 bl_I (mc_args c) f) (match_premise 0 (AConst 0 10 7) (mc_constructor c) (mc_args c))) /\
  (forall c f, In c cases -> typed_args bl_S (mc_args c) f ->
    holds bl_S (with_args bl_S 0 bl_I (mc_args c) f) (match_premise 0 (AConst 0 10 7) (mc_constructor c) (mc_args c)) ->
    exists g, typed_locals bl_S 0 bl_known bl_inst (mc_args c) (mc_claim c) g /\ holds bl_S (inside bl_S 0 bl_known bl_inst bl_I (mc_args c) f g) (mc_claim c)) /\
  match_statement 0 bl_known bl_inst (map mc_model cases) =
    Some (ABinary BOr (ABinary BEquals (AConst 0 10 7) (AConst 0 20 7)) (AExists [7] (ABinary BEquals (AApp (AConst 0 21 8) [AVar 0 7]) (AConst 0 10 7)))).
Proof.
  cbv zeta. split; [|split; [|split; [|reflexivity]]].
  - intros c [<-|[<-|[]]]; simpl; (split; [auto|]; split; [lia|]; split; [repeat constructor; simpl; tauto|]; split).
    + intros x t t' H H' _ _. simpl in H, H'. intuition congruence.
    + contradiction.
    + intros x t t' H H' _ _. simpl in H, H'. intuition congruence.
    + intros n t [[= <- <-]|[]]. split; [split; reflexivity|]. intros t' H. intuition congruence.
  - exists 1. split; [lia|]. intros c [<-|[<-|[]]] H; [discriminate|]. exists (fun _ => 1). split; [intros a t _; simpl; lia|reflexivity].
  - intros c f [<-|[<-|[]]] Tf H.
    + discriminate.
    + exists (fun _ => 0). split; [intros n t _ _ _; simpl; lia|]. unfold holds, match_premise in *. cbn [mc_args mc_constructor mc_claim bl_case1 eval internal_args map fst snd] in *.
      apply (truth_equals bl_S). apply (truth_equals bl_S) in H. symmetry. exact H.
  Qed.

(** [theorem t(x: A, y: A) { x = y implies c21(x) = c21(y) }] *)
Definition bl_theorem := ABinary BImplies (ABinary BEquals (AVar 0 7) (AVar 1 7)) (ABinary BEquals (AApp (AConst 0 21 8) [AVar 0 7]) (AApp (AConst 0 21 8) [AVar 1 7])).
Example theorem_statement_case : let args := [(1, 7); (4, 7)] in
  NoDup (map fst args) /\ (forall n t, In (0, n, t) (constants bl_theorem) -> ~ In n (map fst args)) /\
  theorem_block 0 args bl_theorem = (Some (ABinary BEquals (AConst 0 1 7) (AConst 0 4 7)), ABinary BEquals (AApp (AConst 0 21 8) [AConst 0 1 7]) (AApp (AConst 0 21 8) [AConst 0 4 7])) /\
  (forall f, typed_args bl_S args f -> (forall p, fst (theorem_block 0 args bl_theorem) = Some p -> holds bl_S (with_args bl_S 0 bl_I args f) p) ->
    exists J, (forall m n t, In (m, n, t) (constants bl_theorem) \/ (m = 0 /\ In (n, t) args) -> J m n t = with_args bl_S 0 bl_I args f m n t) /\
      holds bl_S J (snd (theorem_block 0 args bl_theorem))).
Proof.
  cbv zeta. split; [repeat constructor; simpl; intuition lia|]. split; [intros n t H; simpl in *; intuition congruence|]. split; [reflexivity|].
  intros f _ H. specialize (H _ eq_refl). exists (with_args bl_S 0 bl_I [(1, 7); (4, 7)] f). split; auto. unfold holds in *. simpl snd. simpl eval in H |- *.
  apply (truth_equals bl_S) in H. apply (truth_equals bl_S). change (f 1 = f 4) in H. change ((1 + list_sum [f 1]) mod 3 = (1 + list_sum [f 4]) mod 3). rewrite H. auto.
Qed.
