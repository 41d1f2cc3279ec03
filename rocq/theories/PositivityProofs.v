(** Types that pass the positivity check are containers, and so the inductive type exists. *)
From Coq Require Import List Arith Bool Lia FunctionalExtensionality Eqdep_dec.
Import ListNotations.
From Verif Require Import Positivity PositivitySem PositivitySpec Containers.

Lemma datatype_eqb_eq a b : datatype_eqb a b = true <-> a = b.
Proof. destruct a, b. unfold datatype_eqb. simpl. rewrite andb_true_iff, !Nat.eqb_eq. intuition congruence. Qed.
Lemma datatype_eqb_refl a : datatype_eqb a a = true. Proof. apply datatype_eqb_eq. reflexivity. Qed.

Section Rect.
Context (P : atype -> Type) (p0 : P ABool) (pd : forall d args, (forall i t, nth_error args i = Some t -> P t) -> P (AData d args))
  (pf : forall d args, (forall i t, nth_error args i = Some (TyArg t) -> P t) -> P (AFamily d args))
  (pa : forall args ret, (forall i t, nth_error args i = Some t -> P t) -> P ret -> P (AFunction args ret))
  (pv : forall p, P (AVariable p)) (pr : forall p, P (AArbitrary p)) (pt : P AType0) (pc : forall c, P (AConstraint c)).
Definition some_inj {A} {x y : A} (e : Some x = Some y) : x = y := f_equal (fun o => match o with Some z => z | None => x end) e.
Definition ty_inj {x y} (e : Some (TyArg x) = Some (TyArg y)) : x = y := f_equal (fun o => match o with Some (TyArg z) => z | _ => x end) e.
Fixpoint atype_ind' (t : atype) : P t.
Proof.
  destruct t as [|d args|d args|args ret|p|p| |c]; [exact p0| | | |apply pv|apply pr|exact pt|apply pc].
  - apply pd. induction args as [|a r IH]; intros [|i] t e; simpl in e; try discriminate; [|eapply IH; exact e]. destruct (some_inj e). apply atype_ind'.
  - apply pf. induction args as [|[a|v] r IH]; intros [|i] t e; simpl in e; try discriminate; try (eapply IH; exact e). destruct (ty_inj e). apply atype_ind'.
  - apply pa; [|apply atype_ind']. induction args as [|a r IH]; intros [|i] t e; simpl in e; try discriminate; [|eapply IH; exact e]. destruct (some_inj e). apply atype_ind'.
Defined.
End Rect.

Lemma all_at {A} (f : A -> bool) l i x : forallb f l = true -> nth_error l i = Some x -> f x = true.
Proof. intros H E. eapply forallb_forall; eauto using nth_error_In. Qed.
Lemma none_at {A} (f : A -> bool) l i x : existsb f l = false -> nth_error l i = Some x -> f x = false.
Proof. intros H E. destruct (f x) eqn:F; auto. assert (existsb f l = true); [apply existsb_exists; eauto using nth_error_In|congruence]. Qed.
Lemma map_at {A B} (f g : A -> B) l : (forall i x, nth_error l i = Some x -> f x = g x) -> map f l = map g l.
Proof. intros H. apply map_ext_in. intros x I. apply In_nth_error in I. destruct I as [i I]. eauto. Qed.

Lemma atype_eqb_eq a : forall b, atype_eqb a b = true -> a = b.
Proof.
  assert (L : forall l, (forall i t, nth_error l i = Some t -> forall b, atype_eqb t b = true -> t = b) -> forall m,
    (fix go l m := match l, m with [], [] => true | x :: l, y :: m => atype_eqb x y && go l m | _, _ => false end) l m = true -> l = m).
  { induction l as [|x l IH]; intros H [|y m] E; try discriminate; auto. apply andb_prop in E. destruct E as [E1 E2]. f_equal; [apply (H 0 x eq_refl); auto|apply IH; auto].
    intros i. apply (H (S i)). }
  induction a as [|d l IH|d l IH|l r IH IHr|p|p| |p] using atype_ind'; intros [|e m|e m|m s|q|q| |q] E; cbn [atype_eqb] in E; try discriminate; auto;
  try (apply Nat.eqb_eq in E; congruence).
  - apply andb_prop in E. destruct E as [E1 E2]. apply datatype_eqb_eq in E1. subst. f_equal. auto.
  - apply andb_prop in E. destruct E as [E1 E2]. apply datatype_eqb_eq in E1. subst. f_equal. revert m E2.
    induction l as [|[x|x] l IHl]; intros [|[y|y] m] E; try discriminate; auto; apply andb_prop in E; destruct E as [E1 E2].
    + f_equal; [f_equal; apply (IH 0 x eq_refl); auto|apply IHl; auto]. intros i. apply (IH (S i)).
    + f_equal; [apply Nat.eqb_eq in E1; congruence|apply IHl; auto]. intros i. apply (IH (S i)).
  - apply andb_prop in E. destruct E as [E1 E2]. f_equal; auto.
Qed.

Lemma atype_eqb_refl a : atype_eqb a a = true.
Proof.
  assert (L : forall l, (forall i t, nth_error l i = Some t -> atype_eqb t t = true) ->
    (fix go l m := match l, m with [], [] => true | x :: l, y :: m => atype_eqb x y && go l m | _, _ => false end) l l = true).
  { induction l as [|x l IH]; intros H; auto. rewrite (H 0 x eq_refl). simpl. apply IH. intros i. apply (H (S i)). }
  induction a as [|d l IH|d l IH|l r IH IHr|p|p| |p] using atype_ind'; cbn [atype_eqb]; auto using Nat.eqb_refl.
  - rewrite datatype_eqb_refl. simpl. auto.
  - rewrite datatype_eqb_refl. simpl. induction l as [|[x|x] l IHl]; auto.
    + rewrite (IH 0 x eq_refl). apply IHl. intros i. apply (IH (S i)).
    + rewrite Nat.eqb_refl. apply IHl. intros i. apply (IH (S i)).
  - rewrite L by auto. auto.
Qed.

(** ** Lists with places *)
Lemma keep_nth pos L : forall k i, nth i (keep pos k L) unit = if pos (k + i) then nth i L unit else unit.
Proof.
  induction L as [|A L IH]; intros k [|i]; simpl; try (destruct (pos _); reflexivity).
  - rewrite Nat.add_0_r. reflexivity.
  - rewrite IH. replace (S k + i) with (k + S i) by lia. reflexivity.
Qed.
Lemma keep_eq pos L : forall M k, length L = length M -> (forall i A B, pos (k + i) = true -> nth_error L i = Some A -> nth_error M i = Some B -> A = B) -> keep pos k L = keep pos k M.
Proof.
  induction L as [|A L IH]; intros [|B M] k E H; simpl in *; try discriminate; auto. f_equal.
  - destruct (pos k) eqn:P; auto. apply (H 0); auto. rewrite Nat.add_0_r. auto.
  - apply IH; auto. intros i A' B' P. apply (H (S i)). replace (k + S i) with (S k + i) by lia. auto.
Qed.

(** a datatype applied to containers *)
Definition container_data (F : list Type -> Type) (pos : nat -> bool) (c : filled F pos) (L : Type -> list Type) (B0 : list Type)
  (eB : forall X, blank pos 0 (L X) = B0) (cs : forall i, container (fun X => nth i (keep pos 0 (L X)) unit)) : container (fun X => F (L X)).
Proof.
  apply (container_iso _ (fun X => {s : dshape c (blank pos 0 (L X)) & forall ip : {i : nat & dplace c _ s i}, nth (projT1 ip) (keep pos 0 (L X)) unit})
    (fun X => dto c (L X)) (fun X => dfrom c (L X)) (fun X => dfrom_to c (L X)) (fun X => dto_from c (L X))).
  apply (container_ext (fun X => {s : dshape c B0 & forall ip : {i : nat & dplace c _ s i}, nth (projT1 ip) (keep pos 0 (L X)) unit})).
  - intros X. apply (f_equal (fun B => {s : dshape c B & forall ip : {i : nat & dplace c _ s i}, nth (projT1 ip) (keep pos 0 (L X)) unit}) (eB X)).
  - apply (container_sig (dshape c B0) (fun s X => forall ip : {i : nat & dplace c _ s i}, nth (projT1 ip) (keep pos 0 (L X)) unit)). intros s.
    apply (container_pi {i : nat & dplace c _ s i} (fun ip X => nth (projT1 ip) (keep pos 0 (L X)) unit)). intros ip. apply cs.
Defined.

Section Main.
Context (tb : table) (m n : nat) (ps : list nat) (I : interpretation) (E : nat -> Type).
Notation d := (m, n).
Notation ind := (own_type m n ps).
Definition extended (X : Type) : interpretation := {| data := fun e L => if datatype_eq_dec e d then X else data I e L; family := family I |}.
Notation J := extended.

Lemma den_ind X : den (J X) E ind = X.
Proof. cbn [den own_type extended data]. destruct (datatype_eq_dec d d); [reflexivity|congruence]. Qed.

Lemma den_other t X Y : mentions d t = false -> den (J X) E t = den (J Y) E t.
Proof.
  induction t as [|e l IH|e l IH|l r IH IHr|p|p| |p] using atype_ind'; intros H; cbn [mentions] in H; try reflexivity.
  - apply orb_false_elim in H. destruct H as [H1 H2]. cbn [den extended data]. destruct (datatype_eq_dec e d) as [->|N]; [rewrite datatype_eqb_refl in H1; discriminate|].
    f_equal. apply map_at. intros i t Hi. apply (IH i); auto. eapply none_at; eauto.
  - cbn [den extended family]. f_equal. apply map_at. intros i [t|v] Hi; auto. f_equal. apply (IH i); auto. exact (none_at _ _ _ _ H Hi).
  - apply orb_false_elim in H. destruct H as [H1 H2]. cbn [den]. rewrite (IHr H2). f_equal. apply map_at. intros i t Hi. apply (IH i); auto. eapply none_at; eauto.
Qed.

Lemma den_const t X Y : contains ind t = false -> outside_families d t = true -> den (J X) E t = den (J Y) E t.
Proof.
  induction t as [|e l IH|e l IH|l r IH IHr|p|p| |p] using atype_ind'; intros H O; try reflexivity.
  - cbn [contains] in H. apply orb_false_elim in H. destruct H as [H H2]. apply orb_false_elim in H. destruct H as [_ H1]. cbn [same_datatype own_type] in H1.
    cbn [outside_families] in O. cbn [den extended data]. destruct (datatype_eq_dec e d) as [->|N]; [rewrite datatype_eqb_refl in H1; discriminate|].
    f_equal. apply map_at. intros i t Hi. apply (IH i); auto; [eapply none_at; eauto|eapply all_at in O; eauto].
  - cbn [outside_families] in O. cbn [den extended family]. f_equal. apply map_at. intros i [t|v] Hi; auto. f_equal. apply den_other. eapply all_at in O; eauto. cbn in O. destruct (mentions d t); auto; discriminate.
  - cbn [contains] in H. apply orb_false_elim in H. destruct H as [_ H]. apply orb_false_elim in H. destruct H as [H1 H2].
    cbn [outside_families] in O. apply andb_prop in O. destruct O as [O1 O2]. cbn [den]. rewrite (IHr H2 O2). f_equal. apply map_at. intros i t Hi. apply (IH i); auto; [eapply none_at; eauto|eapply all_at in O1; eauto].
Qed.

Definition container_constant t (C : contains ind t = false) (O : outside_families d t = true) : container (fun X => den (J X) E t) :=
  container_ext (fun _ => den (J unit) E t) (fun X => den (J X) E t) (fun X => den_const t X unit C O) (container_const _).

Lemma positive_arguments e args : match look tb e with Some vs => length args <=? length vs | None => true end = true -> strictly_positive tb ind (AData e args) = true ->
  forall i t, nth_error args i = Some t -> contains ind t = true -> positions tb e i = true /\ strictly_positive tb ind t = true.
Proof.
  unfold positions. cbn [strictly_positive]. destruct (look tb e) as [vs|].
  - intros L H. apply Nat.leb_le in L. revert vs L H. induction args as [|a r IH]; intros vs L H [|i] t Hi C; simpl in Hi; try discriminate; apply andb_prop in H; destruct H as [H1 H2].
    + injection Hi as ->. rewrite C in H1. simpl in H1. destruct vs as [|v vs]; [simpl in L; lia|]. cbn [nth_error]. destruct v; simpl in H1; auto; discriminate.
    + destruct vs as [|v vs]; [simpl in L; lia|]. cbn [nth_error]. apply (IH vs); auto. simpl in L. lia.
  - intros _ H i t Hi C. eapply all_at in H; eauto. rewrite C in H. auto.
Qed.

Definition container_arrows (As : list Type) (G : Type -> Type) (c : container G) : container (fun X => arrows As (G X)).
Proof.
  induction As as [|A r IH]; [exact c|]. exact (container_pi A (fun _ X => arrows r (G X)) (fun _ => IH)).
Defined.

Definition fine t : bool := regular ind t && outside_families d t && arities tb t.
Lemma fine_parts t : fine t = true -> regular ind t = true /\ outside_families d t = true /\ arities tb t = true.
Proof. unfold fine. rewrite !andb_true_iff. intros [[? ?] ?]. repeat split; assumption. Qed.

Definition container_of t : (forall e, nests ind e t = true -> filled (data I e) (positions tb e)) ->
  fine t = true -> strictly_positive tb ind t = true -> container (fun X => den (J X) E t).
Proof.
  induction t as [|e l IH|e l IH|l r IH IHr|p|p| |p] using atype_ind'; intros N F SP; apply fine_parts in F; destruct F as (R & O & A);
    try (apply container_constant; [reflexivity|exact O]).
  - destruct (contains ind (AData e l)) eqn:C; [|apply container_constant; auto].
    destruct (atype_eqb (AData e l) ind) eqn:Q.
    { apply (container_ext (fun X => X)); [|apply container_id]. intros X. rewrite (atype_eqb_eq _ _ Q). apply den_ind. }
    assert (D : e <> d). { intros ->. cbn [regular] in R. rewrite Q in R. cbn [orb same_datatype own_type] in R. rewrite datatype_eqb_refl in R. discriminate. }
    assert (RL : forallb (regular ind) l = true). { cbn [regular] in R. rewrite Q in R. cbn [orb] in R. apply andb_prop in R. apply R. }
    assert (CL : existsb (contains ind) l = true). { cbn [contains] in C. rewrite Q in C. cbn [orb] in C. destruct (same_datatype (AData e l) ind) eqn:SD; [|exact C].
      cbn [same_datatype own_type] in SD. apply datatype_eqb_eq in SD. contradiction. }
    cbn [arities] in A. apply andb_prop in A. destruct A as [A1 A2]. cbn [outside_families] in O.
    assert (F1 : filled (data I e) (positions tb e)). { apply N. cbn [nests]. rewrite datatype_eqb_refl, CL. reflexivity. }
    apply (container_ext (fun X => data I e (map (den (J X) E) l))).
    { intros X. cbn [den extended data]. destruct (datatype_eq_dec e d); [contradiction|reflexivity]. }
    apply (container_data (data I e) (positions tb e) F1 (fun X => map (den (J X) E) l) (blank (positions tb e) 0 (map (den (J unit) E) l))).
    + intros X. apply keep_eq; [rewrite !map_length; reflexivity|]. intros i U V P HU HV. rewrite nth_error_map in HU, HV. destruct (nth_error l i) as [t|] eqn:Ht; try discriminate.
      injection HU as <-. injection HV as <-. apply den_const; [|eapply all_at in O; eauto]. destruct (contains ind t) eqn:Ct; auto.
      destruct (positive_arguments e l A1 SP i t Ht Ct) as [PP _]. simpl in P. rewrite PP in P. discriminate.
    + intros i. destruct (nth_error l i) as [t|] eqn:Ht.
      * destruct (positions tb e i) eqn:P.
        -- apply (container_ext (fun X => den (J X) E t)).
           { intros X. rewrite keep_nth. simpl. rewrite P. apply nth_error_nth. rewrite nth_error_map, Ht. reflexivity. }
           destruct (contains ind t) eqn:Ct; [|apply container_constant; [auto|eapply all_at in O; eauto]].
           apply (IH i t Ht).
           ++ intros e' He'. apply N. cbn [nests]. apply orb_true_intro. right. apply existsb_exists. eauto using nth_error_In.
           ++ unfold fine. rewrite (all_at _ _ _ _ RL Ht), (all_at _ _ _ _ O Ht), (all_at _ _ _ _ A2 Ht). reflexivity.
           ++ apply (positive_arguments e l A1 SP i t Ht Ct).
        -- apply (container_ext (fun _ => unit)); [|apply container_const]. intros X. rewrite keep_nth. simpl. rewrite P. reflexivity.
      * apply (container_ext (fun _ => unit)); [|apply container_const]. intros X. rewrite keep_nth. rewrite nth_overflow by (rewrite map_length; apply nth_error_None; auto). destruct (positions tb e (0 + i)); reflexivity.
  - cbn [strictly_positive] in SP. apply andb_prop in SP. destruct SP as [SP1 SP2]. cbn [outside_families] in O. apply andb_prop in O. destruct O as [O1 O2].
    cbn [arities] in A. apply andb_prop in A. destruct A as [A1 A2].
    assert (RR : regular ind r = true). { cbn [regular] in R. cbn [atype_eqb own_type orb] in R. apply andb_prop in R. apply R. }
    apply (container_ext (fun X => arrows (map (den (J unit) E) l) (den (J X) E r))).
    { intros X. cbn [den]. f_equal. apply map_at. intros i t Ht. apply den_const; [|eapply all_at in O1; eauto]. eapply all_at in SP1; eauto. cbn in SP1. destruct (contains ind t); auto; discriminate. }
    apply container_arrows. apply IHr; auto.
    + intros e' He'. apply N. cbn [nests]. rewrite He'. apply orb_true_r.
    + unfold fine. rewrite RR, O2, A2. reflexivity.
Defined.

(** the container of the inductive type itself *)
Definition container_ind : container (fun X => den (J X) E ind) := container_ext (fun X => X) (fun X => den (J X) E ind) den_ind container_id.
Definition container_field t (N : forall e, nests ind e t = true -> filled (data I e) (positions tb e)) (F : fine t = true) (SP : strictly_positive tb ind t = true) :
  container (fun X => den (J X) E t) :=
  match atype_dec t ind with
  | left e => eq_rect_r (fun t => container (fun X => den (J X) E t)) container_ind e
  | right _ => container_of t N F SP
  end.

Definition container_tuple ts : (forall e, existsb (nests ind e) ts = true -> filled (data I e) (positions tb e)) ->
  forallb fine ts = true -> forallb (strictly_positive tb ind) ts = true -> container (fun X => tuple (J X) E ts).
Proof.
  induction ts as [|t r IH]; intros N F SP; [exact (container_const unit)|].
  refine (container_prod (fun X => den (J X) E t) (fun X => tuple (J X) E r) (container_field t (fun e H => N e _) _ _) (IH (fun e H => N e _) _ _)).
  - simpl. rewrite H. reflexivity.
  - simpl in F. apply andb_prop in F. apply F.
  - simpl in SP. apply andb_prop in SP. apply SP.
  - simpl. rewrite H. apply orb_true_r.
  - simpl in F. apply andb_prop in F. apply F.
  - simpl in SP. apply andb_prop in SP. apply SP.
Defined.

Lemma field_ind X N F SP (v : fill _ (place (container_field ind N F SP)) X) : exists p, pack (container_field ind N F SP) X v = uncast (den_ind X) (projT2 v p).
Proof.
  revert v. unfold container_field. destruct (atype_dec ind ind) as [e|]; [|congruence]. rewrite (UIP_dec atype_dec e eq_refl). cbn [eq_rect_r eq_rect eq_sym].
  intros v. exists tt. reflexivity.
Qed.

Lemma tuple_hypotheses X (Q : den (J X) E ind -> Prop) ts N F SP : forall v : fill _ (place (container_tuple ts N F SP)) X,
  (forall p, Q (uncast (den_ind X) (projT2 v p))) -> hypotheses (J X) E ind Q ts (pack (container_tuple ts N F SP) X v).
Proof.
  induction ts as [|t r IH]; intros v H; [exact Logic.I|]. cbn [hypotheses]. split.
  - destruct (atype_dec t ind) as [e|]; [|exact Logic.I]. subst t. cbn [eq_rect]. unfold container_tuple in v, H |- *. cbn [list_rect] in v, H |- *. cbn [container_prod pack fst] in *.
    match goal with |- Q (pack ?c X ?w) => destruct (field_ind X _ _ _ w) as [p Hp]; rewrite Hp end. cbn [projT2]. exact (H (inl p)).
  - cbn [container_tuple list_rect container_prod pack snd]. apply IH. intros p. cbn [projT2]. exact (H (inr p)).
Qed.

Context (ctors : list (list atype)) (N : forall e, existsb (existsb (nests ind e)) ctors = true -> filled (data I e) (positions tb e))
  (F : forallb (forallb fine) ctors = true) (SP : forallb (forallb (strictly_positive tb ind)) ctors = true).

Definition choice (X : Type) : Type := {k : nat & {ts : list atype & {H : nth_error ctors k = Some ts & tuple (J X) E ts}}}.
Lemma nests_at k ts e : nth_error ctors k = Some ts -> existsb (nests ind e) ts = true -> existsb (existsb (nests ind e)) ctors = true.
Proof. intros H1 H2. apply existsb_exists. eauto using nth_error_In. Qed.
Definition container_choice : container choice :=
  container_sig nat (fun k X => {ts : list atype & {H : nth_error ctors k = Some ts & tuple (J X) E ts}}) (fun k =>
  container_sig (list atype) (fun ts X => {H : nth_error ctors k = Some ts & tuple (J X) E ts}) (fun ts =>
  container_sig (nth_error ctors k = Some ts) (fun H X => tuple (J X) E ts) (fun H =>
    container_tuple ts (fun e He => N e (nests_at k ts e H He)) (all_at _ _ _ _ F H) (all_at _ _ _ _ SP H)))).
Definition carrier : Type := tree (shape container_choice) (place container_choice).
Definition make (v : choice carrier) : den (J carrier) E ind := uncast (den_ind carrier) (node (unpack container_choice carrier v)).
Definition con : constructors (J carrier) E ind ctors := fun k ts H v => make (existT _ k (existT _ ts (existT _ H v))).

Lemma make_inj v w : make v = make w -> v = w.
Proof.
  intros H. apply (f_equal (cast (den_ind carrier))) in H. unfold make in H. rewrite !cast_uncast in H. apply (f_equal unnode) in H. rewrite !unnode_node in H.
  apply (f_equal (pack container_choice carrier)) in H. rewrite !pack_unpack in H. exact H.
Qed.

Lemma inductive_exists : inductive_facts (J carrier) E ind ctors con.
Proof.
  split.
  - intros k j ts us H H' v w NE HE. apply make_inj in HE. apply (f_equal (@projT1 _ _)) in HE. cbn in HE. contradiction.
  - intros x. destruct (pack container_choice carrier (unnode (cast (den_ind carrier) x))) as (k & ts & H & v) eqn:P. exists k, ts, H, v.
    unfold con, make. rewrite <- P, unpack_pack, node_unnode, uncast_cast. reflexivity.
  - intros k ts H v w HE. apply make_inj in HE. apply (inj_pair2_eq_dec _ Nat.eq_dec) in HE. apply (inj_pair2_eq_dec _ (list_eq_dec atype_dec)) in HE.
    apply inj_pair2_eq_dec in HE; auto. intros p q. left. apply UIP_dec. intros [a|] [b|]; try (right; discriminate); try (left; reflexivity).
    destruct (list_eq_dec atype_dec a b) as [->|NE]; [left; reflexivity|right; congruence].
  - intros Q HQ x. rewrite <- (uncast_cast _ _ (den_ind carrier) x). generalize (cast (den_ind carrier) x). clear x. intros y. induction y as [s f IH].
    destruct s as [k [ts [H s]]].
    pose (v := existT (fun s => place (container_tuple ts (fun e He => N e (nests_at k ts e H He)) (all_at _ _ _ _ F H) (all_at _ _ _ _ SP H)) s -> carrier) s f).
    assert (EQ : uncast (den_ind carrier) (sup (existT _ k (existT _ ts (existT _ H s))) f) = con k ts H (pack (container_tuple ts (fun e He => N e (nests_at k ts e H He)) (all_at _ _ _ _ F H) (all_at _ _ _ _ SP H)) carrier v)).
    { unfold con, make. f_equal.
      change (existT (fun k0 => {ts0 : list atype & {_ : nth_error ctors k0 = Some ts0 & tuple (J carrier) E ts0}}) k
         (existT (fun ts0 => {H0 : nth_error ctors k = Some ts0 & tuple (J carrier) E ts0}) ts (existT (fun _ => tuple (J carrier) E ts) H
           (pack (container_tuple ts (fun e He => N e (nests_at k ts e H He)) (all_at _ _ _ _ F H) (all_at _ _ _ _ SP H)) carrier v)))) with
        (pack container_choice carrier (existT (fun s => place container_choice s -> carrier) (existT _ k (existT _ ts (existT _ H s))) f)).
      rewrite unpack_pack. reflexivity. }
    refine (eq_ind_r Q _ EQ). apply HQ. apply tuple_hypotheses. intros p. apply IH.
Qed.
End Main.
