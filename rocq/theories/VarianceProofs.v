(** Lemmas about the relations that types stand for and about [variance_of]. *)
From Coq Require Import List Arith Bool Lia Eqdep_dec.
Import ListNotations.
From Verif Require Import Positivity PositivitySem PositivitySpec PositivityProofs VarianceSem.

Definition flip (v : variance) : variance := match v with VPositive => VNegative | VNegative => VPositive | v => v end.

Lemma below_flip v {A B} (r s : A -> B -> Prop) : below (flip v) r s -> below v s r.
Proof. destruct v; cbn; auto. intros H a b. symmetry. auto. Qed.
Lemma below_merge u v {A B} (r s : A -> B -> Prop) : below (merge u v) r s -> below u r s /\ below v r s.
Proof. destruct u, v; cbn; intros H; repeat split; auto; intros; apply H; auto. Qed.
Lemma below_both v {A B} (r s : A -> B -> Prop) : below VBoth r s -> below v r s /\ below v s r.
Proof. intros H. cbn in H. destruct v; cbn; repeat split; auto; apply H. Qed.

Lemma flip_merge u v : flip (merge u v) = merge (flip u) (flip v).
Proof. destruct u, v; reflexivity. Qed.

(** the merged variance of the arguments of a datatype with variances *)
Section Go.
Context (tb : table) (p : nat) (pos : bool).
Fixpoint go_args (acc : variance) (args : list atype) (vs : list variance) : variance :=
  match args with
  | [] => acc
  | a :: r =>
    go_args (match vs with
       | VNegative :: _ => merge acc (variance_of tb p (negb pos) a)
       | VBoth :: _ => if is_vnone (variance_of tb p true a) then acc else merge acc VBoth
       | _ => merge acc (variance_of tb p pos a)
       end) r (tl vs)
  end.
End Go.
Lemma variance_data tb p pos d args : variance_of tb p pos (AData d args) =
  match look tb d with Some vs => go_args tb p pos VNone args vs | None => fold_left (fun acc a => merge acc (variance_of tb p pos a)) args VNone end.
Proof. reflexivity. Qed.

Lemma flip_none v : is_vnone (flip v) = is_vnone v.
Proof. destruct v; reflexivity. Qed.

Lemma variance_flip tb p t : forall pos, variance_of tb p (negb pos) t = flip (variance_of tb p pos t).
Proof.
  assert (FL : forall l pos acc, (forall i t, nth_error l i = Some t -> forall pos, variance_of tb p (negb pos) t = flip (variance_of tb p pos t)) ->
    fold_left (fun acc a => merge acc (variance_of tb p (negb pos) a)) l (flip acc) = flip (fold_left (fun acc a => merge acc (variance_of tb p pos a)) l acc)).
  { induction l as [|a l IH]; intros pos acc H; [reflexivity|]. cbn [fold_left]. rewrite (H 0 a eq_refl), <- flip_merge. apply IH. intros i. apply (H (S i)). }
  induction t as [|d l IH|d l IH|l r IH IHr|q|q| |q] using atype_ind'; intros pos; try reflexivity.
  - rewrite !variance_data. destruct (look tb d) as [vs|].
    + change VNone with (flip VNone) at 1. generalize VNone as acc. revert vs. induction l as [|a l IHl]; intros vs acc; [reflexivity|]. cbn [go_args].
      rewrite <- (IHl (fun i => IH (S i))). f_equal.
      destruct vs as [|[| | |] vs]; rewrite ?(IH 0 a eq_refl), ?flip_merge; try reflexivity.
      destruct (is_vnone _); [reflexivity|]. rewrite flip_merge. reflexivity.
    + change VNone with (flip VNone) at 1. apply FL. exact IH.
  - cbn [variance_of]. change VNone with (flip VNone) at 1. generalize VNone as acc. induction l as [|[a|v] l IHl]; intros acc; [reflexivity|..]; cbn [fold_left].
    + rewrite (IH 0 a eq_refl), <- flip_merge. apply IHl. intros i. apply (IH (S i)).
    + apply IHl. intros i. apply (IH (S i)).
  - cbn [variance_of]. rewrite flip_merge, IHr. f_equal. change VNone with (flip VNone) at 1. apply FL. exact IH.
  - cbn. destruct (q =? p), pos; reflexivity.
  - cbn. destruct (q =? p), pos; reflexivity.
Qed.
Lemma variance_false tb p t : variance_of tb p false t = flip (variance_of tb p true t).
Proof. apply (variance_flip tb p t true). Qed.

(** ** Below the merged variance *)
Section Parts.
Context {A B : Type} (r s : A -> B -> Prop) (tb : table) (p : nat).
Lemma fold_parts (f : atype -> variance) l : forall acc, below (fold_left (fun acc a => merge acc (f a)) l acc) r s ->
  below acc r s /\ forall i t, nth_error l i = Some t -> below (f t) r s.
Proof.
  induction l as [|a l IH]; intros acc H; cbn [fold_left] in H.
  - split; [exact H|]. intros [|i] t; discriminate.
  - destruct (IH _ H) as [H1 H2]. apply below_merge in H1. destruct H1 as [H1 H3]. split; [exact H1|].
    intros [|i] t N; [injection N as <-; exact H3|]. exact (H2 i t N).
Qed.
(** what an argument gets from its place *)
Definition place_below (v : option variance) (a : atype) : Prop :=
  match v with
  | Some VNegative => below (variance_of tb p true a) s r
  | Some VBoth => below (variance_of tb p true a) r s /\ below (variance_of tb p true a) s r
  | _ => below (variance_of tb p true a) r s
  end.
Lemma go_parts l : forall vs acc, below (go_args tb p true acc l vs) r s ->
  below acc r s /\ forall i t, nth_error l i = Some t -> place_below (nth_error vs i) t.
Proof.
  induction l as [|a l IH]; intros vs acc H; cbn [go_args] in H.
  - split; [exact H|]. intros [|i] t; discriminate.
  - destruct (IH _ _ H) as [H1 H2]. clear H IH.
    assert (H3 : below acc r s /\ place_below (nth_error vs 0) a).
    { destruct vs as [|[| | |] vs]; cbn [nth_error place_below].
      - apply below_merge. exact H1.
      - apply below_merge. exact H1.
      - apply below_merge in H1. destruct H1 as [H1 H3]. split; [exact H1|]. cbn [negb] in H3. rewrite variance_false in H3. apply below_flip. exact H3.
      - destruct (variance_of tb p true a) eqn:V; cbn [is_vnone] in H1; [..|split; [exact H1|split; exact I]];
        apply below_merge in H1; destruct H1 as [H1 H3]; (split; [exact H1|]); apply below_both; exact H3.
      - apply below_merge. exact H1. }
    split; [apply H3|]. intros [|i] t N; [injection N as <-; apply H3|].
    specialize (H2 i t N). destruct vs as [|v vs]; [destruct i; exact H2|exact H2].
Qed.
Lemma family_parts l : forall acc, below (fold_left (fun acc a => match a with TyArg t => merge acc (variance_of tb p true t) | ValArg _ => acc end) l acc) r s ->
  below acc r s /\ forall i t, nth_error l i = Some (TyArg t) -> below (variance_of tb p true t) r s.
Proof.
  induction l as [|[a|v] l IH]; intros acc H; cbn [fold_left] in H.
  - split; [exact H|]. intros [|i] t; discriminate.
  - destruct (IH _ H) as [H1 H2]. apply below_merge in H1. destruct H1 as [H1 H3]. split; [exact H1|].
    intros [|i] t N; [injection N as <-; exact H3|]. exact (H2 i t N).
  - destruct (IH _ H) as [H1 H2]. split; [exact H1|]. intros [|i] t N; [discriminate|]. exact (H2 i t N).
Qed.
End Parts.

(** ** Relations of types *)
Section Rel.
Context {J : interpretation}.
Lemma related_data (RR : relator J) {E E' : nat -> Type} (R : forall p, E p -> E' p -> Prop) d args :
  related RR R (AData d args) = rdata RR d _ _ (list_rels RR R args).
Proof. reflexivity. Qed.
Lemma related_function (RR : relator J) {E E' : nat -> Type} (R : forall p, E p -> E' p -> Prop) args ret :
  related RR R (AFunction args ret) = arrows_related _ _ (list_rels RR R args) _ _ (related RR R ret).
Proof. reflexivity. Qed.
Section FamilyRels.
Context (RR : relator J) {E E' : nat -> Type} (R : forall p, E p -> E' p -> Prop).
Fixpoint family_rels (l : list darg) :
  frels (map (fun a => match a with TyArg t => inl (den J E t) | ValArg v => inr v end) l) (map (fun a => match a with TyArg t => inl (den J E' t) | ValArg v => inr v end) l) :=
  match l with [] => tt | TyArg a :: l => (related RR R a, family_rels l) | ValArg v :: l => family_rels l end.
End FamilyRels.
Lemma related_family (RR : relator J) {E E' : nat -> Type} (R : forall p, E p -> E' p -> Prop) d args :
  related RR R (AFamily d args) = rfamily RR d _ _ (family_rels RR R args).
Proof. reflexivity. Qed.

Section Two.
Context (RR1 RR2 : relator J) {E E' : nat -> Type} (R S : forall p, E p -> E' p -> Prop).
Lemma function_below args ret :
  (forall i t, nth_error args i = Some t -> below VNegative (related RR1 R t) (related RR2 S t)) -> below VPositive (related RR1 R ret) (related RR2 S ret) ->
  below VPositive (related RR1 R (AFunction args ret)) (related RR2 S (AFunction args ret)).
Proof.
  intros HA HR. rewrite !related_function. cbn [below] in *. intros f g. change (den J E (AFunction args ret)) with (arrows (map (den J E) args) (den J E ret)) in f.
  change (den J E' (AFunction args ret)) with (arrows (map (den J E') args) (den J E' ret)) in g. revert f g HA.
  induction args as [|a args IH]; intros f g HA; [exact (HR f g)|]. cbn [map list_rels arrows_related fst snd]. intros H x y XY.
  apply IH; [intros i t N; exact (HA (Datatypes.S i) t N)|]. apply H. exact (HA 0 a eq_refl x y XY).
Qed.
Lemma list_below args : forall vs, (forall i t v, nth_error args i = Some t -> nth_error vs i = Some v -> below v (related RR1 R t) (related RR2 S t)) ->
  rels_below vs _ _ (list_rels RR1 R args) (list_rels RR2 S args).
Proof.
  induction args as [|a args IH]; intros vs H; cbn; [exact I|]. split.
  - destruct vs as [|v vs]; [exact I|]. exact (H 0 a v eq_refl eq_refl).
  - apply IH. intros i t v N N'. apply (H (Datatypes.S i) t v N). destruct vs as [|v' vs]; [destruct i; discriminate|exact N'].
Qed.
Lemma family_below args : (forall i t, nth_error args i = Some (TyArg t) -> below VPositive (related RR1 R t) (related RR2 S t)) ->
  frels_below _ _ (family_rels RR1 R args) (family_rels RR2 S args).
Proof.
  induction args as [|[a|v] args IH]; intros H; cbn; [exact I|split|].
  - exact (H 0 a eq_refl).
  - apply IH. intros i t N. exact (H (Datatypes.S i) t N).
  - apply IH. intros i t N. exact (H (Datatypes.S i) t N).
Qed.
End Two.

(** the right table gives the right variances *)
Lemma variance_below (RR : relator J) tb (TR : table_right RR tb) (FC : families_covariant RR) t : known tb t = true ->
  forall (E E' : nat -> Type) (R S : forall p, E p -> E' p -> Prop), (forall p, below (variance_of tb p true t) (R p) (S p)) ->
  below VPositive (related RR R t) (related RR S t).
Proof.
  induction t as [|d args IH|d args IH|args ret IH IHr|q|q| |q] using atype_ind'; intros KN E E' R S H; cbn [known] in KN.
  - cbn. auto.
  - destruct (look tb d) as [vs|] eqn:LK; [|discriminate]. apply andb_prop in KN. destruct KN as [LN KN]. apply Nat.eqb_eq in LN.
    rewrite !related_data. intros x y. apply (TR d vs LK); rewrite ?map_length; auto. apply list_below. intros i t v N N'.
    assert (PL : forall p, place_below (R p) (S p) tb p (Some v) t).
    { intros p. specialize (H p). rewrite variance_data, LK in H. apply go_parts in H. rewrite <- N'. apply H. exact N. }
    pose proof (all_at _ _ _ _ KN N) as KT. destruct v; cbn [place_below] in PL.
    + exact (IH i t N KT _ _ R S PL).
    + exact (IH i t N KT _ _ S R PL).
    + intros a b. split; [apply (IH i t N KT _ _ R S); intros p; apply PL|apply (IH i t N KT _ _ S R); intros p; apply PL].
    + exact I.
  - rewrite !related_family. intros x y. apply FC. apply family_below. intros i t N. apply (IH i t N).
    + exact (all_at _ _ _ _ KN N).
    + intros p. specialize (H p). cbn [variance_of] in H. apply family_parts in H. exact (proj2 H i t N).
  - apply andb_prop in KN. destruct KN as [KA KR]. apply function_below.
    + intros i t N. apply (IH i t N (all_at _ _ _ _ KA N) _ _ S R). intros p. specialize (H p). cbn [variance_of] in H. apply below_merge in H.
      destruct H as [H _]. apply fold_parts in H. apply proj2 in H. specialize (H i t N). cbn [negb] in H. rewrite variance_false in H. apply below_flip. exact H.
    + apply IHr; auto. intros p. specialize (H p). cbn [variance_of] in H. apply below_merge in H. apply H.
  - specialize (H q). cbn in H. rewrite Nat.eqb_refl in H. exact H.
  - specialize (H q). cbn in H. rewrite Nat.eqb_refl in H. exact H.
  - cbn. auto.
  - cbn. auto.
Qed.

(** ** The parameters of a declaration *)
Lemma distinct_head p ps : distinct (p :: ps) = true -> ~ In p ps /\ distinct ps = true.
Proof.
  cbn [distinct]. intros H. apply andb_prop in H. destruct H as [H1 H2]. split; auto. intros I. apply negb_true_iff in H1.
  assert (existsb (Nat.eqb p) ps = true); [apply existsb_exists; exists p; split; auto using Nat.eqb_refl|congruence].
Qed.
Lemma own_env ps : distinct ps = true -> forall L, length L = length ps -> exists E, L = map (den J E) (map AArbitrary ps).
Proof.
  induction ps as [|p ps IH]; intros D [|A L] LN; try discriminate; [exists (fun _ => unit); reflexivity|].
  apply distinct_head in D. destruct D as [NI D]. destruct (IH D L) as [E HE]; [cbn in LN; lia|].
  exists (fun q => if Nat.eq_dec p q then A else E q). cbn [map]. f_equal.
  - cbn [den]. destruct (Nat.eq_dec p p); congruence.
  - rewrite HE, !map_map. apply map_ext_in. intros q I. cbn [den]. destruct (Nat.eq_dec p q); [subst; contradiction|reflexivity].
Qed.
Lemma own_rel (RR : relator J) {E E' : nat -> Type} (R : forall p, E p -> E' p -> Prop) ps : distinct ps = true ->
  forall s : rels (map (den J E) (map AArbitrary ps)) (map (den J E') (map AArbitrary ps)),
  exists S : forall p, E p -> E' p -> Prop, s = list_rels RR S (map AArbitrary ps) /\ forall q, ~ In q ps -> S q = R q.
Proof.
  induction ps as [|p ps IH]; intros D s.
  - exists R. cbn in s. destruct s. auto.
  - apply distinct_head in D. destruct D as [NI D]. cbn [map rels] in s. destruct s as [s0 s]. destruct (IH D s) as (S & HS & HO).
    exists (fun q => match Nat.eq_dec p q with left e => eq_rect p (fun q => E q -> E' q -> Prop) s0 q e | right _ => S q end). split.
    + cbn [map list_rels]. f_equal.
      * cbn [related]. destruct (Nat.eq_dec p p) as [e|]; [|congruence]. rewrite (UIP_dec Nat.eq_dec e eq_refl). reflexivity.
      * rewrite HS. clear HS HO s IH D. induction ps as [|q ps IH]; [reflexivity|]. cbn [map list_rels]. f_equal.
        -- cbn [related]. destruct (Nat.eq_dec p q) as [->|]; [exfalso; apply NI; left; reflexivity|reflexivity].
        -- apply IH. intros I. apply NI. right. exact I.
    + intros q NQ. destruct (Nat.eq_dec p q) as [->|]; [exfalso; apply NQ; left; reflexivity|]. apply HO. intros I. apply NQ. right. exact I.
Qed.
Lemma own_below (RR1 RR2 : relator J) {E E' : nat -> Type} (R S : forall p, E p -> E' p -> Prop) f ps :
  rels_below (map f ps) _ _ (list_rels RR1 R (map AArbitrary ps)) (list_rels RR2 S (map AArbitrary ps)) -> forall p, In p ps -> below (f p) (R p) (S p).
Proof.
  induction ps as [|q ps IH]; intros H p I; [destruct I|]. cbn [map list_rels rels_below fst snd tl] in H. destruct H as [H1 H2].
  destruct I as [->|I]; [exact H1|auto].
Qed.
Lemma own_rels (RR1 RR2 : relator J) {E E' : nat -> Type} (R : forall p, E p -> E' p -> Prop) ps :
  list_rels RR1 R (map AArbitrary ps) = list_rels RR2 R (map AArbitrary ps).
Proof. induction ps as [|p ps IH]; [reflexivity|]. cbn [map list_rels]. rewrite IH. reflexivity. Qed.
Lemma below_refl v {A B} (r : A -> B -> Prop) : below v r r.
Proof. destruct v; cbn; tauto. Qed.

(** all fields below *)
Lemma tuple_below (RR1 RR2 : relator J) {E E' : nat -> Type} (R S : forall p, E p -> E' p -> Prop) ts :
  (forall i t, nth_error ts i = Some t -> below VPositive (related RR1 R t) (related RR2 S t)) ->
  forall v w, tuple_related RR1 R ts v w -> tuple_related RR2 S ts v w.
Proof.
  induction ts as [|t ts IH]; intros H v w T; [exact I|]. destruct T as [T1 T2]. split; [exact (H 0 t eq_refl _ _ T1)|].
  apply IH; [|exact T2]. intros i u N. exact (H (Datatypes.S i) u N).
Qed.

(** ** The table of a declaration *)
Lemma look_new tb d v e : look ((d, v) :: tb) e = if datatype_eqb d e then v else look tb e.
Proof. unfold look, look_entry. cbn. destruct (datatype_eqb d e); reflexivity. Qed.
Lemma datatype_eqb_true d e : datatype_eqb d e = true -> d = e.
Proof. apply datatype_eqb_eq. Qed.
Lemma datatype_neq d e : d <> e -> datatype_eqb d e = false.
Proof. intros H. destruct (datatype_eqb d e) eqn:X; auto. apply datatype_eqb_eq in X. contradiction. Qed.
Lemma fresh_look tb d : fresh tb d = true -> look tb d = None.
Proof. unfold fresh, look. destruct (look_entry tb d); [discriminate|reflexivity]. Qed.

Lemma variance_in_parts tb ts p {A B} (r s : A -> B -> Prop) : below (variance_in tb ts p) r s -> forall i t, nth_error ts i = Some t -> below (variance_of tb p true t) r s.
Proof. intros H. apply (fold_parts r s (fun t => variance_of tb p true t)) in H. apply H. Qed.

Lemma structure_right (RR : relator J) tb m n ps fields (TR : table_right RR tb) (FC : families_covariant RR) :
  item_fine m tb (Structure n ps 0 fields) = true -> item_relates RR m (Structure n ps 0 fields) -> table_right RR (add_structure m tb n ps fields).
Proof.
  intros F (new & SU & IFF) d vs LK L M r s x y LL LM BL. cbn [item_fine] in F. apply andb_prop in F. destruct F as [F KN]. apply andb_prop in F. destruct F as [D FR].
  unfold add_structure, set_variances in LK. rewrite look_new in LK. destruct (datatype_eqb (m, n) d) eqn:X.
  - apply datatype_eqb_true in X. subst d. injection LK as <-. rewrite map_length in LL, LM.
    destruct (own_env ps D L LL) as [E ->]. destruct (own_env ps D M LM) as [E' ->].
    destruct (own_rel RR (fun _ _ _ => True) ps D r) as (R & -> & _). destruct (own_rel RR R ps D s) as (S & -> & SO).
    destruct (SU E x) as [v ->]. destruct (SU E' y) as [w ->]. intros H. apply IFF. apply IFF in H. revert H. apply tuple_below.
    intros i t N. apply (variance_below RR tb TR FC).
    + exact (all_at _ _ _ _ KN N).
    + intros p. destruct (in_dec Nat.eq_dec p ps) as [I|NI]; [|rewrite (SO p NI); apply below_refl].
      eapply variance_in_parts; [|exact N]. exact (own_below RR RR R S _ ps BL p I).
  - exact (TR d vs LK L M r s x y LL LM BL).
Qed.

(** ** The relations of an inductive type *)
Section Inductive.
Context (RR : relator J) (m n : nat) (ps : list nat).
Local Notation d := (m, n).
Local Notation ind := (own_type m n ps).

Lemma without_mentions t : contains ind t = false -> outside_families d t = true -> mentions d t = false.
Proof.
  induction t as [|e l IH|e l IH|l r IH IHr|p|p| |p] using atype_ind'; intros H O; try reflexivity; cbn [mentions].
  - cbn [contains] in H. apply orb_false_elim in H. destruct H as [H H2]. apply orb_false_elim in H. destruct H as [_ H1]. cbn [same_datatype own_type] in H1.
    rewrite H1. cbn [orb]. cbn [outside_families] in O. destruct (existsb (mentions d) l) eqn:X; auto. apply existsb_exists in X. destruct X as (t & I & X).
    apply In_nth_error in I. destruct I as [i I]. rewrite (IH i t I) in X; [discriminate|exact (none_at _ _ _ _ H2 I)|exact (all_at _ _ _ _ O I)].
  - cbn [outside_families] in O. destruct (existsb _ l) eqn:X; auto. apply existsb_exists in X. destruct X as (t & I & X).
    apply In_nth_error in I. destruct I as [i I]. pose proof (all_at _ _ _ _ O I) as Y. destruct t; [|discriminate]. cbn in Y. rewrite X in Y. discriminate.
  - cbn [contains] in H. apply orb_false_elim in H. destruct H as [_ H]. apply orb_false_elim in H. destruct H as [H1 H2].
    cbn [outside_families] in O. apply andb_prop in O. destruct O as [O1 O2]. rewrite (IHr H2 O2), orb_false_r.
    destruct (existsb (mentions d) l) eqn:X; auto. apply existsb_exists in X. destruct X as (t & I & X).
    apply In_nth_error in I. destruct I as [i I]. rewrite (IH i t I) in X; [discriminate|exact (none_at _ _ _ _ H1 I)|exact (all_at _ _ _ _ O1 I)].
Qed.

Context (Q : forall L M, rels L M -> data J d L -> data J d M -> Prop).
Local Notation RQ := (with_data RR d Q).
Lemma with_data_own L M r x y : rdata RQ d L M r x y = Q L M r x y.
Proof. cbn [with_data rdata]. destruct (datatype_eq_dec d d) as [e|]; [|congruence]. rewrite (UIP_dec datatype_eq_dec e eq_refl). reflexivity. Qed.
Lemma with_data_other e : e <> d -> rdata RQ e = rdata RR e.
Proof. intros H. cbn [with_data rdata]. destruct (datatype_eq_dec d e); [congruence|reflexivity]. Qed.

Lemma list_rels_at (R1 R2 : relator J) {E E' : nat -> Type} (R : forall p, E p -> E' p -> Prop) l :
  (forall i t, nth_error l i = Some t -> related R1 R t = related R2 R t) -> list_rels R1 R l = list_rels R2 R l.
Proof. induction l as [|a l IH]; intros H; [reflexivity|]. cbn [list_rels]. rewrite (H 0 a eq_refl), IH; [reflexivity|]. intros i. exact (H (S i)). Qed.

Lemma related_without {E E' : nat -> Type} (R : forall p, E p -> E' p -> Prop) t : mentions d t = false -> related RQ R t = related RR R t.
Proof.
  induction t as [|e l IH|e l IH|l r IH IHr|p|p| |p] using atype_ind'; intros H; cbn [mentions] in H; try reflexivity.
  - apply orb_false_elim in H. destruct H as [H1 H2]. rewrite !related_data, with_data_other by (intros ->; rewrite datatype_eqb_refl in H1; discriminate).
    rewrite (list_rels_at RQ RR); [reflexivity|]. intros i t N. exact (IH i t N (none_at _ _ _ _ H2 N)).
  - rewrite !related_family. cbn [with_data rfamily]. assert (X : family_rels RQ R l = family_rels RR R l); [|rewrite X; reflexivity].
    induction l as [|[a|v] l IHl]; [reflexivity|..]; cbn [family_rels].
    + rewrite (IH 0 a eq_refl (none_at _ _ 0 _ H eq_refl)), IHl; [reflexivity|intros i; exact (IH (S i))|]. cbn [existsb] in H. apply orb_false_elim in H. apply H.
    + apply IHl; [intros i; exact (IH (S i))|exact H].
  - apply orb_false_elim in H. destruct H as [H1 H2]. rewrite !related_function, (IHr H2). rewrite (list_rels_at RQ RR); [reflexivity|]. intros i t N. exact (IH i t N (none_at _ _ _ _ H1 N)).
Qed.

Context (tb : table) (FR : look tb d = None) (vs0 vs1 : list variance).
Local Notation tb0 := ((d, None) :: tb).
Local Notation tbk := (set_variances tb d vs0).
Local Notation tb1 := (set_variances tb0 d vs1).

Lemma look0 e : look tb0 e = look tb e.
Proof. rewrite look_new. destruct (datatype_eqb d e) eqn:X; auto. apply datatype_eqb_true in X. subst. auto. Qed.
Lemma look_other (tb' : table) v e : e <> d -> look ((d, v) :: tb') e = look tb' e.
Proof. intros H. rewrite look_new, datatype_neq; auto. Qed.

Lemma known_without t : mentions d t = false -> known tbk t = true -> known tb t = true.
Proof.
  induction t as [|e l IH|e l IH|l r IH IHr|p|p| |p] using atype_ind'; intros H K; cbn [mentions known] in *; try reflexivity.
  - apply orb_false_elim in H. destruct H as [H1 H2]. unfold set_variances in K. rewrite look_other in K by (intros ->; rewrite datatype_eqb_refl in H1; discriminate).
    apply andb_prop in K. destruct K as [K1 K2]. rewrite K1. apply forallb_forall. intros t I. apply In_nth_error in I. destruct I as [i I].
    exact (IH i t I (none_at _ _ _ _ H2 I) (all_at _ _ _ _ K2 I)).
  - apply forallb_forall. intros [t|v] I; [|reflexivity]. apply In_nth_error in I. destruct I as [i I]. exact (IH i t I (none_at _ _ _ _ H I) (all_at _ _ _ _ K I)).
  - apply orb_false_elim in H. destruct H as [H1 H2]. apply andb_prop in K. destruct K as [K1 K2]. rewrite (IHr H2 K2), andb_true_r.
    apply forallb_forall. intros t I. apply In_nth_error in I. destruct I as [i I]. exact (IH i t I (none_at _ _ _ _ H1 I) (all_at _ _ _ _ K1 I)).
Qed.

Lemma table_right0 : table_right RR tb -> table_right RR tb0.
Proof. intros TR e vs LK. rewrite look0 in LK. exact (TR e vs LK). Qed.
Lemma known0 t : known tb t = true -> known tb0 t = true.
Proof.
  induction t as [|e l IH|e l IH|l r IH IHr|p|p| |p] using atype_ind'; intros K; cbn [known] in *; try reflexivity.
  - rewrite look0. apply andb_prop in K. destruct K as [K1 K2]. rewrite K1. apply forallb_forall. intros t I. apply In_nth_error in I. destruct I as [i I]. exact (IH i t I (all_at _ _ _ _ K2 I)).
  - apply forallb_forall. intros [t|v] I; [|reflexivity]. apply In_nth_error in I. destruct I as [i I]. exact (IH i t I (all_at _ _ _ _ K I)).
  - apply andb_prop in K. destruct K as [K1 K2]. rewrite (IHr K2), andb_true_r. apply forallb_forall. intros t I. apply In_nth_error in I. destruct I as [i I]. exact (IH i t I (all_at _ _ _ _ K1 I)).
Qed.

Context (TR : table_right RR tb) (FC : families_covariant RR) {E E' : nat -> Type} (R S : forall p, E p -> E' p -> Prop).
Context (OWN : below VPositive (related RQ R ind) (related RR S ind)).

Lemma without_below t : mentions d t = false -> known tbk t = true -> forall R S : forall p, E p -> E' p -> Prop, (forall p, below (variance_of tb0 p true t) (R p) (S p)) ->
  below VPositive (related RR R t) (related RR S t).
Proof. intros M K R' S' H. apply (variance_below RR tb0 (table_right0 TR) FC t); auto using known0, known_without. Qed.

Lemma positive_below t : known tbk t = true -> regular ind t = true -> outside_families d t = true -> strictly_positive tb1 ind t = true ->
  (forall p, below (variance_of tb0 p true t) (R p) (S p)) -> below VPositive (related RQ R t) (related RR S t).
Proof.
  induction t as [|e l IH|e l IH|l r IH IHr|p|p| |p] using atype_ind'; intros K RG O SP H;
  try (rewrite related_without by reflexivity; apply without_below; auto; fail).
  - destruct (atype_eqb (AData e l) ind) eqn:X; [apply atype_eqb_eq in X; rewrite X; exact OWN|].
    cbn [regular] in RG. rewrite X in RG. cbn [orb] in RG. apply andb_prop in RG. destruct RG as [NE RG]. apply negb_true_iff in NE. cbn [same_datatype own_type] in NE.
    assert (NE' : e <> d) by (intros ->; rewrite datatype_eqb_refl in NE; discriminate).
    cbn [known] in K. unfold set_variances in K. rewrite look_other in K by auto. apply andb_prop in K. destruct K as [K1 K2].
    destruct (look tb e) as [vs|] eqn:LK; [|discriminate]. apply Nat.eqb_eq in K1.
    rewrite !related_data, with_data_other by auto. intros x y. apply (TR e vs LK); rewrite ?map_length; auto. apply list_below. intros i t v N N'.
    assert (PL : forall p, place_below (R p) (S p) tb0 p (Some v) t).
    { intros p. specialize (H p). rewrite variance_data, look0, LK in H. apply go_parts in H. rewrite <- N'. apply H. exact N. }
    cbn [outside_families] in O. pose proof (all_at _ _ _ _ O N) as OT. pose proof (all_at _ _ _ _ K2 N) as KT. pose proof (all_at _ _ _ _ RG N) as RT.
    destruct (contains ind t) eqn:CT.
    + assert (LK1 : look tb1 e = Some vs) by (unfold set_variances; rewrite !look_other; auto).
      destruct (positive_arguments tb1 m n ps e l) with (i := i) (t := t) as [PP SPT]; auto.
      { rewrite LK1. apply Nat.leb_le. lia. }
      unfold positions in PP. rewrite LK1, N' in PP. destruct v; try discriminate; [|exact I]. exact (IH i t N KT RT OT SPT PL).
    + pose proof (without_mentions t CT OT) as MT. rewrite (related_without R t MT). destruct v; cbn [place_below] in PL.
      * exact (without_below t MT KT R S PL).
      * exact (without_below t MT KT S R PL).
      * intros a b. split; [apply (without_below t MT KT R S)|apply (without_below t MT KT S R)]; intros p; apply PL.
      * exact I.
  - assert (MT : mentions d (AFamily e l) = false) by (apply without_mentions; [reflexivity|exact O]). rewrite related_without by exact MT. apply without_below; auto.
  - cbn [known regular outside_families strictly_positive atype_eqb own_type orb] in *. apply andb_prop in K. destruct K as [K1 K2]. apply andb_prop in RG. destruct RG as [RG1 RG2].
    apply andb_prop in O. destruct O as [O1 O2]. apply andb_prop in SP. destruct SP as [SP1 SP2]. apply function_below.
    + intros i t N. pose proof (all_at _ _ _ _ SP1 N) as CT. cbn beta in CT. apply negb_true_iff in CT.
      pose proof (without_mentions t CT (all_at _ _ _ _ O1 N)) as MT. rewrite (related_without R t MT).
      apply (without_below t MT (all_at _ _ _ _ K1 N) S R). intros p. specialize (H p). cbn [variance_of] in H. apply below_merge in H.
      destruct H as [H _]. apply fold_parts in H. apply proj2 in H. specialize (H i t N). cbn [negb] in H. rewrite variance_false in H. apply below_flip. exact H.
    + apply IHr; auto. intros p. specialize (H p). cbn [variance_of] in H. apply below_merge in H. apply H.
Qed.
End Inductive.

Lemma inductive_right (RR : relator J) tb m n ps ctors tb' (TR : table_right RR tb) (FC : families_covariant RR) :
  add_inductive m tb n ps ctors = Some tb' -> item_fine m tb (Inductive_ n ps ctors) = true -> item_relates RR m (Inductive_ n ps ctors) -> table_right RR tb'.
Proof.
  intros ADD F (con & CR & LEAST). cbn [item_fine] in F. apply andb_prop in F. destruct F as [F KN]. apply andb_prop in F. destruct F as [D FR]. apply fresh_look in FR.
  unfold add_inductive in ADD. set (tb0 := ((m, n), None) :: tb) in *. set (vs := map (variance_in tb0 (concat ctors)) ps) in *.
  destruct (has_base _ _ && _) eqn:OK; [|discriminate]. apply andb_prop in OK. destruct OK as [_ SP]. injection ADD as <-.
  intros d us LK. unfold set_variances in LK. rewrite look_new in LK. destruct (datatype_eqb (m, n) d) eqn:X.
  2:{ unfold tb0 in LK. rewrite (look0 m n tb FR) in LK. exact (TR d us LK). }
  apply datatype_eqb_true in X. subst d. injection LK as <-. intros L M r s x y LL LM BL RX. unfold vs in LL, LM. rewrite map_length in LL, LM.
  revert s BL. refine (LEAST (fun L M r x y => forall s, rels_below vs L M r s -> rdata RR (m, n) L M s x y) _ L M r x y LL LM RX).
  clear L M r x y LL LM RX LEAST. set (Q := fun (L M : list Type) (r : rels L M) x y => forall s, rels_below vs L M r s -> rdata RR (m, n) L M s x y).
  intros E E' R k ts Hk v w T. unfold own_type. rewrite related_data, with_data_own. intros s BL.
  destruct (own_rel RR R ps D s) as (S & -> & SO). apply (CR E E' S k ts Hk v w). revert T. apply tuple_below. intros i t N.
  pose proof (all_at _ _ _ _ KN Hk) as KT. pose proof (all_at _ _ _ _ KT N) as KF. cbn beta in KF. apply andb_prop in KF. destruct KF as [KF OF]. apply andb_prop in KF. destruct KF as [KF RF].
  apply (positive_below RR m n ps Q tb FR (map (fun _ => VBoth) ps) vs TR FC R S); auto.
  - intros a b AB. unfold own_type in AB |- *. rewrite related_data in AB |- *. rewrite with_data_own in AB. apply AB. exact BL.
  - pose proof (all_at _ _ _ _ SP Hk) as SK. exact (all_at _ _ _ _ SK N).
  - intros p. destruct (in_dec Nat.eq_dec p ps) as [I|NI]; [|rewrite (SO p NI); apply below_refl].
    pose proof (own_below _ RR R S _ ps BL p I) as B. assert (IC : In t (concat ctors)).
    { apply in_concat. exists ts. split; [exact (nth_error_In _ _ Hk)|exact (nth_error_In _ _ N)]. }
    apply In_nth_error in IC. destruct IC as [j IC]. exact (variance_in_parts _ _ _ _ _ B j t IC).
Qed.

Lemma items_right (RR : relator J) tables m (FC : families_covariant RR) l : forall tb tb', table_right RR tb ->
  run_items tables m tb l = Some tb' -> items_fine m tb l = true -> Forall (item_relates RR m) l -> table_right RR tb'.
Proof.
  induction l as [|i l IH]; intros tb tb' TR RI F H; cbn [items_fine] in F; [injection RI as <-; exact TR|].
  apply andb_prop in F. destruct F as [F1 F2]. inversion H as [|? ? H1 H2]; subst. destruct i as [k|n ps [|vals] fields|n ps ctors]; try discriminate; cbn [run_items] in *.
  - exact (IH _ _ (structure_right RR tb m n ps fields TR FC F1 H1) RI F2 H2).
  - destruct (add_inductive m tb n ps ctors) as [tb2|] eqn:ADD; [|discriminate]. exact (IH _ _ (inductive_right RR tb m n ps ctors tb2 TR FC ADD F1 H1) RI F2 H2).
Qed.
End Rel.
