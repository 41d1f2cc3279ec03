(** Structural invariant of the equality graph: no operation panics, every operation returns, and the groups
    are closed under congruence. *)
From Coq Require Import List Arith NArith Bool Lia Permutation.
Import ListNotations.
From Verif Require Import Term Literal Clause SemFacts ClauseSet ClauseSetProofs P_ClauseSet EqualityGraph EqualityGraphProofs.

(** the call returns a value with the property *)
Definition wp {A} (x : res A) (P : A -> Prop) : Prop := match x with Ok a => P a | _ => False end.
Lemma wp_bind {A B} (x : res A) (f : A -> res B) P : wp x (fun a => wp (f a) P) -> wp (rbind x f) P.
Proof. destruct x; simpl; auto. Qed.
Lemma wp_mono {A} (x : res A) (P Q : A -> Prop) : (forall a, P a -> Q a) -> wp x P -> wp x Q.
Proof. destruct x; simpl; auto. Qed.
Lemma wp_ok {A} (x : res A) P : wp x P -> exists a, x = Ok a /\ P a.
Proof. destruct x; simpl; try tauto. eauto. Qed.
Lemma wp_unwrap {A} (x : option A) a (P : A -> Prop) : x = Some a -> P a -> wp (unwrap x) P.
Proof. intros -> ?; simpl; auto. Qed.
Lemma wp_foldm {A S} (f : S -> A -> res S) (I : list A -> S -> Prop) l : forall s, I l s ->
  (forall x r s, I (x :: r) s -> wp (f s x) (I r)) -> wp (foldm f l s) (I []).
Proof.
  induction l as [|x l IH]; intros s H Hf; simpl; auto. apply wp_bind. eapply wp_mono; [|apply Hf; exact H].
  intros s' Hs'. apply IH; auto.
Qed.

Definition equiv (E : nat -> nat -> Prop) : Prop := (forall i, E i i) /\ (forall i j, E i j -> E j i) /\ (forall i j k, E i j -> E j k -> E i k).
Definition same_group (s : egraph) (i j : nat) : Prop :=
  exists ti tj, nth_error (eg_terms s) i = Some ti /\ nth_error (eg_terms s) j = Some tj /\ ti_group ti = ti_group tj.
(** equal once the pending equalities are processed *)
Definition by_pending (p : list semop) (i j : nat) : Prop :=
  forall E, equiv E -> (forall a b, In (OEq a b) p -> E a b) -> E i j.
Definition conn (s : egraph) (i j : nat) : Prop :=
  forall E, equiv E -> (forall a b, same_group s a b -> E a b) -> (forall a b, In (OEq a b) (eg_pending s) -> E a b) -> E i j.

Definition rmap (old new g : nat) : nat := if Nat.eqb g old then new else g.
Lemma key_remap_rmap old new k : key_remap old new k = (rmap old new (fst k), rmap old new (snd k)).
Proof. reflexivity. Qed.

(** ** the parts of the invariant *)
Section Parts.
Context (terms : list tinfo) (gs : list pgroup).
Notation live g i := (nth_error gs g = Some (Info i)).
Record gwf : Prop := {
  g_len : length gs = length terms;
  g_grp : forall i ti, nth_error terms i = Some ti -> exists gi, live (ti_group ti) gi /\ In i (gi_terms gi);
  g_gt : forall g gi t, live g gi -> In t (gi_terms gi) -> exists ti, nth_error terms t = Some ti /\ ti_group ti = g;
  g_ne : forall g gi, live g gi -> gi_terms gi <> []
}.
Definition rel (g h : nat) : Prop := exists gi, live g gi /\ In h (gi_ineq gi).
Record iwf : Prop := {
  i_nodup : forall g gi, live g gi -> NoDup (gi_ineq gi);
  i_irr : forall g, ~ rel g g;
  i_sym : forall g h, rel g h -> rel h g
}.
Definition is_remapped (p : pgroup) : bool := match p with Remapped _ => true | _ => false end.
Definition remapped : nat := length (filter is_remapped gs).
Definition rwf : Prop := exists rk : nat -> nat, forall g h, nth_error gs g = Some (Remapped h) ->
  h < length gs /\ rk h < rk g /\ rk g <= remapped.
Record awf (apps : list (option appinfo)) (amap : list ((nat * nat) * nat)) : Prop := {
  a_idx : forall g gi k, live g gi -> In k (gi_apps gi) -> k < length apps;
  a_app : forall k a, nth_error apps k = Some (Some a) -> map_get key_eqb amap (ai_key a) = Some (ai_res a) /\ ai_res a < length gs;
  a_grp : forall k a g, nth_error apps k = Some (Some a) -> g = fst (ai_key a) \/ g = snd (ai_key a) ->
    exists gi, live g gi /\ In k (gi_apps gi);
  a_inj : forall k k' a a', nth_error apps k = Some (Some a) -> nth_error apps k' = Some (Some a') -> ai_key a = ai_key a' -> k = k';
  a_map : forall q r, map_get key_eqb amap q = Some r -> exists k, nth_error apps k = Some (Some (AI q r))
}.
End Parts.
(** each term number has its decomposition registered *)
Definition dwf (terms : list tinfo) (dec : list (decomp * nat)) (opq : list (term * nat)) : Prop :=
  (forall i ti, nth_error terms i = Some ti ->
     match ti_decomp ti with
     | DAtomic a => ti_term ti = TAtom a /\ map_get decomp_eqb dec (DAtomic a) = Some i
     | DApp f a => map_get decomp_eqb dec (DApp f a) = Some i /\ exists tf ta, nth_error terms f = Some tf /\ nth_error terms a = Some ta /\
         ti_term ti = TApp (ti_term tf) (ti_term ta)
     | DOpaque => (exists k A b, ti_term ti = TBind k A b) /\ map_get term_eqb opq (ti_term ti) = Some i
     end) /\
  (forall d i, map_get decomp_eqb dec d = Some i -> exists ti, nth_error terms i = Some ti /\ ti_decomp ti = d) /\
  (forall t i, map_get term_eqb opq t = Some i -> exists ti, nth_error terms i = Some ti /\ ti_term ti = t).
Definition litn (n : nat) (l : litid) : Prop := N.to_nat (lleft l) < n /\ N.to_nat (lright l) < n.
Definition opn (n : nat) (o : semop) : Prop :=
  match o with OEq a b | ONeq a b => a < n /\ b < n | OClause c => forall l, In l c -> litn n l end.
Record cwf (n : nat) (s : egraph) : Prop := {
  c_con : consistent (eg_clauses s);
  c_cls : forall c, In c (cs_clauses (eg_clauses s)) -> forall l, In l c -> litn n l;
  c_pend : forall o, In o (eg_pending s) -> opn n o
}.
Record jwf (s : egraph) : Prop := {
  j_g : gwf (eg_terms s) (eg_groups s);
  j_i : iwf (eg_groups s);
  j_r : rwf (eg_groups s);
  j_a : awf (eg_groups s) (eg_apps s) (eg_amap s);
  j_d : dwf (eg_terms s) (eg_decomps s) (eg_opaque s);
  j_c : cwf (length (eg_groups s)) s
}.
Definition shape (s : egraph) := map (fun ti => (ti_term ti, ti_decomp ti)) (eg_terms s).

(** how the graph develops without new terms *)
Record evolves (s s' : egraph) : Prop := {
  e_shape : shape s' = shape s;
  e_dec : eg_decomps s' = eg_decomps s;
  e_opq : eg_opaque s' = eg_opaque s;
  e_pend : incl (eg_pending s) (eg_pending s');
  e_con : eg_contra s = true -> eg_contra s' = true;
  e_map : exists f : nat -> nat,
    (forall i ti, nth_error (eg_terms s) i = Some ti -> exists ti', nth_error (eg_terms s') i = Some ti' /\ ti_group ti' = f (ti_group ti)) /\
    (forall a b r, map_get key_eqb (eg_amap s) (a, b) = Some r -> exists r', map_get key_eqb (eg_amap s') (f a, f b) = Some r' /\ conn s' r r') /\
    (forall g h, rel (eg_groups s) g h -> eg_contra s' = true \/ rel (eg_groups s') (f g) (f h))
}.

Lemma shape_nth s s' i ti : shape s' = shape s -> nth_error (eg_terms s) i = Some ti ->
  exists ti', nth_error (eg_terms s') i = Some ti' /\ ti_term ti' = ti_term ti /\ ti_decomp ti' = ti_decomp ti.
Proof.
  intros E H. assert (X : nth_error (shape s') i = Some (ti_term ti, ti_decomp ti)).
  { rewrite E. unfold shape. rewrite nth_error_map, H. auto. }
  unfold shape in X. rewrite nth_error_map in X. destruct (nth_error (eg_terms s') i) as [t|]; [|discriminate].
  injection X as X1 X2. eauto.
Qed.
Lemma shape_len s s' : shape s' = shape s -> length (eg_terms s') = length (eg_terms s).
Proof. intros H. apply (f_equal (@length _)) in H. unfold shape in H. rewrite !map_length in H. auto. Qed.

Lemma conn_refl s i : conn s i i. Proof. intros E (R & _) _ _. apply R. Qed.
Lemma conn_sym s i j : conn s i j -> conn s j i.
Proof. intros H E HE H1 H2. assert (X := H E HE H1 H2). destruct HE as (_ & S & _). auto. Qed.
Lemma conn_trans s i j k : conn s i j -> conn s j k -> conn s i k.
Proof. intros H H' E HE H1 H2. destruct HE as (E1 & E2 & E3). apply E3 with j; [apply H|apply H']; unfold equiv; auto. Qed.
Lemma conn_grp s i j : same_group s i j -> conn s i j. Proof. intros H E HE H1 H2. auto. Qed.
Lemma conn_pend s i j : In (OEq i j) (eg_pending s) -> conn s i j. Proof. intros H E HE H1 H2. auto. Qed.
Lemma conn_lift s s' : (forall i j, same_group s i j -> conn s' i j) -> (forall i j, In (OEq i j) (eg_pending s) -> conn s' i j) ->
  forall i j, conn s i j -> conn s' i j.
Proof. intros H1 H2 i j H E HE G1 G2. apply H; auto. - intros a b Hab. apply H1; auto. - intros a b Hab. apply H2; auto. Qed.

Lemma evolves_conn s s' : evolves s s' -> forall i j, conn s i j -> conn s' i j.
Proof.
  intros [E1 E2 E3 E4 E5 (f & F1 & F2 & F3)]. apply conn_lift.
  - intros i j (ti & tj & Hi & Hj & G). apply conn_grp. destruct (F1 _ _ Hi) as (ti' & Hi' & Gi), (F1 _ _ Hj) as (tj' & Hj' & Gj).
    exists ti', tj'. repeat split; auto. congruence.
  - intros i j H. apply conn_pend. apply E4. auto.
Qed.
Lemma evolves_refl s : evolves s s.
Proof.
  constructor; auto using incl_refl. exists (fun g => g). split; [eauto|]. split; [|auto].
  intros a b r H. exists r. split; auto using conn_refl.
Qed.
Lemma evolves_trans s1 s2 s3 : evolves s1 s2 -> evolves s2 s3 -> evolves s1 s3.
Proof.
  intros A B. pose proof (evolves_conn _ _ B) as BC. destruct A as [A1 A2 A3 A4 A5 (f & F1 & F2 & F3)], B as [B1 B2 B3 B4 B5 (g & G1 & G2 & G3)].
  constructor; try congruence; eauto using incl_tran. exists (fun x => g (f x)). split; [|split].
  - intros i ti H. destruct (F1 _ _ H) as (t2 & H2 & E2). destruct (G1 _ _ H2) as (t3 & H3 & E3). exists t3. split; auto. congruence.
  - intros a b r H. destruct (F2 _ _ _ H) as (r2 & H2 & C2). destruct (G2 _ _ _ H2) as (r3 & H3 & C3). exists r3. split; auto.
    eapply conn_trans; [|exact C3]. auto.
  - intros x y H. destruct (F3 _ _ H) as [H2|H2]; auto.
Qed.
(** only clauses, pending operations, the contradiction flag changed, and groups were only rewired *)
Definition same_live (gs gs' : list pgroup) : Prop :=
  length gs' = length gs /\ (forall g i, nth_error gs g = Some (Info i) <-> nth_error gs' g = Some (Info i)) .
Lemma same_live_refl gs : same_live gs gs. Proof. split; [auto|tauto]. Qed.
Lemma evolves_frame s s' : eg_terms s' = eg_terms s -> eg_amap s' = eg_amap s -> eg_decomps s' = eg_decomps s -> eg_opaque s' = eg_opaque s ->
  same_live (eg_groups s) (eg_groups s') -> incl (eg_pending s) (eg_pending s') -> (eg_contra s = true -> eg_contra s' = true) -> evolves s s'.
Proof.
  intros H1 H2 H3 H4 H5 H6 H7. constructor; auto; [unfold shape; congruence|]. exists (fun g => g). rewrite H1, H2. split; [eauto|]. split.
  - intros a b r H. exists r. split; auto using conn_refl.
  - intros g h (gi & G & I). right. exists gi. split; auto. apply H5; auto.
Qed.
Lemma same_live_rel gs gs' : same_live gs gs' -> forall g h, rel gs g h <-> rel gs' g h.
Proof. intros [_ L] g h. unfold rel. split; intros (i & H & I); exists i; split; auto; apply L; auto. Qed.
Lemma same_live_gwf t gs gs' : same_live gs gs' -> gwf t gs -> gwf t gs'.
Proof.
  intros [L1 L2] [H1 H2 H3 H4]. constructor; try congruence.
  - intros i ti H. destruct (H2 _ _ H) as (gi & G & I). exists gi. split; auto. apply L2; auto.
  - intros g gi u G. apply L2 in G. eauto.
  - intros g gi G. apply L2 in G. eauto.
Qed.
Lemma same_live_iwf gs gs' : same_live gs gs' -> iwf gs -> iwf gs'.
Proof.
  intros L [H1 H2 H3]. pose proof (same_live_rel _ _ L) as R. constructor.
  - intros g gi G. apply (H1 g gi). apply (proj2 L). exact G.
  - intros g H. apply R in H. eapply H2; eauto.
  - intros g h H. apply R in H. apply R. auto.
Qed.
Lemma same_live_awf gs gs' ap am : same_live gs gs' -> awf gs ap am -> awf gs' ap am.
Proof.
  intros [L1 L2] [H1 H2 H3 H4 H5]. constructor; auto.
  - intros g gi k G. apply L2 in G. eauto.
  - intros k a H. rewrite L1. exact (H2 k a H).
  - intros k a g H E. destruct (H3 _ _ _ H E) as (gi & G & I). exists gi. split; auto. apply L2; auto.
Qed.

(** ** the termination measure *)
Definition unrelated1 (n : nat) (p : pgroup) : nat := match p with Info i => n - length (gi_ineq i) | _ => 0 end.
Definition unrelated (gs : list pgroup) : nat := list_sum (map (unrelated1 (length gs)) gs).
Fixpoint cweight (k : nat) : nat := match k with 0 => 2 | S k => 2 + S k * cweight k end.
Definition oweight (o : semop) : nat := match o with OClause c => cweight (length c) | _ => 1 end.
Definition weight (p : list semop) : nat := list_sum (map oweight p).
Definition livec (gs : list pgroup) : nat := length gs - remapped gs.
(** lexicographic: live groups, pairs not known to differ, weight of the pending operations *)
Definition below (l u w : nat) (s : egraph) : Prop :=
  livec (eg_groups s) < l \/ (livec (eg_groups s) = l /\ (unrelated (eg_groups s) < u \/ (unrelated (eg_groups s) = u /\ weight (eg_pending s) < w))).

Lemma cweight_mono a b : a <= b -> cweight a <= cweight b.
Proof. induction 1; auto. simpl. lia. Qed.
Lemma cweight_ge k : 2 <= cweight k. Proof. destruct k; simpl; lia. Qed.
Lemma list_sum_upd (f : pgroup -> nat) gs g p q : nth_error gs g = Some p ->
  list_sum (map f (upd gs g q)) + f p = list_sum (map f gs) + f q.
Proof. revert g; induction gs as [|x gs IH]; intros [|g] H; simpl in *; try discriminate; [injection H as ->; lia|]. apply IH in H. lia. Qed.
Lemma remapped_upd gs g p q : nth_error gs g = Some p ->
  remapped (upd gs g q) + (if is_remapped p then 1 else 0) = remapped gs + (if is_remapped q then 1 else 0).
Proof.
  unfold remapped. revert g; induction gs as [|x gs IH]; intros [|g] H; simpl in *; try discriminate.
  - injection H as ->. destruct (is_remapped p), (is_remapped q); simpl; lia.
  - apply IH in H. destruct (is_remapped x); simpl; lia.
Qed.
Lemma remapped_le gs : remapped gs <= length gs.
Proof. unfold remapped. induction gs as [|x gs IH]; simpl; auto. destruct (is_remapped x); simpl; lia. Qed.
Lemma remapped_live gs g i : nth_error gs g = Some (Info i) -> remapped gs < length gs.
Proof.
  unfold remapped. revert g; induction gs as [|x gs IH]; intros [|g] H; simpl in *; try discriminate.
  - injection H as ->. simpl. pose proof (remapped_le gs). unfold remapped in *. lia.
  - apply IH in H. destruct (is_remapped x); simpl; lia.
Qed.
Lemma unrelated_upd gs g i j : nth_error gs g = Some (Info i) ->
  unrelated (upd gs g (Info j)) + (length gs - length (gi_ineq i)) = unrelated gs + (length gs - length (gi_ineq j)).
Proof.
  intros H. unfold unrelated. rewrite upd_length. pose proof (list_sum_upd (unrelated1 (length gs)) gs g _ (Info j) H) as E. exact E.
Qed.

(** rewiring of forwardings *)
Lemma rewire_one gs g p h : nth_error gs g = Some (Remapped p) -> same_live gs (upd gs g (Remapped h)) /\
  remapped (upd gs g (Remapped h)) = remapped gs /\ unrelated (upd gs g (Remapped h)) = unrelated gs.
Proof.
  intros H. split; [|split].
  - split; [apply upd_length|]. intros x i. rewrite nth_upd. destruct (Nat.eqb_spec g x) as [<-|]; [|tauto]. rewrite H. simpl. split; discriminate.
  - pose proof (remapped_upd gs g _ (Remapped h) H) as E. simpl in E. lia.
  - unfold unrelated. rewrite upd_length. pose proof (list_sum_upd (unrelated1 (length gs)) gs g _ (Remapped h) H) as E. simpl in E. lia.
Qed.

Definition calm (gs gs' : list pgroup) : Prop := same_live gs gs' /\ remapped gs' = remapped gs /\ unrelated gs' = unrelated gs.
Lemma calm_refl gs : calm gs gs. Proof. split; [apply same_live_refl|auto]. Qed.
Lemma calm_trans a b c : calm a b -> calm b c -> calm a c.
Proof.
  intros ([A1 A2] & A3 & A4) ([B1 B2] & B3 & B4). split; [|split; congruence]. split; [congruence|].
  intros g i. rewrite A2. apply B2.
Qed.

Lemma chase_wp gs (rk : nat -> nat) : (forall g h, nth_error gs g = Some (Remapped h) -> h < length gs /\ rk h < rk g /\ rk g <= remapped gs) ->
  forall n g, rk g < n -> g < length gs -> wp (chase n gs g) (fun r => (exists i, nth_error gs (snd r) = Some (Info i)) /\ rk (snd r) <= rk g /\
    forall x, In x (fst r) -> rk (snd r) < rk x /\ exists p, nth_error gs x = Some (Remapped p)).
Proof.
  intros Hr. induction n as [|n IH]; intros g Hk Hg; [lia|]. simpl.
  destruct (nth_error gs g) as [p|] eqn:E; [|apply nth_error_None in E; lia]. simpl. destruct p as [h|i].
  - destruct (Hr _ _ E) as (R1 & R2 & R3). apply wp_bind. eapply wp_mono; [|apply (IH h); lia].
    intros [ch la] (I & L & F). simpl in *. split; auto. split; [lia|]. intros x [<-|Hx]; auto. split; [lia|eauto].
  - simpl. split; eauto. split; auto. intros x [].
Qed.

Lemma removelast_in {A} (l : list A) x : In x (removelast l) -> In x l.
Proof. induction l as [|y [|z l] IH]; simpl in *; auto. intros [|H]; auto. Qed.

Lemma update_group_id_wp s g : rwf (eg_groups s) -> g < length (eg_groups s) ->
  wp (update_group_id s g) (fun r => exists gs, fst r = set_groups s gs /\ calm (eg_groups s) gs /\ rwf gs /\ exists i, nth_error gs (snd r) = Some (Info i)).
Proof.
  intros (rk & Hr) Hg. unfold update_group_id.
  (* ranks of live groups do not matter: cap them *)
  set (rk' := fun g => match nth_error (eg_groups s) g with Some (Remapped _) => rk g | _ => 0 end).
  assert (Hr' : forall g h, nth_error (eg_groups s) g = Some (Remapped h) -> h < length (eg_groups s) /\ rk' h < rk' g /\ rk' g <= remapped (eg_groups s)).
  { intros a b H. destruct (Hr _ _ H) as (R1 & R2 & R3). unfold rk'. rewrite H. split; auto.
    destruct (nth_error (eg_groups s) b) as [[|]|]; lia. }
  assert (B : rk' g <= remapped (eg_groups s)).
  { unfold rk'. destruct (nth_error (eg_groups s) g) as [[h|]|] eqn:E; try lia. apply (Hr _ _ E). }
  clearbody rk'. clear rk Hr. pose proof (remapped_le (eg_groups s)) as RL.
  apply wp_bind. eapply wp_mono; [|apply (chase_wp _ rk' Hr'); [lia|auto]].
  intros [chain last] ((i & Hi) & _ & F). cbn [fst snd] in *. simpl. eexists. split; [reflexivity|].
  assert (Hl : last < length (eg_groups s)) by (eapply nth_lt; eauto).
  assert (X : forall l gs, (forall x, In x l -> rk' last < rk' x /\ exists p, nth_error gs x = Some (Remapped p)) ->
     length gs = length (eg_groups s) ->
     (forall g h, nth_error gs g = Some (Remapped h) -> h < length gs /\ rk' h < rk' g /\ rk' g <= remapped gs) ->
     let gs' := fold_left (fun gs i => upd gs i (Remapped last)) l gs in
     calm gs gs' /\ (forall g h, nth_error gs' g = Some (Remapped h) -> h < length gs' /\ rk' h < rk' g /\ rk' g <= remapped gs')).
  { induction l as [|x l IH]; intros gs Hl' Len Hg'; simpl; [split; auto using calm_refl|].
    destruct (Hl' x (or_introl eq_refl)) as (R1 & p & R2). pose proof (rewire_one gs x p last R2) as (S1 & S2 & S3).
    assert (C : calm gs (upd gs x (Remapped last))) by (split; auto).
    destruct (IH (upd gs x (Remapped last))) as [C' R'].
    - intros y Hy. destruct (Hl' y (or_intror Hy)) as (R3 & q & R4). split; auto. rewrite nth_upd. destruct (Nat.eqb x y); [rewrite R4; simpl|]; eauto.
    - rewrite upd_length. auto.
    - intros a b H. rewrite upd_length, S2. apply nth_upd_cases in H. destruct H as [[<- H]|[_ H]]; [|auto].
      injection H as ->. split; [lia|]. split; auto. apply (Hg' _ _ R2).
    - split; auto. eapply calm_trans; eauto. }
  destruct (X (removelast chain) (eg_groups s)) as [C R]; auto.
  { intros x Hx. apply F. apply removelast_in; auto. }
  split; auto. split; [exists rk'; auto|]. exists i. apply C. auto.
Qed.

(** an update of the clauses, the pending operations and the flag *)
Lemma jwf_frame s s' : eg_terms s' = eg_terms s -> eg_amap s' = eg_amap s -> eg_apps s' = eg_apps s -> eg_decomps s' = eg_decomps s ->
  eg_opaque s' = eg_opaque s -> same_live (eg_groups s) (eg_groups s') -> rwf (eg_groups s') ->
  cwf (length (eg_groups s)) s' -> jwf s -> jwf s'.
Proof.
  intros H1 H2 H3 H4 H5 L R C [A1 A2 A3 A4 A5 A6]. constructor; auto.
  - rewrite H1. eapply same_live_gwf; eauto.
  - eapply same_live_iwf; eauto.
  - rewrite H2, H3. eapply same_live_awf; eauto.
  - rewrite H1, H4, H5. auto.
  - rewrite (proj1 L). auto.
Qed.

Lemma weight_app a b : weight (a ++ b) = weight a + weight b.
Proof. unfold weight. rewrite map_app, list_sum_app. auto. Qed.

Section Closure.
Context (ordk : nat -> list nat -> list nat) (ordc : nat -> list clauseid -> list clauseid).
Context (ordk_perm : forall n l, Permutation (ordk n l) l) (ordc_perm : forall n l, Permutation (ordc n l) l).

(** [s'] differs from [s] in the clause set, more pending clauses, and the tick *)
Record clauses_moved (s s' : egraph) : Prop := {
  m_t : eg_terms s' = eg_terms s; m_g : eg_groups s' = eg_groups s; m_a : eg_apps s' = eg_apps s; m_m : eg_amap s' = eg_amap s;
  m_d : eg_decomps s' = eg_decomps s; m_o : eg_opaque s' = eg_opaque s; m_c : eg_contra s = true -> eg_contra s' = true;
  m_p : exists l, eg_pending s' = map OClause l ++ eg_pending s
}.
Lemma moved_refl s : clauses_moved s s.
Proof. constructor; auto. exists []. auto. Qed.
Lemma moved_trans a b c : clauses_moved a b -> clauses_moved b c -> clauses_moved a c.
Proof.
  intros [A1 A2 A3 A4 A5 A6 A7 (l & A8)] [B1 B2 B3 B4 B5 B6 B7 (m & B8)]. constructor; try congruence; auto.
  exists (m ++ l). rewrite B8, A8, map_app, app_assoc. auto.
Qed.
Lemma moved_push s c : clauses_moved s (push s (OClause c)).
Proof. constructor; auto. exists [c]. auto. Qed.
Lemma cwf_push n s o : cwf n s -> opn n o -> cwf n (push s o).
Proof. intros [H1 H2 H3] H. constructor; auto. simpl. intros p [<-|]; auto. Qed.

Lemma handle_inequality_moved n s g1 g2 : cwf n s -> clauses_moved s (handle_inequality ordc s g1 g2) /\ cwf n (handle_inequality ordc s g1 g2).
Proof.
  intros C. unfold handle_inequality, remove_literal. cbv zeta.
  set (c1 := ordc (eg_tick s) _). set (s1 := tick _). set (c2 := ordc (eg_tick s1) _). set (s2 := tick _).
  destruct C as [C1 C2 C3]. destruct (consistent_remove_all c1 _ C1) as [D1 D2].
  assert (S1 : cwf n s1). { constructor; auto. intros c Hc. apply D2 in Hc. apply C2. tauto. }
  destruct (consistent_remove_all c2 _ (c_con _ _ S1)) as [E1 E2].
  assert (S2 : cwf n s2). { constructor; auto. - intros c Hc. apply E2 in Hc. apply (c_cls _ _ S1). tauto. }
  assert (M2 : clauses_moved s s2) by (constructor; auto; exists []; auto).
  apply (fold_ind _ (fun s' => clauses_moved s s' /\ cwf n s')); auto.
  intros c s' Hc [M W]. split; [eapply moved_trans; [eauto|apply moved_push]|]. apply cwf_push; auto. simpl.
  apply in_app_iff in Hc. destruct Hc as [Hc|Hc]; apply (ordc_in ordc ordc_perm) in Hc.
  - apply (co_lit _ C1) in Hc. apply C2. tauto.
  - apply (co_lit _ (c_con _ _ S1)) in Hc. apply (c_cls _ _ S1). tauto.
Qed.
Lemma handle_all_moved n l : forall s, cwf n s -> clauses_moved s (handle_all ordc s l) /\ cwf n (handle_all ordc s l).
Proof.
  intros s C. unfold handle_all. apply (fold_ind _ (fun s' => clauses_moved s s' /\ cwf n s')); [|auto using moved_refl].
  intros p s' _ [M W]. destruct (handle_inequality_moved n s' (fst p) (snd p) W) as [M' W']. split; auto. eapply moved_trans; eauto.
Qed.
Lemma clauseid_litn n c : (forall l, In l c -> litn n l) -> match clauseid_new c with NClause d => forall l, In l d -> litn n l | _ => True end.
Proof.
  intros H. pose proof (clause_id_exact c) as (_ & _ & X). destruct (clauseid_new c) as [| |d]; auto. destruct (X d eq_refl) as (_ & Y & _).
  intros l Hl. apply H. apply Y. auto.
Qed.
Lemma litid_new_litn n l r p : N.to_nat l < n -> N.to_nat r < n -> litn n (litid_new l r p).
Proof. unfold litid_new, litn. destruct (N.leb l r); simpl; auto. Qed.
Lemma move_clause_moved n old new s c : new < n -> (forall l, In l c -> litn n l) -> cwf n s ->
  clauses_moved s (move_clause old new s c) /\ cwf n (move_clause old new s c).
Proof.
  intros Hn Hc C. unfold move_clause. set (c' := map _ c).
  assert (O : forall l, In l c' -> litn n l).
  { intros l Hl. apply in_map_iff in Hl. destruct Hl as (m & <- & Hm). destruct (Hc _ Hm) as [R1 R2].
    apply litid_new_litn; unfold remap_id; destruct (N.eqb _ _); auto; rewrite Nnat.Nat2N.id; auto. }
  apply clauseid_litn in O. destruct (clauseid_new c') as [| |d].
  - split; auto using moved_refl.
  - split; [constructor; auto; exists []; auto|]. destruct C; constructor; auto.
  - split; [apply moved_push|apply cwf_push; auto].
Qed.
End Closure.
