(** Lemmas about variable renumbering. *)
From Coq Require Import List Arith NArith Bool Lia.
Import ListNotations.
From Verif Require Import Term LocalContext Semantics TermProofs Kbo TermNorm Literal Clause ClauseSem.

Lemma position_some l : forall x p, position x l = Some p -> nth_error l p = Some x /\ p < length l.
Proof.
  induction l as [|y l IH]; simpl; intros x p; [discriminate|].
  destruct (Nat.eqb_spec y x) as [->|E].
  - intros H; injection H as <-. split; [reflexivity|lia].
  - destruct (position x l) as [q|] eqn:Eq; simpl; [|discriminate].
    intros H; injection H as <-. apply IH in Eq. destruct Eq. split; [assumption|lia].
Qed.
Lemma position_none l x : position x l = None <-> ~ In x l.
Proof.
  induction l as [|y l IH]; simpl; [tauto|].
  destruct (Nat.eqb_spec y x) as [->|E].
  - split; [discriminate|tauto].
  - destruct (position x l) as [q|]; simpl.
    + split; [discriminate|]. intros H. exfalso. assert (In x l -> False) by tauto. apply IH in H0. discriminate.
    + split; auto. intros _ [?|H]; [congruence|]. apply IH in H; auto.
Qed.
Lemma position_in_ex l x : In x l -> exists p, position x l = Some p.
Proof. intros H. destruct (position x l) eqn:E; eauto. apply position_none in E. tauto. Qed.
Lemma position_app l m x p : position x l = Some p -> position x (l ++ m) = Some p.
Proof.
  revert p. induction l as [|y l IH]; simpl; intros p; [discriminate|].
  destruct (Nat.eqb y x); auto.
  destruct (position x l); simpl; [|discriminate]. intros H; injection H as <-.
  rewrite (IH n); auto.
Qed.
Lemma position_nth l : NoDup l -> forall p x, nth_error l p = Some x -> position x l = Some p.
Proof.
  induction 1 as [|y l Hy Hl IH]; intros [|p] x; simpl; try discriminate.
  - intros H; injection H as ->. rewrite Nat.eqb_refl. reflexivity.
  - intros H. destruct (Nat.eqb_spec y x) as [->|E].
    + apply nth_error_In in H. tauto.
    + rewrite (IH _ _ H). reflexivity.
Qed.
Lemma position_app_r l m x : ~ In x l -> position x (l ++ m) = option_map (fun p => length l + p) (position x m).
Proof.
  induction l as [|y l IH]; simpl; intros H.
  - destruct (position x m); reflexivity.
  - destruct (Nat.eqb_spec y x) as [->|E]; [tauto|]. rewrite IH by tauto.
    destruct (position x m); reflexivity.
Qed.

Lemma existsb_in v l : existsb (Nat.eqb v) l = true <-> In v l.
Proof.
  rewrite existsb_exists. split.
  - intros (x & H & E). apply Nat.eqb_eq in E. subst; auto.
  - intros H. exists v. split; auto. apply Nat.eqb_refl.
Qed.
Lemma existsb_notin v l : existsb (Nat.eqb v) l = false <-> ~ In v l.
Proof. rewrite <- existsb_in. destruct (existsb (Nat.eqb v) l); split; congruence. Qed.

(** ** [add_var] *)

Definition deps (c : lctx) (v : nat) : list nat :=
  match get_var_type c v with Some T => vars T | None => [] end.

(** every listed variable comes after the variables of its type *)
Definition deps_first (c : lctx) (ids : list nat) : Prop :=
  forall p v, nth_error ids p = Some v -> forall d, In d (deps c v) ->
  exists q, q < p /\ nth_error ids q = Some d.

(** the listed variables are reached from [S] through types *)
Inductive reach (c : lctx) (S : nat -> Prop) : nat -> Prop :=
| reach_base v : S v -> reach c S v
| reach_step v d : reach c S v -> In d (deps c v) -> reach c S d.

Definition add_fold n c prog :=
  fold_left (fun o d => match o with
                        | None => None
                        | Some ids => add_var n c prog ids d
                        end).

Lemma add_fold_none n c prog l : add_fold n c prog l None = None.
Proof. induction l; simpl; auto. Qed.

Lemma deps_first_app c ids v : deps_first c ids -> (forall d, In d (deps c v) -> In d ids) ->
  deps_first c (ids ++ [v]).
Proof.
  intros H Hd p w E d Hin.
  destruct (Nat.lt_ge_cases p (length ids)) as [L|L].
  - rewrite nth_error_app1 in E by auto. destruct (H p w E d Hin) as (q & Hq & Eq).
    exists q. split; auto. rewrite nth_error_app1; auto. lia.
  - rewrite nth_error_app2 in E by auto.
    destruct (p - length ids) as [|k] eqn:Ek; simpl in E; [|destruct k; discriminate].
    injection E as <-. apply Hd in Hin. apply In_nth_error in Hin. destruct Hin as [q Hq].
    exists q. assert (q < length ids) by (apply nth_error_Some; congruence).
    split; [lia|]. rewrite nth_error_app1; auto.
Qed.

Lemma add_var_spec n : forall c prog ids v ids', add_var n c prog ids v = Some ids' ->
  (exists ext, ids' = ids ++ ext /\ forall x, In x ext -> reach c (eq v) x) /\ In v ids' /\
  (NoDup ids -> NoDup ids') /\ (deps_first c ids -> deps_first c ids') /\
  (forall x, In x ids' -> In x ids \/ ~ In x prog).
Proof.
  induction n as [|n IH]; intros c prog ids v ids'; cbn [add_var]; [discriminate|].
  destruct (existsb (Nat.eqb v) ids) eqn:E1.
  { intros H; injection H as <-. apply existsb_in in E1. repeat split; auto.
    exists []. rewrite app_nil_r. split; auto. simpl. tauto. }
  destruct (existsb (Nat.eqb v) prog) eqn:E2; [discriminate|].
  apply existsb_notin in E1, E2. fold (deps c v). fold (add_fold n c (v :: prog)).
  destruct (add_fold n c (v :: prog) (deps c v) (Some ids)) as [ids1|] eqn:E3; [|discriminate].
  intros H; injection H as <-.
  assert (G : forall l ids ids1, incl l (deps c v) -> add_fold n c (v :: prog) l (Some ids) = Some ids1 ->
    (exists ext, ids1 = ids ++ ext /\ forall x, In x ext -> reach c (eq v) x) /\ (forall d, In d l -> In d ids1) /\
    (NoDup ids -> NoDup ids1) /\ (deps_first c ids -> deps_first c ids1) /\
    (forall x, In x ids1 -> In x ids \/ ~ In x (v :: prog))).
  { clear -IH. induction l as [|d l IHl]; intros ids ids1 Hi H; cbn [add_fold fold_left] in H.
    - injection H as <-. split; [exists []; rewrite app_nil_r; split; auto; simpl; tauto|].
      repeat split; auto. simpl; tauto.
    - destruct (add_var n c (v :: prog) ids d) as [ids2|] eqn:E.
      2: { fold (add_fold n c (v :: prog)) in H. rewrite add_fold_none in H. discriminate. }
      apply IH in E. destruct E as ((e1 & -> & R1) & I1 & N1 & D1 & P1).
      apply IHl in H; [|intros x Hx; apply Hi; right; auto].
      destruct H as ((e2 & -> & R2) & I2 & N2 & D2 & P2).
      assert (Hd : In d (deps c v)) by (apply Hi; left; auto).
      repeat split; auto.
      + exists (e1 ++ e2). rewrite app_assoc. split; auto. intros x Hx. apply in_app_or in Hx. destruct Hx; auto.
        specialize (R1 x H). clear -R1 Hd. induction R1; subst.
        * eapply reach_step; eauto. apply reach_base; auto.
        * eapply reach_step; eauto.
      + intros x [<-|Hx]; auto. apply in_or_app. auto.
      + intros x Hx. apply P2 in Hx. destruct Hx as [Hx|Hx]; auto. }
  apply G in E3; [|apply incl_refl]. destruct E3 as ((ext & -> & R) & I1 & N1 & D1 & P1). repeat split.
  - exists (ext ++ [v]). rewrite app_assoc. split; auto. intros x Hx. apply in_app_or in Hx.
    destruct Hx as [Hx|[<-|[]]]; auto. apply reach_base; auto.
  - apply in_or_app; right; left; auto.
  - intros H. apply N1 in H.
    assert (Hv : ~ In v (ids ++ ext)).
    { intros Hin. apply P1 in Hin. destruct Hin as [Hin|Hin]; [tauto|]. apply Hin. left; auto. }
    assert (G2 : NoDup ([v] ++ (ids ++ ext))) by (constructor; auto).
    apply NoDup_rev in G2. simpl in G2. rewrite <- (rev_involutive ((ids ++ ext) ++ [v])).
    apply NoDup_rev. rewrite rev_app_distr. simpl. constructor.
    + rewrite <- in_rev. auto.
    + apply NoDup_rev; auto.
  - intros H. apply deps_first_app; auto.
  - intros x Hx. apply in_app_or in Hx. destruct Hx as [Hx|[<-|[]]]; auto.
    apply P1 in Hx. simpl in Hx. tauto.
Qed.

(** Acyclic types: the dependency relation has a rank. *)
Definition acyclic (c : lctx) : Prop :=
  exists rank : nat -> nat, forall v d, In d (deps c v) -> rank d < rank v.

Lemma typed_lt c v d : In d (deps c v) -> v < length c.
Proof.
  unfold deps, get_var_type. destruct (nth_error c v) eqn:E; [|simpl; tauto].
  intros _. apply nth_error_Some. congruence.
Qed.

Lemma add_var_total c : acyclic c -> forall n prog ids v,
  NoDup prog -> (forall x, In x prog -> x < length c) ->
  (forall rank, (forall v d, In d (deps c v) -> rank d < rank v) -> forall x, In x prog -> rank v < rank x) ->
  n + length prog = add_fuel c -> exists ids', add_var n c prog ids v = Some ids'.
Proof.
  intros [rank Hr]. induction n as [|n IH]; intros prog ids v Hn Hl Hrk Hf.
  - exfalso. assert (length prog <= length c).
    { rewrite <- (seq_length (length c) 0). apply NoDup_incl_length; auto.
      intros x Hx. apply in_seq. specialize (Hl x Hx). lia. }
    unfold add_fuel in Hf. lia.
  - cbn [add_var]. destruct (existsb (Nat.eqb v) ids) eqn:E1; eauto.
    destruct (existsb (Nat.eqb v) prog) eqn:E2.
    { apply existsb_in in E2. apply (Hrk rank Hr) in E2. lia. }
    apply existsb_notin in E2. fold (deps c v).
    assert (G : forall l ids, incl l (deps c v) -> exists ids1,
      fold_left (fun o d => match o with
                            | None => None
                            | Some ids => add_var n c (v :: prog) ids d
                            end) l (Some ids) = Some ids1).
    { induction l as [|d l IHl]; intros ids0 Hi; simpl; eauto.
      destruct (IH (v :: prog) ids0 d) as [ids1 E].
      - constructor; auto.
      - intros x [<-|Hx]; auto. eapply typed_lt. apply Hi; left; reflexivity.
      - intros rk Hrk' x Hx. assert (rk d < rk v) by (apply Hrk', Hi; left; auto).
        destruct Hx as [<-|Hx]; auto. specialize (Hrk rk Hrk' x Hx). lia.
      - simpl. lia.
      - rewrite E. apply IHl. intros x Hx; apply Hi; right; auto. }
    destruct (G (deps c v) ids (incl_refl _)) as [ids1 ->]. eauto.
Qed.

(** ** terms *)

Lemma renumber_app_l ids ext t : forall t', renumber_variables ids t = Some t' ->
  renumber_variables (ids ++ ext) t = Some t'.
Proof.
  induction t as [[i|i|s]|f IHf a IHa|k A IHA b IHb]; simpl; intros t' H; auto.
  - destruct (position i ids) eqn:E; simpl in H; [|discriminate].
    rewrite (position_app _ _ _ _ E). auto.
  - destruct (renumber_variables ids f); [|discriminate]. destruct (renumber_variables ids a); [|discriminate].
    rewrite (IHf _ eq_refl), (IHa _ eq_refl). auto.
  - destruct (renumber_variables ids A); [|discriminate]. destruct (renumber_variables ids b); [|discriminate].
    rewrite (IHA _ eq_refl), (IHb _ eq_refl). auto.
Qed.

Lemma renumber_total ids t : (forall v, In v (vars t) -> In v ids) -> exists t', renumber_variables ids t = Some t'.
Proof.
  induction t as [[i|i|s]|f IHf a IHa|k A IHA b IHb]; simpl; intros H; eauto.
  - destruct (position_in_ex ids i) as [p E]; [apply H; simpl; auto|]. rewrite E. simpl; eauto.
  - rewrite vars_app in H. destruct IHf as [f' ->]; [intros; apply H, in_or_app; auto|].
    destruct IHa as [a' ->]; [intros; apply H, in_or_app; auto|]. eauto.
  - rewrite vars_bind in H. destruct IHA as [f' ->]; [intros; apply H, in_or_app; auto|].
    destruct IHb as [a' ->]; [intros; apply H, in_or_app; auto|]. eauto.
Qed.

Lemma renumber_vars ids t : forall t', renumber_variables ids t = Some t' ->
  (forall v, In v (vars t) -> In v ids) /\
  forall p, In p (vars t') -> exists v, nth_error ids p = Some v /\ In v (vars t).
Proof.
  induction t as [[i|i|s]|f IHf a IHa|k A IHA b IHb]; simpl; intros t' H.
  - destruct (position i ids) eqn:E; simpl in H; [|discriminate]. injection H as <-.
    apply position_some in E. destruct E as [E _]. split.
    + intros v [<-|[]]. eapply nth_error_In; eauto.
    + intros p [<-|[]]. exists i. split; auto.
  - injection H as <-. split; simpl; tauto.
  - injection H as <-. split; simpl; tauto.
  - destruct (renumber_variables ids f) as [f'|]; [|discriminate].
    destruct (renumber_variables ids a) as [a'|]; [|discriminate]. injection H as <-.
    destruct (IHf _ eq_refl) as [I1 J1], (IHa _ eq_refl) as [I2 J2]. rewrite !vars_app. split.
    + intros v Hv. apply in_app_or in Hv. destruct Hv; auto.
    + intros p Hp. apply in_app_or in Hp. destruct Hp as [Hp|Hp]; [apply J1 in Hp|apply J2 in Hp];
        destruct Hp as (v & ? & ?); exists v; split; auto; apply in_or_app; auto.
  - destruct (renumber_variables ids A) as [f'|]; [|discriminate].
    destruct (renumber_variables ids b) as [a'|]; [|discriminate]. injection H as <-.
    destruct (IHA _ eq_refl) as [I1 J1], (IHb _ eq_refl) as [I2 J2]. rewrite !vars_bind. split.
    + intros v Hv. apply in_app_or in Hv. destruct Hv; auto.
    + intros p Hp. apply in_app_or in Hp. destruct Hp as [Hp|Hp]; [apply J1 in Hp|apply J2 in Hp];
        destruct Hp as (v & ? & ?); exists v; split; auto; apply in_or_app; auto.
Qed.

(** What one renumbering pass guarantees about the variable list. *)
Definition grows (c : lctx) (S : nat -> Prop) (ids ids' : list nat) : Prop :=
  (exists ext, ids' = ids ++ ext /\ forall x, In x ext -> reach c S x) /\
  (NoDup ids -> NoDup ids') /\ (deps_first c ids -> deps_first c ids').

Lemma reach_mono c (S1 S2 : nat -> Prop) : (forall v, S1 v -> S2 v) -> forall v, reach c S1 v -> reach c S2 v.
Proof. intros H v R. induction R; [apply reach_base; auto|eapply reach_step; eauto]. Qed.

Lemma grows_refl c S ids : grows c S ids ids.
Proof. repeat split; auto. exists []. rewrite app_nil_r. split; auto. simpl; tauto. Qed.
Lemma grows_trans c (S1 S2 S : nat -> Prop) i1 i2 i3 : (forall v, S1 v -> S v) -> (forall v, S2 v -> S v) ->
  grows c S1 i1 i2 -> grows c S2 i2 i3 -> grows c S i1 i3.
Proof.
  intros H1 H2 ((e1 & -> & R1) & N1 & D1) ((e2 & -> & R2) & N2 & D2). repeat split; auto.
  exists (e1 ++ e2). rewrite app_assoc. split; auto. intros x Hx. apply in_app_or in Hx. destruct Hx as [Hx|Hx].
  - eapply reach_mono; [exact H1|auto].
  - eapply reach_mono; [exact H2|auto].
Qed.

Lemma normalize_var_ids_spec c t : forall ids t' ids', normalize_var_ids c ids t = Some (t', ids') ->
  grows c (fun v => In v (vars t)) ids ids' /\ renumber_variables ids' t = Some t'.
Proof.
  induction t as [[i|i|s]|f IHf a IHa|k A IHA b IHb]; intros ids t' ids'; cbn [normalize_var_ids renumber_variables].
  - destruct (add_var (add_fuel c) c [] ids i) as [ids1|] eqn:E; [|discriminate].
    destruct (position i ids1) as [p|] eqn:Ep; simpl; [|discriminate].
    intros H; injection H as <- <-. rewrite Ep. split; auto.
    apply add_var_spec in E. destruct E as ((ext & Ee & R) & _ & N & Dd & _).
    split; [|split; auto]. exists ext. split; auto. intros x Hx. eapply reach_mono; [|apply R, Hx].
    intros v <-. simpl; auto.
  - intros H; injection H as <- <-. split; auto. apply grows_refl.
  - intros H; injection H as <- <-. split; auto. apply grows_refl.
  - destruct (normalize_var_ids c ids f) as [[f' ids1]|] eqn:E1; [|discriminate].
    destruct (normalize_var_ids c ids1 a) as [[a' ids2]|] eqn:E2; [|discriminate].
    intros H; injection H as <- <-. apply IHf in E1. apply IHa in E2.
    destruct E1 as [G1 R1], E2 as [G2 R2]. split.
    + eapply grows_trans; [| |exact G1|exact G2]; intros v Hv; rewrite vars_app; apply in_or_app; auto.
    + destruct G2 as ((e & -> & _) & _). rewrite (renumber_app_l _ e _ _ R1), R2. reflexivity.
  - destruct (normalize_var_ids c ids A) as [[f' ids1]|] eqn:E1; [|discriminate].
    destruct (normalize_var_ids c ids1 b) as [[a' ids2]|] eqn:E2; [|discriminate].
    intros H; injection H as <- <-. apply IHA in E1. apply IHb in E2.
    destruct E1 as [G1 R1], E2 as [G2 R2]. split.
    + eapply grows_trans; [| |exact G1|exact G2]; intros v Hv; rewrite vars_bind; apply in_or_app; auto.
    + destruct G2 as ((e & -> & _) & _). rewrite (renumber_app_l _ e _ _ R1), R2. reflexivity.
Qed.

Lemma normalize_var_ids_total c t : acyclic c -> forall ids, exists r, normalize_var_ids c ids t = Some r.
Proof.
  intros Hc. induction t as [[i|i|s]|f IHf a IHa|k A IHA b IHb]; intros ids; cbn [normalize_var_ids]; eauto.
  - destruct (add_var_total c Hc (add_fuel c) [] ids i) as [ids1 E].
    + constructor.
    + intros x [].
    + intros rk _ x [].
    + unfold add_fuel. simpl. lia.
    + rewrite E. apply add_var_spec in E. destruct E as (_ & Hi & _).
      destruct (position_in_ex _ _ Hi) as [p ->]. simpl. eauto.
  - destruct (IHf ids) as [[f' i1] ->]. destruct (IHa i1) as [[a' i2] ->]. eauto.
  - destruct (IHA ids) as [[f' i1] ->]. destruct (IHb i1) as [[a' i2] ->]. eauto.
Qed.

(** ** meaning *)
Section Meaning.
Context (M : Model).

Definition follows (ids : list nat) (rho rho' : nat -> D M) : Prop :=
  forall p v, nth_error ids p = Some v -> rho' p = rho v.

Lemma eval_renumber ids rho rho' t : follows ids rho rho' -> forall t' bs,
  renumber_variables ids t = Some t' -> eval M rho' bs t' = eval M rho bs t.
Proof.
  intros Hf. induction t as [[i|i|s]|f IHf a IHa|k A IHA b IHb]; simpl; intros t' bs H.
  - destruct (position i ids) eqn:E; simpl in H; [|discriminate]. injection H as <-.
    apply position_some in E. simpl. apply Hf, E.
  - injection H as <-. reflexivity.
  - injection H as <-. reflexivity.
  - destruct (renumber_variables ids f) as [f'|]; [|discriminate].
    destruct (renumber_variables ids a) as [a'|]; [|discriminate]. injection H as <-.
    simpl. rewrite (IHf _ _ eq_refl), (IHa _ _ eq_refl). reflexivity.
  - destruct (renumber_variables ids A) as [f'|]; [|discriminate].
    destruct (renumber_variables ids b) as [a'|]; [|discriminate]. injection H as <-.
    simpl. rewrite (IHA _ _ eq_refl). apply bind_ext. intros x _. apply IHb; auto.
Qed.

Lemma swt_renumber (P : D M -> Prop) ids rho rho' t : follows ids rho rho' -> forall t' bs,
  renumber_variables ids t = Some t' -> (swtg M P rho' bs t' <-> swtg M P rho bs t).
Proof.
  intros Hf. induction t as [[i|i|s]|f IHf a IHa|k A IHA b IHb]; intros t' bs H; simpl in H.
  - destruct (position i ids); simpl in H; [|discriminate]. injection H as <-. simpl. tauto.
  - injection H as <-. tauto.
  - injection H as <-. tauto.
  - destruct (renumber_variables ids f) as [f'|] eqn:E1; [|discriminate].
    destruct (renumber_variables ids a) as [a'|] eqn:E2; [|discriminate]. injection H as <-.
    simpl. rewrite (IHf _ bs eq_refl), (IHa _ bs eq_refl), (eval_renumber _ _ _ _ Hf _ bs E1),
      (eval_renumber _ _ _ _ Hf _ bs E2). tauto.
  - destruct (renumber_variables ids A) as [f'|] eqn:E1; [|discriminate].
    destruct (renumber_variables ids b) as [a'|] eqn:E2; [|discriminate]. injection H as <-.
    simpl. rewrite (IHA _ bs eq_refl), (eval_renumber _ _ _ _ Hf _ bs E1).
    split; intros (H1 & H2 & H3); (split; [exact H1|split; [exact H2|]]); intros x Hx;
      specialize (H3 x Hx); destruct H3 as [H3 H4];
      rewrite (eval_renumber _ _ _ _ Hf _ (scons x bs) E2) in *; (split; [|exact H4]);
      apply (IHb _ (scons x bs) eq_refl); exact H3.
Qed.

(** The renumbered context asks of the renumbered variables what the old one asks of the old. *)
Lemma remap_get c ids c' : remap c ids = Some c' ->
  length c' = length ids /\ forall p v, nth_error ids p = Some v ->
    exists T T', get_var_type c v = Some T /\ renumber_variables ids T = Some T' /\ get_var_type c' p = Some T'.
Proof.
  unfold remap.
  enough (G : forall all todo c', remap_from c all todo = Some c' ->
    length c' = length todo /\ forall p v, nth_error todo p = Some v ->
    exists T T', get_var_type c v = Some T /\ renumber_variables all T = Some T' /\ get_var_type c' p = Some T')
    by (apply G).
  clear. intros all. induction todo as [|id r IH]; simpl; intros c' H.
  - injection H as <-. split; auto. intros [|p]; discriminate.
  - destruct (get_var_type c id) as [T|] eqn:E1; [|discriminate].
    destruct (renumber_variables all T) as [T'|] eqn:E2; [|discriminate].
    destruct (remap_from c all r) as [rest|] eqn:E3; [|discriminate]. injection H as <-.
    destruct (IH _ eq_refl) as [L G]. split; [simpl; auto|].
    intros [|p] v Hv; simpl in *.
    + injection Hv as <-. exists T, T'. auto.
    + apply G in Hv. destruct Hv as (U & U' & ? & ? & ?). exists U, U'. auto.
Qed.

Lemma valid_remap c ids c' rho rho' : remap c ids = Some c' -> follows ids rho rho' ->
  (valid_env M c' rho' <-> forall v T, In v ids -> get_var_type c v = Some T -> mem M (rho v) (ev M rho T)).
Proof.
  intros Hr Hf. destruct (remap_get _ _ _ Hr) as [L G]. split.
  - intros Hv v T Hi HT. apply In_nth_error in Hi. destruct Hi as [p Hp].
    destruct (G p v Hp) as (T0 & T' & E1 & E2 & E3). rewrite HT in E1. injection E1 as <-.
    apply Hv in E3. rewrite (Hf _ _ Hp) in E3.
    unfold ev in *. rewrite (eval_renumber _ _ _ _ Hf _ _ E2) in E3. exact E3.
  - intros H p T' HT'.
    assert (Hp : p < length ids).
    { rewrite <- L. apply nth_error_Some. unfold get_var_type in HT'. destruct (nth_error c' p); congruence. }
    apply nth_error_Some in Hp. destruct (nth_error ids p) as [v|] eqn:Ev; [|congruence].
    destruct (G p v Ev) as (T0 & T1 & E1 & E2 & E3). rewrite E3 in HT'. injection HT' as ->.
    rewrite (Hf _ _ Ev). unfold ev. rewrite (eval_renumber _ _ _ _ Hf _ _ E2).
    apply H; auto. eapply nth_error_In; eauto.
Qed.

End Meaning.

(** remap succeeds when every listed variable has a type whose variables are listed *)
Lemma remap_total c ids :
  (forall v, In v ids -> exists T, get_var_type c v = Some T /\ forall d, In d (vars T) -> In d ids) ->
  exists c', remap c ids = Some c'.
Proof.
  unfold remap. intros H.
  assert (G : forall todo, incl todo ids -> exists c', remap_from c ids todo = Some c').
  { induction todo as [|v r IH]; simpl; intros Hi; eauto.
    destruct (H v (Hi v (or_introl eq_refl))) as (T & -> & Hd).
    destruct (renumber_total ids T Hd) as [T' ->].
    destruct IH as [c' ->]; [intros x Hx; apply Hi; right; auto|]. eauto. }
  apply G, incl_refl.
Qed.

(** the renumbered context is well ordered when dependencies come first *)
Lemma list_max_le l n : (forall x, In x l -> x < n) -> list_max (map S l) <= n.
Proof.
  induction l as [|x l IH]; intros H; [simpl; lia|].
  change (list_max (map S (x :: l))) with (Nat.max (S x) (list_max (map S l))).
  apply Nat.max_lub; [specialize (H x); simpl in H; lia|]. apply IH. intros y Hy. apply H; right; auto.
Qed.
Lemma remap_ordered c ids c' : NoDup ids -> deps_first c ids -> remap c ids = Some c' ->
  validate_variable_ordering c' = true.
Proof.
  intros Hn Hd Hr. destruct (remap_get _ _ _ Hr) as [L G].
  assert (Q : forall p T', nth_error c' p = Some (Some T') -> least_unused T' <= p).
  { intros p T' E.
    assert (Hp : p < length ids) by (rewrite <- L; apply nth_error_Some; congruence).
    apply nth_error_Some in Hp. destruct (nth_error ids p) as [v|] eqn:Ev; [|congruence].
    destruct (G p v Ev) as (T & T1 & E1 & E2 & E3). unfold get_var_type in E3. rewrite E in E3.
    injection E3 as <-. unfold least_unused. apply list_max_le. intros q Hq.
    destruct (renumber_vars _ _ _ E2) as [_ J]. destruct (J q Hq) as (w & Hw & Hi).
    destruct (Hd p v Ev w) as (q' & Hq' & Ew); [unfold deps; rewrite E1; auto|].
    assert (q = q'); [|lia]. eapply (proj1 (NoDup_nth_error ids) Hn); [apply nth_error_Some; congruence|congruence]. }
  clear -Q. unfold validate_variable_ordering.
  assert (W : forall l i, (forall p T', nth_error l p = Some (Some T') -> least_unused T' <= i + p) -> ordering_from i l = true).
  { induction l as [|[T|] l IH]; simpl; intros i H; auto.
    - rewrite IH.
      + pose proof (H 0 T eq_refl). apply andb_true_iff. split; auto. apply Nat.leb_le. lia.
      + intros p T' E. specialize (H (S p) T' E). lia.
    - apply IH. intros p T' E. specialize (H (S p) T' E). lia. }
  apply W. simpl. auto.
Qed.
