(** Lemmas about clause normalization. *)
From Coq Require Import List Arith NArith Bool Lia Permutation.
Import ListNotations.
From Verif Require Import Term LocalContext Semantics TermProofs SemFacts FlatTerm Kbo TermNorm TermNormProofs
  Literal Clause ClauseSem RenumberProofs.

(** ** sorting and deduplicating *)
Section SortFacts.
Context {A : Type} (cmp : A -> A -> comparison).
Lemma insert_perm x l : Permutation (x :: l) (insert cmp x l).
Proof.
  induction l as [|y l IH]; simpl; auto. destruct (cmp x y); auto.
  rewrite perm_swap. constructor. exact IH.
Qed.
Lemma sort_perm l : Permutation l (sort cmp l).
Proof. induction l as [|x l IH]; simpl; auto. rewrite <- insert_perm. constructor; auto. Qed.
Lemma sort_in l x : In x (sort cmp l) <-> In x l.
Proof. split; apply Permutation_in; [apply Permutation_sym|]; apply sort_perm. Qed.
Lemma sort_length l : length (sort cmp l) = length l.
Proof. symmetry. apply Permutation_length, sort_perm. Qed.
End SortFacts.

Lemma literal_eqb_eq a b : literal_eqb a b = true <-> a = b.
Proof. unfold literal_eqb. destruct literal_eq_dec; split; congruence. Qed.

Lemma dedup_in l x : In x (dedup_literals l) <-> In x l.
Proof.
  unfold dedup_literals. destruct l as [|y l]; simpl; [tauto|].
  assert (H : forall l y, In x (y :: dedup_from literal_eqb y l) <-> In x (y :: l)).
  { clear. induction l as [|z l IH]; intros y; simpl; [tauto|].
    destruct (literal_eqb z y) eqn:E.
    - apply literal_eqb_eq in E. subst. rewrite (IH y). simpl. tauto.
    - specialize (IH z). simpl in *. tauto. }
  apply (H l y).
Qed.

Section Meaning.
Context (M : Model).
Local Notation D := (D M).
Implicit Types rho : nat -> D.

Lemma lit_new_holds rho pos a b : lit_holds M rho (lit_new pos a b) <-> lit_holds M rho (Lit pos a b).
Proof.
  unfold lit_new, lit_new_with_flip, lit_holds. destruct (needs_to_flip a b); simpl; [|tauto].
  destruct pos; split; intros H; auto; intros E; apply H; auto.
Qed.
Lemma lit_new_wt rho pos a b : lit_wt M rho (lit_new pos a b) <-> wt M rho a /\ wt M rho b.
Proof.
  unfold lit_new, lit_new_with_flip, lit_wt. destruct (needs_to_flip a b); simpl; tauto.
Qed.

Lemma clause_split_some t s n l : clause_split t s n = Some l -> t = fold_left TApp l (TSym s) /\ length l = n.
Proof.
  unfold clause_split. destruct (is_app t); simpl; [|discriminate].
  destruct (Nat.eqb_spec (length (args t)) n) as [E|E]; simpl; [|discriminate].
  destruct (term_eqb (spine_head t) (TSym s)) eqn:Es; [|discriminate].
  apply term_eqb_eq in Es. intros H; injection H as <-. split; auto.
  rewrite <- Es. apply spine_eq.
Qed.

Lemma normalize_literal_sound rho l : lit_wt M rho l ->
  lit_wt M rho (normalize_literal l) /\ (lit_holds M rho (normalize_literal l) <-> lit_holds M rho l).
Proof.
  intros [W1 W2]. unfold normalize_literal.
  destruct (clause_term_sound M (anydom M) (right l) rho (nobs M) W2) as [V2 E2].
  destruct (is_true (normalize_clause_term (right l))) eqn:Et.
  - apply (is_true_eq M (anydom M) rho (nobs M)) in Et; auto. rewrite Et in E2.
    pose proof (signed_clause_term_sound M (anydom M) (left l) (positive l) rho (nobs M) W1) as Hs.
    cbv zeta in Hs. destruct (normalize_signed_clause_term (left l) (positive l)) as [a pos].
    destruct Hs as [Va Ea]. simpl in Va, Ea.
    assert (Hl : lit_holds M rho l <-> (if pos then eval M rho (nobs M) a = dsym M STrue
                                        else eval M rho (nobs M) a <> dsym M STrue)).
    { rewrite Ea. unfold lit_holds, ev. rewrite <- E2. simpl. destruct (positive l); tauto. }
    assert (Hd : lit_wt M rho (from_signed_term a pos) /\ (lit_holds M rho (from_signed_term a pos) <-> lit_holds M rho l)).
    { unfold from_signed_term. rewrite lit_new_wt, lit_new_holds. split; [split; [exact Va|exact I]|].
      rewrite Hl. unfold lit_holds. simpl. tauto. }
    destruct (clause_split a SEq 3) as [[|T [|x [|y [|? ?]]]]|] eqn:Es; auto.
    apply clause_split_some in Es. destruct Es as [-> _].
    change (fold_left TApp [T; x; y] (TSym SEq)) with (teq T x y) in *.
    rewrite lit_new_wt, lit_new_holds. rewrite Hl.
    pose proof Va as Va'. apply swt_eq in Va'. destruct Va' as (? & ? & ? & ? & ? & ?).
    split; [split; assumption|]. unfold lit_holds, ev. cbn [positive left right].
    pose proof (eq_true M (anydom M) rho (nobs M) T x y Va) as Et'. destruct pos; rewrite Et'; tauto.
  - rewrite lit_new_wt, lit_new_holds.
    destruct (clause_term_sound M (anydom M) (left l) rho (nobs M) W1) as [V1 E1].
    split; [split; assumption|]. unfold lit_holds, ev. cbn [positive left right]. rewrite E1, E2. tauto.
Qed.

Lemma impossible_false rho l : lit_is_impossible l = true -> ~ lit_holds M rho l.
Proof.
  unfold lit_is_impossible, lit_holds. rewrite andb_true_iff. intros [H1 H2].
  apply term_eqb_eq in H2. destruct (positive l); [discriminate|]. rewrite H2. auto.
Qed.

Lemma normalize_literals_sound rho ls : (forall l, In l ls -> lit_wt M rho l) ->
  (forall l, In l (normalize_literals ls) -> lit_wt M rho l) /\
  (cholds M rho (normalize_literals ls) <-> cholds M rho ls).
Proof.
  intros Hw. unfold normalize_literals, cholds. split.
  - intros l Hl. rewrite dedup_in in Hl. unfold sort_literals in Hl. rewrite sort_in, filter_In, in_map_iff in Hl.
    destruct Hl as ((x & <- & Hx) & _). apply normalize_literal_sound; auto.
  - split.
    + intros (l & Hl & Hh). rewrite dedup_in in Hl. unfold sort_literals in Hl. rewrite sort_in, filter_In, in_map_iff in Hl.
      destruct Hl as ((x & <- & Hx) & _). exists x. split; auto. apply (normalize_literal_sound rho x); auto.
    + intros (x & Hx & Hh). exists (normalize_literal x).
      assert (Hn : lit_holds M rho (normalize_literal x)) by (apply (normalize_literal_sound rho x); auto).
      split; auto. rewrite dedup_in. unfold sort_literals. rewrite sort_in, filter_In. split; [apply in_map; auto|].
      apply negb_true_iff. destruct (is_droppable_impossible_literal (normalize_literal x)) eqn:E; auto.
      exfalso. unfold is_droppable_impossible_literal in E. apply andb_true_iff in E. destruct E as [E _].
      eapply impossible_false; eauto.
Qed.
End Meaning.

(** ** renumbering a list of literals *)
Definition lit_vars (l : literal) : list nat := vars (left l) ++ vars (right l).

Definition renumbered (ids : list nat) (l l' : literal) : Prop :=
  exists a b, renumber_variables ids (left l) = Some a /\ renumber_variables ids (right l) = Some b /\
    l' = lit_new (positive l) a b.

Lemma renumber_literals_spec c ls : forall ids ls' ids', renumber_literals c ids ls = Some (ls', ids') ->
  grows c (fun v => exists l, In l ls /\ In v (lit_vars l)) ids ids' /\ Forall2 (renumbered ids') ls ls'.
Proof.
  induction ls as [|l ls IH]; intros ids ls' ids'; simpl.
  - intros H; injection H as <- <-. split; [apply grows_refl|constructor].
  - unfold lit_normalize_var_ids.
    destruct (normalize_var_ids c ids (left l)) as [[a ids1]|] eqn:E1; [|discriminate].
    destruct (normalize_var_ids c ids1 (right l)) as [[b ids2]|] eqn:E2; [|discriminate].
    destruct (lit_new_with_flip (positive l) a b) as [l' fl] eqn:El.
    destruct (renumber_literals c ids2 ls) as [[r' ids3]|] eqn:E3; [|discriminate].
    intros H; injection H as <- <-.
    apply normalize_var_ids_spec in E1, E2. apply IH in E3.
    destruct E1 as [G1 R1], E2 as [G2 R2], E3 as [G3 R3]. split.
    + eapply grows_trans; [| |eapply grows_trans; [| |exact G1|exact G2]|exact G3];
        [intros v Hv; exact Hv| | |]; cbv beta.
      * intros v (l0 & ? & ?). exists l0. simpl; auto.
      * intros v Hv. exists l. split; [left; auto|]. unfold lit_vars. apply in_or_app; auto.
      * intros v Hv. exists l. split; [left; auto|]. unfold lit_vars. apply in_or_app; auto.
    + constructor; auto. exists a, b.
      destruct G2 as ((e2 & -> & _) & _), G3 as ((e3 & -> & _) & _).
      rewrite (renumber_app_l _ e3 _ _ R2). rewrite (renumber_app_l _ e3 _ _ (renumber_app_l _ e2 _ _ R1)).
      repeat split; auto. unfold lit_new. rewrite El. reflexivity.
Qed.

Section Renumbered.
Context (M : Model).

Lemma renumbered_sound ids rho rho' l l' : follows M ids rho rho' -> renumbered ids l l' ->
  (lit_wt M rho' l' <-> lit_wt M rho l) /\ (lit_holds M rho' l' <-> lit_holds M rho l).
Proof.
  intros Hf (a & b & Ha & Hb & ->). rewrite lit_new_wt, lit_new_holds.
  unfold lit_wt, wt, swt, lit_holds, ev. cbn [positive left right].
  rewrite (swt_renumber M _ _ _ _ _ Hf _ _ Ha), (swt_renumber M _ _ _ _ _ Hf _ _ Hb).
  rewrite (eval_renumber M _ _ _ _ Hf _ _ Ha), (eval_renumber M _ _ _ _ Hf _ _ Hb). tauto.
Qed.

Lemma renumbered_list_sound ids rho rho' ls ls' : follows M ids rho rho' -> Forall2 (renumbered ids) ls ls' ->
  ((forall l, In l ls -> lit_wt M rho l) <-> (forall l, In l ls' -> lit_wt M rho' l)) /\
  (cholds M rho' ls' <-> cholds M rho ls).
Proof.
  intros Hf H. induction H as [|l l' ls ls' Hl H IH].
  - split; [simpl; tauto|]. unfold cholds. split; intros (? & [] & _).
  - destruct (renumbered_sound _ _ _ _ _ Hf Hl) as [W1 H1]. destruct IH as [W2 H2]. split.
    + split; intros Hw x [<-|Hx].
      * apply W1, Hw. left; auto.
      * apply W2; auto. intros y Hy. apply Hw; right; auto.
      * apply W1, Hw. left; auto.
      * apply W2; auto. intros y Hy. apply Hw; right; auto.
    + unfold cholds in *. split; intros (x & [<-|Hx] & Hh).
      * exists l. split; [left; auto|]. apply H1; auto.
      * destruct H2 as [H2 _]. destruct H2 as (y & Hy & Hy'); [eauto|]. exists y. split; [right; auto|auto].
      * exists l'. split; [left; auto|]. apply H1; auto.
      * destruct H2 as [_ H2]. destruct H2 as (y & Hy & Hy'); [eauto|]. exists y. split; [right; auto|auto].
Qed.
End Renumbered.

(** What a normalization pass from clause [c] to clause [c'] guarantees, [ids] being the old names of
    the new variables. *)
Record faithful (c c' : clause) (ids : list nat) : Prop := {
  f_nodup : NoDup ids;
  f_len : length (context c') = length ids;
  f_typed : forall v, In v ids -> exists T, get_var_type (context c) v = Some T /\ forall d, In d (vars T) -> In d ids;
  f_env : forall (M : Model) rho rho', follows M ids rho rho' ->
    (valid_env M (context c') rho' <->
     forall v T, In v ids -> get_var_type (context c) v = Some T -> mem M (rho v) (ev M rho T));
  f_lits : forall (M : Model) rho rho', follows M ids rho rho' ->
    (forall l, In l (literals c) -> lit_wt M rho l) ->
    (forall l, In l (literals c') -> lit_wt M rho' l) /\
    (cholds M rho' (literals c') <-> cholds M rho (literals c))
}.

Lemma remap_typed c ids c' : remap c ids = Some c' ->
  forall v, In v ids -> exists T, get_var_type c v = Some T /\ forall d, In d (vars T) -> In d ids.
Proof.
  intros H v Hv. destruct (remap_get _ _ _ H) as [_ G]. apply In_nth_error in Hv. destruct Hv as [p Hp].
  destruct (G p v Hp) as (T & T' & E1 & E2 & _). exists T. split; auto.
  apply (renumber_vars _ _ _ E2).
Qed.

Lemma pinned_pass pinned c c' ids : normalize_var_ids_with_pinned pinned c = Some (c', ids) -> faithful c c' ids.
Proof.
  unfold normalize_var_ids_with_pinned.
  destruct (renumber_literals (context c) (seq 0 pinned) (literals c)) as [[lits i]|] eqn:E; [|discriminate].
  destruct (remap (context c) i) as [c1|] eqn:Er; simpl; [|discriminate].
  intros H; injection H as <- <-. apply renumber_literals_spec in E. destruct E as [(_ & N & _) R].
  constructor; cbn [literals context].
  - apply N, seq_NoDup.
  - apply (proj1 (remap_get _ _ _ Er)).
  - apply (remap_typed _ _ _ Er).
  - intros M rho rho' Hf. apply valid_remap; auto.
  - intros M rho rho' Hf Hw. destruct (renumbered_list_sound M _ _ _ _ _ Hf R) as [W Hh]. split; auto. apply W, Hw.
Qed.

Lemma faithful_change c c' ids ls : faithful c c' ids ->
  (forall (M : Model) rho, (forall l, In l ls -> lit_wt M rho l) ->
     (forall l, In l (literals c) -> lit_wt M rho l) /\ (cholds M rho (literals c) <-> cholds M rho ls)) ->
  faithful (Clause ls (context c)) c' ids.
Proof.
  intros [F1 F2 F3 F4 F5] H. constructor; auto. cbn [literals].
  intros M rho rho' Hf Hw. destruct (H M rho Hw) as [W Hh]. destruct (F5 M rho rho' Hf W) as [W' Hh'].
  split; auto. rewrite Hh'. exact Hh.
Qed.
Lemma faithful_post c c' ids ls : faithful c c' ids -> (forall l, In l ls <-> In l (literals c')) ->
  faithful c (Clause ls (context c')) ids.
Proof.
  intros [F1 F2 F3 F4 F5] H. constructor; auto. cbn [literals].
  intros M rho rho' Hf Hw. destruct (F5 M rho rho' Hf Hw) as [W' Hh']. split.
  - intros l Hl. apply W', H, Hl.
  - rewrite <- Hh'. unfold cholds. split; intros (l & ? & ?); exists l; split; auto; apply H; auto.
Qed.

Lemma nth_map_some {A B} (f : A -> B) l p y : nth_error (map f l) p = Some y ->
  exists x, nth_error l p = Some x /\ y = f x.
Proof. rewrite nth_error_map. destruct (nth_error l p); simpl; intros H; [injection H as <-; eauto|discriminate]. Qed.

Lemma faithful_trans c c1 c2 ids1 ids2 : faithful c c1 ids1 -> faithful c1 c2 ids2 ->
  (* the types of the intermediate context are the renumbered types *)
  remap (context c) ids1 = Some (context c1) ->
  faithful c c2 (map (fun p => nth p ids1 0) ids2).
Proof.
  intros F G Hr. destruct (remap_get _ _ _ Hr) as [L Gt].
  assert (Hlt : forall p, In p ids2 -> p < length ids1).
  { intros p Hp. destruct (f_typed _ _ _ G p Hp) as (T & HT & _). rewrite <- L.
    apply nth_error_Some. unfold get_var_type in HT. destruct (nth_error (context c1) p); congruence. }
  assert (Hnth : forall p, In p ids2 -> nth_error ids1 p = Some (nth p ids1 0)).
  { intros p Hp. apply nth_error_nth', Hlt, Hp. }
  assert (Hmid : forall (M : Model) rho rho2, follows M (map (fun p => nth p ids1 0) ids2) rho rho2 ->
    follows M ids1 rho (fun p => rho (nth p ids1 0)) /\ follows M ids2 (fun p => rho (nth p ids1 0)) rho2).
  { intros M rho rho2 Hf. split.
    - intros p v Hp. rewrite (nth_error_nth _ _ _ Hp). reflexivity.
    - intros q p Hq. apply Hf. rewrite nth_error_map, Hq. reflexivity. }
  constructor.
  - pose proof (f_nodup _ _ _ G) as N2. pose proof (f_nodup _ _ _ F) as N1.
    clear - N1 N2 Hlt. induction N2 as [|p l Hp N2 IH]; simpl; [constructor|]. constructor.
    + intros Hin. apply in_map_iff in Hin. destruct Hin as (q & E & Hq).
      apply Hp. replace p with q; auto.
      apply (proj1 (NoDup_nth _ 0) N1); auto; apply Hlt; simpl; auto.
    + apply IH. intros; apply Hlt; simpl; auto.
  - rewrite map_length. apply (f_len _ _ _ G).
  - intros v Hv. apply in_map_iff in Hv. destruct Hv as (p & <- & Hp).
    destruct (Gt p _ (Hnth p Hp)) as (T & T' & E1 & E2 & E3). exists T. split; auto.
    intros d Hd. destruct (f_typed _ _ _ G p Hp) as (T0 & ET & Hc). rewrite E3 in ET. injection ET as <-.
    destruct (renumber_vars _ _ _ E2) as [Hi _].
    (* the position of d occurs in T' *)
    assert (Hq : exists q, nth_error ids1 q = Some d /\ In q (vars T')).
    { clear - E2 Hd. revert T' E2. induction T as [[i|i|s]|f IHf a IHa|k A IHA b IHb]; simpl; intros T' E2.
      - destruct Hd as [<-|[]]. destruct (position i ids1) as [q|] eqn:Eq; simpl in E2; [|discriminate].
        injection E2 as <-. exists q. split; [apply position_some in Eq; tauto|simpl; auto].
      - destruct Hd.
      - destruct Hd.
      - destruct (renumber_variables ids1 f) as [f'|]; [|discriminate].
        destruct (renumber_variables ids1 a) as [a'|]; [|discriminate]. injection E2 as <-.
        rewrite vars_app in Hd. rewrite vars_app. apply in_app_or in Hd.
        destruct Hd as [Hd|Hd]; [destruct (IHf Hd _ eq_refl) as (q & ? & ?)|destruct (IHa Hd _ eq_refl) as (q & ? & ?)];
          exists q; split; auto; apply in_or_app; auto.
      - destruct (renumber_variables ids1 A) as [f'|]; [|discriminate].
        destruct (renumber_variables ids1 b) as [a'|]; [|discriminate]. injection E2 as <-.
        rewrite vars_bind in Hd. rewrite vars_bind. apply in_app_or in Hd.
        destruct Hd as [Hd|Hd]; [destruct (IHA Hd _ eq_refl) as (q & ? & ?)|destruct (IHb Hd _ eq_refl) as (q & ? & ?)];
          exists q; split; auto; apply in_or_app; auto. }
    destruct Hq as (q & Eq & Hq). apply in_map_iff. exists q. split; [apply nth_error_nth; auto|]. apply Hc; auto.
  - intros M rho rho2 Hf. destruct (Hmid M rho rho2 Hf) as [Hf1 Hf2].
    rewrite (f_env _ _ _ G M _ _ Hf2). split.
    + intros H v T Hv HT. apply in_map_iff in Hv. destruct Hv as (p & <- & Hp).
      destruct (Gt p _ (Hnth p Hp)) as (T0 & T' & E1 & E2 & E3). rewrite HT in E1. injection E1 as <-.
      specialize (H p T' Hp E3). unfold ev in *. rewrite (eval_renumber M _ _ _ _ Hf1 _ _ E2) in H. exact H.
    + intros H p T' Hp HT'.
      destruct (Gt p _ (Hnth p Hp)) as (T0 & T1 & E1 & E2 & E3). rewrite E3 in HT'. injection HT' as ->.
      unfold ev. rewrite (eval_renumber M _ _ _ _ Hf1 _ _ E2). apply H; auto. apply in_map_iff; eauto.
  - intros M rho rho2 Hf Hw. destruct (Hmid M rho rho2 Hf) as [Hf1 Hf2].
    destruct (f_lits _ _ _ F M _ _ Hf1 Hw) as [W1 H1].
    destruct (f_lits _ _ _ G M _ _ Hf2 W1) as [W2 H2]. split; auto. tauto.
Qed.

Lemma pinned_pass_remap pinned c c' ids : normalize_var_ids_with_pinned pinned c = Some (c', ids) ->
  remap (context c) ids = Some (context c').
Proof.
  unfold normalize_var_ids_with_pinned.
  destruct (renumber_literals (context c) (seq 0 pinned) (literals c)) as [[lits i]|] eqn:E; [|discriminate].
  destruct (remap (context c) i) as [c1|] eqn:Er; simpl; [|discriminate].
  intros H; injection H as <- <-. exact Er.
Qed.

Lemma normalize_faithful pinned c c' : normalize_with_pinned pinned c = Some c' ->
  exists ids, faithful c c' ids.
Proof.
  unfold normalize_with_pinned.
  destruct (normalize_var_ids_with_pinned pinned (Clause (normalize_literals (literals c)) (context c)))
    as [[c1 ids1]|] eqn:E1; [|discriminate].
  destruct (normalize_var_ids_with_pinned pinned (Clause (normalize_literals (literals c1)) (context c1)))
    as [[c2 ids2]|] eqn:E2; [|discriminate].
  intros H; injection H as <-.
  assert (F1 : faithful c c1 ids1).
  { destruct c as [ls cx]. apply (faithful_change (Clause (normalize_literals ls) cx)); [eapply pinned_pass; eauto|].
    cbn [literals]. intros M rho Hw. apply normalize_literals_sound; auto. }
  assert (F2 : faithful c1 c2 ids2).
  { destruct c1 as [ls cx]. apply (faithful_change (Clause (normalize_literals ls) cx)); [eapply pinned_pass; eauto|].
    cbn [literals]. intros M rho Hw. apply normalize_literals_sound; auto. }
  exists (map (fun p => nth p ids1 0) ids2). apply faithful_post.
  - eapply faithful_trans; eauto. apply (pinned_pass_remap _ _ _ _ E1).
  - intros l. rewrite dedup_in. unfold sort_literals. apply sort_in.
Qed.

Lemma prefilled_faithful ls cx ids0 c' ids : NoDup ids0 ->
  normalize_with_var_ids_prefilled ls cx ids0 = Some (c', ids) -> faithful (Clause ls cx) c' ids.
Proof.
  intros N0. unfold normalize_with_var_ids_prefilled.
  destruct (renumber_literals cx ids0 (normalize_literals ls)) as [[lits i]|] eqn:E; [|discriminate].
  destruct (remap cx i) as [c1|] eqn:Er; simpl; [|discriminate].
  intros H; injection H as <- <-. apply renumber_literals_spec in E. destruct E as [(_ & N & _) R].
  constructor; cbn [literals context].
  - apply N, N0.
  - apply (proj1 (remap_get _ _ _ Er)).
  - apply (remap_typed _ _ _ Er).
  - intros M rho rho' Hf. apply valid_remap; auto.
  - intros M rho rho' Hf Hw.
    destruct (normalize_literals_sound M rho ls Hw) as [W1 H1].
    destruct (renumbered_list_sound M _ _ _ _ _ Hf R) as [W Hh].
    assert (S : forall l, In l (dedup_literals (sort_literals lits)) <-> In l lits).
    { intros l. rewrite dedup_in. unfold sort_literals. apply sort_in. }
    split.
    + intros l Hl. apply W; auto. apply S, Hl.
    + rewrite <- H1, <- Hh. unfold cholds. split; intros (l & ? & ?); exists l; split; auto; apply S; auto.
Qed.

Lemma canonicalize_faithful pinned c c' : canonicalize_with_pinned pinned c = Some c' -> exists ids, faithful c c' ids.
Proof.
  unfold canonicalize_with_pinned.
  destruct (renumber_literals (context c) (seq 0 pinned) (sort lit_stable_cmp (literals c))) as [[lits i]|] eqn:E; [|discriminate].
  destruct (remap (context c) i) as [c1|] eqn:Er; simpl; [|discriminate].
  intros H; injection H as <-. apply renumber_literals_spec in E. destruct E as [(_ & N & _) R].
  exists i. constructor; cbn [literals context].
  - apply N, seq_NoDup.
  - apply (proj1 (remap_get _ _ _ Er)).
  - apply (remap_typed _ _ _ Er).
  - intros M rho rho' Hf. apply valid_remap; auto.
  - intros M rho rho' Hf Hw.
    destruct (renumbered_list_sound M _ _ _ _ _ Hf R) as [W Hh].
    assert (S : forall l, In l (sort_literals lits) <-> In l lits) by (intros l; apply sort_in).
    assert (S' : forall l, In l (sort lit_stable_cmp (literals c)) <-> In l (literals c)) by (intros l; apply sort_in).
    split.
    + intros l Hl. apply W; [|apply S, Hl]. intros x Hx. apply Hw, S', Hx.
    + transitivity (cholds M rho' lits); [|rewrite Hh];
        unfold cholds; split; intros (l & ? & ?); exists l; split; auto; apply S || apply S'; auto.
Qed.

(** ** consequences of faithfulness *)
Definition dep_closed (c : lctx) (S : nat -> Prop) : Prop :=
  forall v T d, S v -> get_var_type c v = Some T -> In d (vars T) -> S d.

(** negative literals come before positive ones *)
Fixpoint negatives_first (l : list literal) : Prop :=
  match l with
  | [] => True
  | x :: r => (positive x = true -> forall y, In y r -> positive y = true) /\ negatives_first r
  end.

Lemma insert_negatives_first x l : negatives_first l -> negatives_first (insert lit_cmp x l).
Proof.
  induction l as [|y l IH]; simpl; intros Hl; [repeat split; simpl; tauto|]. destruct Hl as [Hy Hl].
  unfold lit_cmp at 1. destruct (positive x) eqn:Ex, (positive y) eqn:Ey; simpl bool_cmp; cbn [lexc].
  - assert (K : negatives_first (x :: y :: l)).
    { simpl. repeat split; auto. intros _ z [<-|Hz]; auto. }
    destruct (lexc _ _); try exact K. cbn [negatives_first]. split; [|apply IH; auto].
    intros _ z Hz. apply (Permutation_in z (Permutation_sym (insert_perm lit_cmp x l))) in Hz.
    destruct Hz as [<-|Hz]; auto.
  - cbn [negatives_first]. split; [congruence|apply IH; auto].
  - cbn [negatives_first]. repeat split; auto; congruence.
  - assert (K : negatives_first (x :: y :: l)).
    { simpl. repeat split; auto; congruence. }
    destruct (lexc _ _); try exact K. cbn [negatives_first]. split; [congruence|apply IH; auto].
Qed.
Lemma sort_negatives_first l : negatives_first (sort_literals l).
Proof. induction l as [|x l IH]; simpl; auto. apply insert_negatives_first; auto. Qed.
Lemma dedup_from_incl l : forall y w, In w (dedup_from literal_eqb y l) -> In w l.
Proof.
  induction l as [|z l IH]; simpl; intros y w; auto.
  destruct (literal_eqb z y); simpl; intros H; [eauto|]. destruct H; eauto.
Qed.
Lemma dedup_negatives_first l : negatives_first l -> negatives_first (dedup_literals l).
Proof.
  assert (G : forall l y, negatives_first (y :: l) -> negatives_first (y :: dedup_from literal_eqb y l)).
  { clear. induction l as [|z l IH]; intros y [Hy Hl]; simpl; auto.
    destruct (literal_eqb z y) eqn:E.
    - apply IH. destruct Hl as [Hz Hl]. split; auto. intros Hp w Hw. apply Hy; auto. right; auto.
    - split.
      + intros Hp w [<-|Hw]; [apply Hy; simpl; auto|]. apply Hy; auto. right. eapply dedup_from_incl; eauto.
      + apply (IH z); auto. }
  destruct l as [|x l]; simpl; auto. intros H. apply (G l x H).
Qed.

Section Use.
Context (M : Model).

Lemma follows_nth ids rho : follows M ids rho (fun p => rho (nth p ids 0)).
Proof. intros p v H. rewrite (nth_error_nth _ _ _ H). reflexivity. Qed.

Lemma faithful_reflects c c' ids : faithful c c' ids -> clause_wt M c -> valid M c' -> valid M c.
Proof.
  intros F Hw Hv rho He.
  apply (f_lits _ _ _ F M rho _ (follows_nth ids rho)); [intros l Hl; apply Hw; auto|].
  apply Hv. apply (f_env _ _ _ F M rho _ (follows_nth ids rho)). intros v T _ HT. apply He; auto.
Qed.

Lemma follows_inv ids rho' : NoDup ids -> exists rho, follows M ids rho rho'.
Proof.
  intros N. exists (fun v => match position v ids with Some p => rho' p | None => rho' 0 end).
  intros p v H. rewrite (position_nth _ N _ _ H). reflexivity.
Qed.

Lemma faithful_preserves c c' ids : faithful c c' ids -> clause_wt M c ->
  completable M (context c) (fun v => In v ids) ->
  (valid M c -> valid M c') /\ clause_wt M c'.
Proof.
  intros F Hw Hc.
  assert (G : forall rho', valid_env M (context c') rho' ->
    exists rho, follows M ids rho rho' /\ valid_env M (context c) rho).
  { intros rho' Hv. destruct (follows_inv ids rho' (f_nodup _ _ _ F)) as [rho0 Hf].
    destruct (Hc rho0) as (rho & Ha & He).
    - intros v T Hi HT. apply (proj1 (f_env _ _ _ F M _ _ Hf) Hv); auto.
    - exists rho. split; auto. intros p v Hp. rewrite (Hf p v Hp). symmetry. apply Ha.
      eapply nth_error_In; eauto. }
  split.
  - intros Hv rho' He'. destruct (G rho' He') as (rho & Hf & He).
    apply (f_lits _ _ _ F M rho rho' Hf); [intros l Hl; apply Hw; auto|]. apply Hv; auto.
  - intros rho' He' l Hl. destruct (G rho' He') as (rho & Hf & He).
    apply (f_lits _ _ _ F M rho rho' Hf); auto.
Qed.

(** when no variable is dropped there is nothing to complete *)
Lemma faithful_all_kept c c' ids : faithful c c' ids -> length (context c') = length (context c) ->
  completable M (context c) (fun v => In v ids).
Proof.
  intros F HL rho H. exists rho. split; auto. intros v T HT. apply H; auto.
  assert (Hv : v < length (context c)).
  { apply nth_error_Some. unfold get_var_type in HT. destruct (nth_error (context c) v); congruence. }
  assert (Hi : incl ids (seq 0 (length (context c)))).
  { intros x Hx. destruct (f_typed _ _ _ F x Hx) as (U & HU & _). apply in_seq. split; [lia|].
    apply nth_error_Some. unfold get_var_type in HU. destruct (nth_error (context c) x); simpl; congruence. }
  assert (Hi' : incl (seq 0 (length (context c))) ids).
  { apply NoDup_length_incl; auto; [apply (f_nodup _ _ _ F)|].
    rewrite seq_length, <- HL, (f_len _ _ _ F). lia. }
  apply Hi', in_seq. lia.
Qed.

Lemma tautology_sound c : negatives_first (literals c) -> is_tautology c = true ->
  forall rho, cholds M rho (literals c).
Proof.
  unfold is_tautology. intros Hneg. destruct (before_positive (literals c)) as [neg pos] eqn:E.
  assert (Hin : forall ls neg pos, negatives_first ls -> before_positive ls = (neg, pos) ->
    (forall x, In x neg -> In x ls /\ positive x = false) /\ (forall x, In x pos -> In x ls /\ positive x = true)).
  { clear. induction ls as [|x ls IH]; simpl; intros neg pos Hn H.
    - injection H as <- <-. split; simpl; tauto.
    - destruct Hn as [Hx Hn]. destruct (positive x) eqn:Ep.
      + injection H as <- <-. split; [simpl; tauto|]. intros y [<-|Hy]; auto.
      + destruct (before_positive ls) as [a b]. injection H as <- <-. destruct (IH _ _ Hn eq_refl) as [I1 I2].
        split; intros y Hy.
        * destruct Hy as [<-|Hy]; auto. apply I1 in Hy. tauto.
        * apply I2 in Hy. tauto. }
  destruct (Hin _ _ _ Hneg E) as [Hn Hp]. rewrite orb_true_iff. intros [H|H] rho.
  - apply existsb_exists in H. destruct H as (n & Hin1 & H). apply existsb_exists in H.
    destruct H as (p & Hin2 & H). apply andb_true_iff in H. destruct H as [H1 H2].
    apply term_eqb_eq in H1, H2. destruct (Hn n Hin1) as [Hn1 Hn2]. destruct (Hp p Hin2) as [Hp1 Hp2].
    destruct (val_dec M (ev M rho (left n)) (ev M rho (right n))) as [Ev|Ev].
    + exists p. split; auto. unfold lit_holds. rewrite Hp2, <- H1, <- H2. exact Ev.
    + exists n. split; auto. unfold lit_holds. rewrite Hn2. exact Ev.
  - apply existsb_exists in H. destruct H as (l & Hl & H). unfold lit_is_tautology in H.
    apply andb_true_iff in H. destruct H as [H1 H2]. apply term_eqb_eq in H2.
    exists l. split; auto. unfold lit_holds. rewrite H1, H2. reflexivity.
Qed.
End Use.
