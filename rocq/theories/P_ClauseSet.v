(** C11, C12: identifiers of ground clauses and the clause set of the equality graph. *)
From Coq Require Import List Arith NArith Bool Lia Permutation.
Import ListNotations.
From Verif Require Import Literal ClauseProofs ClauseSet ClauseSetProofs.

(** A literal over groups that denote the values [e]. *)
Definition lit_true {X} (e : N -> X) (l : litid) : Prop :=
  if lpos l then e (lleft l) = e (lright l) else e (lleft l) <> e (lright l).
Definition clause_true {X} (e : N -> X) (c : list litid) : Prop := exists l, In l c /\ lit_true e l.

(** C11: the literal's id does not depend on its direction and keeps its meaning. *)
Theorem literal_id_symmetric l r p X (e : N -> X) :
  litid_new l r p = litid_new r l p /\
  (lit_true e (litid_new l r p) <-> (if p then e l = e r else e l <> e r)).
Proof.
  unfold litid_new. destruct (N.leb_spec l r), (N.leb_spec r l); split; try lia;
    try (assert (l = r) by lia; subst; auto); unfold lit_true; simpl; try reflexivity; destruct p; intuition.
Qed.
Print Assumptions literal_id_symmetric.

(** C11: what the identifier denotes, for every assignment of values to groups. *)
Theorem clause_id_equivalent c X (e : N -> X) :
  (forall x y : X, x = y \/ x <> y) ->
  match clauseid_new c with
  | NTrue => clause_true e c
  | NFalse => ~ clause_true e c
  | NClause c' => clause_true e c <-> clause_true e c'
  end.
Proof.
  intros dec. unfold clauseid_new. fold (canon c).
  assert (Hc : clause_true e c <-> clause_true e (canon c)).
  { unfold clause_true. split; intros (l & Hl & H); exists l; split; auto; apply canon_in; auto. }
  pose proof (filter_spec (lit_true e) (canon c)) as HF. unfold lit_true at 1 2 in HF.
  specialize (HF ltac:(intros x E; rewrite E; split; intros ->; auto)).
  destruct (filter_reflexive (canon c)) as [c'|]; [|apply Hc; exact HF].
  assert (HF' : clause_true e c <-> clause_true e c') by (rewrite Hc; exact HF). clear HF Hc.
  destruct c' as [|x c']; [rewrite HF'; intros (l & [] & _)|].
  destruct (has_opposites (x :: c')) eqn:E; auto.
  apply has_opposites_spec in E. destruct E as (a & b & Ha & Hb & E1 & E2 & E3). apply HF'.
  destruct (dec (e (lleft a)) (e (lright a))) as [Ev|Ev]; destruct (lpos b) eqn:Eb; simpl in E3.
  - exists b. split; auto. unfold lit_true. rewrite Eb, <- E1, <- E2. auto.
  - exists a. split; auto. unfold lit_true. rewrite E3. auto.
  - exists a. split; auto. unfold lit_true. rewrite E3. auto.
  - exists b. split; auto. unfold lit_true. rewrite Eb, <- E1, <- E2. auto.
Qed.
Print Assumptions clause_id_equivalent.

(** C11: order and multiplicity do not matter. *)
Theorem clause_id_canonical c c' :
  (forall l, In l c <-> In l c') -> clauseid_new c = clauseid_new c'.
Proof. intros H. unfold clauseid_new. fold (canon c) (canon c'). rewrite (canon_set c c' H). auto. Qed.
Print Assumptions clause_id_canonical.

(** C11: [True] only by a reflexive or two complementary literals; [False] only if every literal is
    [t != t]; a clause otherwise, which consists of the other literals, without repetition, and is not unsatisfiable. *)
Theorem clause_id_exact c :
  (clauseid_new c = NTrue <->
     (exists l, In l c /\ lleft l = lright l /\ lpos l = true) \/
     (exists a b, In a c /\ In b c /\ lleft a = lleft b /\ lright a = lright b /\ lleft a <> lright a /\
        lpos a = true /\ lpos b = false)) /\
  (clauseid_new c = NFalse <-> forall l, In l c -> lleft l = lright l /\ lpos l = false) /\
  (forall c', clauseid_new c = NClause c' ->
     NoDup c' /\ (forall l, In l c' <-> In l c /\ lleft l <> lright l) /\ exists e : N -> N, clause_true e c').
Proof.
  assert (FN : filter_reflexive (canon c) = None <-> exists l, In l c /\ lleft l = lright l /\ lpos l = true).
  { transitivity (exists l, In l (canon c) /\ lleft l = lright l /\ lpos l = true).
    - generalize (canon c) as m. induction m as [|x m IH]; simpl; [split; [discriminate|intros (l & [] & _)]|].
      destruct (N.eqb_spec (lleft x) (lright x)) as [E|E].
      + destruct (lpos x) eqn:Ep; [split; auto; intros _; exists x; auto|]. rewrite IH. split; intros (l & Hl & H); [eauto|].
        destruct Hl as [<-|Hl]; [destruct H; congruence|eauto].
      + destruct (filter_reflexive m) as [m1|]; simpl; split; try discriminate.
        * intros (l & [<-|Hl] & H); [destruct H; congruence|]. exfalso. apply proj2 in IH. specialize (IH (ex_intro _ l (conj Hl H))). discriminate.
        * intros _. destruct (proj1 IH eq_refl) as (l & Hl & H). eauto.
        * auto.
    - split; intros (l & Hl & H); exists l; split; auto; apply canon_in; auto. }
  unfold clauseid_new. fold (canon c).
  destruct (filter_reflexive (canon c)) as [c'|] eqn:F.
  - pose proof (filter_in _ _ F) as FI.
    assert (FI' : forall x, In x c' <-> In x c /\ lleft x <> lright x).
    { intros x. rewrite FI, canon_in. tauto. }
    assert (NR : ~ exists l, In l c /\ lleft l = lright l /\ lpos l = true).
    { intros H. apply FN in H. discriminate. }
    assert (ND : NoDup c').
    { assert (S : Sorted.StronglySorted llt (canon c)) by apply dedup_sorted, sort_sorted.
      assert (G : forall m m', filter_reflexive m = Some m' -> NoDup m -> NoDup m').
      { clear. induction m as [|x m IH]; simpl; intros m' H N; [injection H as <-; constructor|].
        inversion N as [|? ? N1 N2]; subst. destruct (N.eqb (lleft x) (lright x)); [destruct (lpos x); [discriminate|eauto]|].
        destruct (filter_reflexive m) as [m1|] eqn:E; [|discriminate]. injection H as <-. constructor; eauto.
        rewrite (filter_in _ _ E). tauto. }
      apply (G _ _ F). clear - S. induction S as [|x m Sm IH Fx]; constructor; auto. intros H. rewrite Forall_forall in Fx.
      apply (llt_irrefl x); auto. }
    assert (HO : has_opposites c' = true <-> exists a b, In a c' /\ In b c' /\ lleft a = lleft b /\ lright a = lright b /\ lpos a = true /\ lpos b = false).
    { split.
      - intros H. apply has_opposites_spec in H. destruct H as (a & b & Ha & Hb & E1 & E2 & E3).
        destruct (lpos b) eqn:Eb; [exists b, a|exists a, b]; repeat split; auto.
      - intros (a & b & Ha & Hb & E1 & E2 & E3 & E4).
        assert (O : opposite a b = true /\ opposite b a = true).
        { unfold opposite. rewrite E1, E2, E3, E4, !N.eqb_refl. auto. }
        clear - Ha Hb E3 E4 O. induction c' as [|x c' IH]; [contradiction|]. simpl. apply orb_true_iff.
        destruct Ha as [->|Ha], Hb as [->|Hb]; auto; [congruence|left; apply existsb_exists; exists b; tauto|left; apply existsb_exists; exists a; tauto]. }
    destruct c' as [|x c'].
    + split; [|split; [|intros ? ?; discriminate]].
      * split; [discriminate|]. intros [H|(a & b & Ha & Hb & E1 & E2 & E3 & _)]; [contradiction|]. exfalso. apply (FI' a). auto.
      * split; auto. intros _ l Hl. destruct (N.eq_dec (lleft l) (lright l)) as [E|E].
        -- split; auto. destruct (lpos l) eqn:Ep; auto. exfalso. eauto.
        -- exfalso. apply (FI' l). auto.
    + assert (NF : ~ (forall l, In l c -> lleft l = lright l /\ lpos l = false)).
      { intros H. destruct (proj1 (FI' x) (or_introl eq_refl)) as [H1 H2]. destruct (H x H1). auto. }
      destruct (has_opposites (x :: c')) eqn:E.
      * split; [|split; [|intros ? ?; discriminate]].
        -- split; auto. intros _. right. destruct (proj1 HO eq_refl) as (a & b & Ha & Hb & H). exists a, b.
           apply FI' in Ha, Hb. tauto.
        -- split; [discriminate|tauto].
      * split; [|split].
        -- split; [discriminate|]. intros [H|(a & b & Ha & Hb & E1 & E2 & E3 & E4 & E5)]; [contradiction|].
           exfalso. discriminate (proj2 HO ltac:(exists a, b; repeat split; auto; apply FI'; split; congruence)).
        -- split; [discriminate|tauto].
        -- intros d Hd. injection Hd as <-. split; auto. split; auto.
           destruct (lpos x) eqn:Ep.
           ++ exists (fun _ => 0%N). exists x. split; [left; auto|]. unfold lit_true. rewrite Ep. auto.
           ++ exists (fun g => g). exists x. split; [left; auto|]. unfold lit_true. rewrite Ep. apply FI'. left; auto.
  - split; [|split; [|intros ? ?; discriminate]].
    + split; auto. intros _. left. apply FN; auto.
    + split; [discriminate|]. intros H. destruct (proj1 FN eq_refl) as (l & Hl & E1 & E2). destruct (H l Hl). congruence.
Qed.
Print Assumptions clause_id_exact.

Example clause_id_case :
  clauseid_new [LitId 3 5 true; LitId 1 2 false; LitId 4 4 false; LitId 3 5 true] = NClause [LitId 1 2 false; LitId 3 5 true]
  /\ clauseid_new [LitId 3 5 true; LitId 1 2 false; LitId 3 5 false] = NTrue
  /\ clauseid_new [LitId 3 5 true; LitId 2 2 true] = NTrue
  /\ clauseid_new [LitId 4 4 false] = NFalse.
Proof. repeat split; reflexivity. Qed.

(** C12.  The operations; the last two carry the iteration order of the hash set. *)
Inductive op :=
  | Insert (c : clauseid)
  | Remove (c : clauseid)
  | RemoveLiteral (l : litid) (order : list clauseid)
  | RemoveGroup (g : N) (order : list clauseid).

Definition run_op (s : clauseset) (o : op) : clauseset :=
  match o with
  | Insert c => cs_insert s c
  | Remove c => fst (cs_remove s c)
  | RemoveLiteral _ order | RemoveGroup _ order => cs_remove_all s order
  end.
(** The order is some order of the set that the code clones. *)
Inductive reaches : list op -> clauseset -> Prop :=
  | R0 : reaches [] cs_new
  | R1 ops o s : reaches ops s ->
      (match o with
       | RemoveLiteral l order => Permutation order (literal_entry s l)
       | RemoveGroup g order => Permutation order (group_entry s g)
       | _ => True
       end) -> reaches (o :: ops) (run_op s o).

(** Inserted and not removed since; the newest operation comes first. *)
Fixpoint present (ops : list op) (c : clauseid) : Prop :=
  match ops with
  | [] => False
  | Insert d :: r => c = d \/ present r c
  | Remove d :: r => c <> d /\ present r c
  | RemoveLiteral l _ :: r => ~ In l c /\ present r c
  | RemoveGroup g _ :: r => ~ (exists l, In l c /\ (lleft l = g \/ lright l = g)) /\ present r c
  end.

Theorem clause_set_exact ops s : reaches ops s ->
  (forall c, set_mem c (cs_clauses s) = true <-> present ops c) /\
  (forall l c, In c (literal_entry s l) <-> present ops c /\ In l c) /\
  (forall g c, In c (group_entry s g) <-> present ops c /\ exists l, In l c /\ (lleft l = g \/ lright l = g)) /\
  (forall g, map_get N.eqb (cs_group s) g <> Some []) /\ (forall l, map_get litid_eqb (cs_literal s) l <> Some []) /\
  cs_validate s = true.
Proof.
  intros R. enough (H : consistent s /\ forall c, In c (cs_clauses s) <-> present ops c).
  { destruct H as [C E]. split; [intros c; rewrite set_mem_in; auto|].
    split; [intros l c; rewrite (co_lit s C), E; tauto|]. split; [intros g c; rewrite (co_group s C), E; tauto|].
    split; [|split; [|apply consistent_validate; auto]].
    - intros g H. apply (proj2 (co_gwf s C) g []); auto. apply (in_get N.eqb Neqb_eq); auto.
    - intros g H. apply (proj2 (co_lwf s C) g []); auto. apply (in_get litid_eqb litid_eqb_eq); auto. }
  induction R as [|ops o s R [C E] Ho]; [split; [apply consistent_new|simpl; tauto]|].
  destruct o as [c|c|l order|g order]; simpl.
  - destruct (consistent_insert s c C) as [C' E']. split; auto. intros d. rewrite E', E. tauto.
  - destruct (consistent_remove s c C) as (C' & E' & _). split; auto. intros d. rewrite E', E. tauto.
  - destruct (consistent_remove_all order s C) as [C' E']. split; auto. intros d. rewrite E', E.
    assert (H : In d order <-> In d (literal_entry s l)).
    { split; apply Permutation_in; auto. apply Permutation_sym; auto. }
    rewrite H, (co_lit s C), E. tauto.
  - destruct (consistent_remove_all order s C) as [C' E']. split; auto. intros d. rewrite E', E.
    assert (H : In d order <-> In d (group_entry s g)).
    { split; apply Permutation_in; auto. apply Permutation_sym; auto. }
    rewrite H, (co_group s C), E. unfold has_group. tauto.
Qed.
Print Assumptions clause_set_exact.

(** [remove] reports whether the clause was there. *)
Theorem clause_set_remove_reports ops s c : reaches ops s -> (snd (cs_remove s c) = true <-> present ops c).
Proof.
  intros R. pose proof (clause_set_exact ops s R) as (E & _). rewrite <- E. unfold cs_remove.
  destruct (set_mem c (cs_clauses s)); simpl; tauto.
Qed.
Print Assumptions clause_set_remove_reports.

(** two clauses sharing group 2; removing the group empties the index *)
Example clause_set_case :
  let a := [LitId 1 2 true; LitId 2 3 false] in let b := [LitId 2 4 true] in let c := [LitId 5 6 true] in
  let s := cs_insert (cs_insert (cs_insert cs_new a) b) c in
  let s' := cs_remove_all s [a; b] in
  reaches [RemoveGroup 2%N [a; b]; Insert c; Insert b; Insert a] s' /\
  group_entry s 2%N = [b; a] /\ literal_entry s (LitId 2 3 false) = [a] /\
  cs_clauses s' = [c] /\ map_get N.eqb (cs_group s') 2%N = None /\ cs_validate s' = true.
Proof.
  simpl. split.
  - refine (R1 _ (RemoveGroup 2%N _) _ (R1 _ (Insert _) _ (R1 _ (Insert _) _ (R1 _ (Insert _) _ R0 I) I) I) _).
    vm_compute. apply perm_swap.
  - vm_compute. tauto.
Qed.
