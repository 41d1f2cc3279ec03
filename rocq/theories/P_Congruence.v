(** C04: the equality graph is closed under congruence; its operations return and never panic. *)
From Coq Require Import List Arith NArith Bool Lia Permutation.
Import ListNotations.
From Verif Require Import Term Literal Clause SemFacts ClauseSet ClauseSetProofs P_ClauseSet EqualityGraph EqualityGraphProofs EqualityGraphClosure
  EqualityGraphRemap EqualityGraphSteps EqualityGraphTotal P_EqualityGraph.

(** ** what the graph says about terms *)
Definition in_graph (s : egraph) (t : term) : Prop := exists i, term_at s i = Some t.
Definition group_at (s : egraph) (i : nat) : option nat := option_map ti_group (nth_error (eg_terms s) i).
Definition equal_in (s : egraph) (t u : term) : Prop :=
  exists i j g, term_at s i = Some t /\ term_at s j = Some u /\ group_at s i = Some g /\ group_at s j = Some g.
Definition different_in (s : egraph) (t u : term) : Prop :=
  exists i j g h gi, term_at s i = Some t /\ term_at s j = Some u /\ group_at s i = Some g /\ group_at s j = Some h /\
    nth_error (eg_groups s) g = Some (Info gi) /\ In h (gi_ineq gi).

(** equational logic: [t = u] follows from the equations [E], with applications as the only operation *)
Inductive derivable (E : term -> term -> Prop) : term -> term -> Prop :=
| d_ax t u : E t u -> derivable E t u
| d_refl t : derivable E t t
| d_sym t u : derivable E t u -> derivable E u t
| d_trans t u v : derivable E t u -> derivable E u v -> derivable E t v
| d_app f f' a a' : derivable E f f' -> derivable E a a' -> derivable E (TApp f a) (TApp f' a').
(** the asserted unit equations, and the symmetry of the equations that occur in the graph *)
Definition unit_eq (A : list (list literal)) (t u : term) : Prop := In [Lit true t u] A.
Definition known_eq (A : list (list literal)) (s : egraph) (t u : term) : Prop :=
  unit_eq A t u \/ exists T x y, in_graph s (teq T x y) /\ t = teq T x y /\ u = teq T y x.

(** ** results that no longer change with more fuel *)
Definition ev {A} (F : nat -> res A) (Q : A -> Prop) : Prop := exists n a, Q a /\ forall m, n <= m -> F m = Ok a.
Definition mono {A} (F : nat -> res A) : Prop := forall n, more (F n) (F (S n)).
Lemma mono_le {A} (F : nat -> res A) n m : mono F -> n <= m -> more (F n) (F m).
Proof. intros M. induction 1 as [|m L IH]; [apply more_refl|]. intros H. rewrite M; rewrite IH; auto. Qed.
Lemma ev_of {A} (F : nat -> res A) Q : mono F -> (exists n, wp (F n) Q) -> ev F Q.
Proof. intros M (n & W). destruct (wp_ok _ _ W) as (a & E & H). exists n, a. split; auto. intros m L. rewrite (mono_le F n m M L); auto. congruence. Qed.
Lemma ev_bind {A B} (F : nat -> res A) (G : nat -> A -> res B) P Q : ev F P -> (forall a, P a -> ev (fun n => G n a) Q) -> ev (fun n => rbind (F n) (G n)) Q.
Proof.
  intros (n & a & Ha & Hn) HG. destruct (HG a Ha) as (k & b & Hb & Hk). exists (n + k), b. split; auto. intros m L. rewrite Hn by lia. simpl. apply Hk. lia.
Qed.
Lemma ev_ret {A} (x : res A) (Q : A -> Prop) : wp x Q -> ev (fun _ => x) Q.
Proof. intros W. destruct (wp_ok _ _ W) as (a & -> & H). exists 0, a. auto. Qed.
Lemma ev_mono {A} (F : nat -> res A) (P Q : A -> Prop) : (forall a, P a -> Q a) -> ev F P -> ev F Q.
Proof. intros H (n & a & Ha & Hn). exists n, a. auto. Qed.
Lemma ev_get {A} (F : nat -> res A) Q n a : mono F -> ev F Q -> F n = Ok a -> Q a.
Proof.
  intros M (k & b & Hb & Hk) E. pose proof (mono_le F n (n + k) M ltac:(lia)) as X. rewrite E in X. rewrite Hk in X by lia.
  assert (b = a) by (injection (X ltac:(discriminate)); auto). congruence.
Qed.
Lemma ev_safe {A} (F : nat -> res A) Q n : mono F -> ev F Q -> F n <> Panic.
Proof.
  intros M (k & b & Hb & Hk) E. pose proof (mono_le F n (n + k) M ltac:(lia)) as X. rewrite E in X. rewrite Hk in X by lia.
  specialize (X ltac:(discriminate)). discriminate.
Qed.
Lemma ev_some {A} (F : nat -> res A) Q : ev F Q -> exists n a, F n = Ok a. Proof. intros (n & a & _ & H). exists n, a. auto. Qed.
Lemma mono_bind {A B} (F : nat -> res A) (G : nat -> A -> res B) : mono F -> (forall a, mono (fun n => G n a)) -> mono (fun n => rbind (F n) (G n)).
Proof. intros H1 H2 n. apply more_bind; auto. intros a. apply H2. Qed.
Lemma mono_const {A} (x : res A) : mono (fun _ => x). Proof. intros n. apply more_refl. Qed.

Section Main.
Context (ordk : nat -> list nat -> list nat) (ordc : nat -> list clauseid -> list clauseid).
Context (ordk_perm : forall n l, Permutation (ordk n l) l) (ordc_perm : forall n l, Permutation (ordc n l) l).
Notation reached := (reached ordk ordc).
Definition good (s : egraph) : Prop := inv [] s /\ settled s.

Lemma mono_insert s t : mono (fun n => insert_term ordk ordc n s t). Proof. intros n. apply insert_term_more. Qed.
Lemma mono_process s : mono (fun n => process_pending ordk ordc n s). Proof. intros n H. apply process_fuel; auto. Qed.
Lemma ev_insert s t : good s -> ev (fun n => insert_term ordk ordc n s t) (fun r => good (fst r) /\ goes s (fst r) /\ term_at (fst r) (snd r) = Some t).
Proof.
  intros [I S]. eapply ev_mono; [|apply ev_of; [apply mono_insert|]].
  2:{ exact (insert_total ordk ordc ordk_perm ordc_perm (sz t) t (le_n _) [] s I). }
  intros r ((I' & G & (ti & Hi & E)) & S'). split; [split; auto|]. split; auto. unfold term_at. rewrite Hi. simpl. congruence.
Qed.
Lemma ev_process s : inv [] s -> ev (fun n => process_pending ordk ordc n s) (fun s' => good s' /\ goes s s').
Proof.
  intros I. eapply ev_mono; [|apply ev_of; [apply mono_process|apply (process_inv ordk ordc ordk_perm ordc_perm [] s I)]].
  intros s' (I' & G & _ & S). split; auto. split; auto.
Qed.
Lemma term_at_goes s s' i t : goes s s' -> term_at s i = Some t -> term_at s' i = Some t.
Proof.
  unfold term_at. intros G H. destruct (nth_error (eg_terms s) i) as [ti|] eqn:E; [|discriminate].
  destruct (goes_nth _ _ _ _ G E) as (ti' & -> & E' & _). simpl in *. congruence.
Qed.
Lemma term_at_lt s i t : term_at s i = Some t -> i < length (eg_terms s).
Proof. unfold term_at. destruct (nth_error (eg_terms s) i) eqn:E; [|discriminate]. intros _. eapply nth_lt; eauto. Qed.
Lemma good_push s o : good s -> opn (length (eg_groups s)) o -> inv [] (push s o) /\ goes s (push s o).
Proof.
  intros [I S] O. assert (G : goes s (push s o)).
  { constructor; auto; [exists []; rewrite app_nil_r; auto|]. right. split; [|split].
    - apply conn_lift; [intros i j H; apply conn_grp; auto|]. intros i j H. apply conn_pend. simpl. auto.
    - intros i j [H|H]; [left; simpl; auto|right; auto].
    - exists (fun g => g). split; [eauto|]. intros p q y H. exists y. split; auto using conn_refl. }
  split; auto. apply (inv_goes [] s); auto; [|intros _ i Hi; cbn in Hi; lia].
  destruct (proj1 I) as [K1 K2 K3 K4 K5 K6]. constructor; auto. apply cwf_push; auto.
Qed.
Lemma good_contra s : good s -> inv [] (set_contra s) /\ goes s (set_contra s).
Proof.
  intros [I S]. assert (G : goes s (set_contra s)) by (constructor; auto; exists []; rewrite app_nil_r; auto). split; auto.
  split; auto. destruct (proj1 I) as [K1 K2 K3 K4 K5 [C1 C2 C3]]. constructor; auto. constructor; auto.
Qed.
Lemma good_group s i t : good s -> term_at s i = Some t -> exists g, get_group_id s i = Ok g /\ g < length (eg_groups s) /\ (exists gi, nth_error (eg_groups s) g = Some (Info gi)) /\ group_at s i = Some g.
Proof.
  intros [[J _] _] H. apply term_at_lt in H. rewrite <- (jwf_len _ J) in H. destruct (jwf_term s i J H) as (ti & gi & H1 & H2 & H3).
  exists (ti_group ti). unfold get_group_id, group_at. rewrite H1. simpl. split; auto. split; [eapply nth_lt; eauto|]. split; eauto.
Qed.

(** ** the operations *)
Lemma ev_set_equal s a b ta tb : good s -> term_at s a = Some ta -> term_at s b = Some tb ->
  ev (fun n => set_terms_equal ordk ordc n s a b) (fun s' => good s' /\ goes s s' /\ (eg_contra s' = true \/ conn s' a b)).
Proof.
  intros Gd Ha Hb. assert (O : opn (length (eg_groups s)) (OEq a b)) by (apply term_at_lt in Ha, Hb; rewrite (jwf_len _ (proj1 (proj1 Gd))); simpl; auto).
  destruct (good_push s _ Gd O) as [I G]. eapply ev_mono; [|apply (ev_process _ I)]. intros s' [Gd' G']. split; auto. split; [eapply goes_trans; eauto|].
  destruct (q_rest _ _ G') as [C|(C & _)]; auto. right. apply C. apply conn_pend. simpl; auto.
Qed.
Lemma ev_set_not_equal s a b ta tb : good s -> term_at s a = Some ta -> term_at s b = Some tb ->
  ev (fun n => set_terms_not_equal ordk ordc n s a b) (fun s' => good s' /\ goes s s' /\ (eg_contra s' = true \/ sep s' a b)).
Proof.
  intros Gd Ha Hb. assert (O : opn (length (eg_groups s)) (ONeq a b)) by (apply term_at_lt in Ha, Hb; rewrite (jwf_len _ (proj1 (proj1 Gd))); simpl; auto).
  destruct (good_push s _ Gd O) as [I G]. eapply ev_mono; [|apply (ev_process _ I)]. intros s' [Gd' G']. split; auto. split; [eapply goes_trans; eauto|].
  destruct (q_rest _ _ G') as [C|(_ & C & _)]; auto. right. apply C. left. simpl; auto.
Qed.
Lemma ev_literal_id s l : good s -> ev (fun n => literal_id ordk ordc n s l) (fun r => good (fst r) /\ goes s (fst r) /\ litn (length (eg_groups (fst r))) (snd r)).
Proof.
  intros Gd. unfold literal_id. eapply ev_bind; [apply ev_insert; auto|]. intros [s1 li] (G1 & E1 & T1). cbn [fst snd] in *.
  eapply ev_bind; [apply ev_insert; auto|]. intros [s2 ri] (G2 & E2 & T2). cbn [fst snd] in *. apply ev_ret.
  destruct (good_group s2 li _ G2 (term_at_goes _ _ _ _ E2 T1)) as (lg & X1 & X2 & _). destruct (good_group s2 ri _ G2 T2) as (rg & Y1 & Y2 & _).
  rewrite X1, Y1. cbn [rbind wp fst snd]. split; auto. split; [eapply goes_trans; eauto|]. apply litid_new_litn; rewrite Nnat.Nat2N.id; auto.
Qed.
Lemma goes_glen s s' : jwf s -> jwf s' -> goes s s' -> length (eg_groups s) <= length (eg_groups s').
Proof. intros J J' G. rewrite (jwf_len _ J), (jwf_len _ J'). apply goes_len; auto. Qed.
Lemma ev_literal_ids c : forall s, good s -> ev (fun n => literal_ids ordk ordc n s c) (fun r => good (fst r) /\ goes s (fst r) /\ forall l, In l (snd r) -> litn (length (eg_groups (fst r))) l).
Proof.
  induction c as [|l c IH]; intros s Gd; cbn [literal_ids].
  - apply ev_ret. simpl. split; auto. split; [apply goes_refl|intros l []].
  - eapply ev_bind; [apply ev_literal_id; auto|]. intros [s1 i] (G1 & E1 & T1). cbn [fst snd] in *. eapply ev_bind; [apply IH; auto|].
    intros [s2 is] (G2 & E2 & T2). cbn [fst snd] in *. apply ev_ret. simpl. split; auto. split; [eapply goes_trans; eauto|].
    intros k [<-|Hk]; auto. eapply litn_mono; [|exact T1]. apply goes_glen; auto; [apply G1|apply G2].
Qed.
(** what is known after the assertion of a clause *)
Definition recorded (s : egraph) (c : list literal) : Prop :=
  match c with
  | [l] => eg_contra s = true \/ exists i j, term_at s i = Some (left l) /\ term_at s j = Some (right l) /\ if positive l then conn s i j else sep s i j
  | _ => True
  end.
Lemma ev_insert_clause s c : good s -> ev (fun n => insert_clause ordk ordc n s c) (fun s' => good s' /\ goes s s' /\ recorded s' c).
Proof.
  intros Gd.
  assert (K : (forall s, recorded s c) -> ev (fun n => do (s, ids) <- literal_ids ordk ordc n s c; process_pending ordk ordc n
      match clauseid_new ids with NTrue => s | NFalse => set_contra s | NClause c => push s (OClause c) end) (fun s' => good s' /\ goes s s' /\ recorded s' c)).
  { intros Rc. eapply ev_bind; [apply ev_literal_ids; auto|]. intros [s1 ids] (G1 & E1 & T1). cbn [fst snd] in *.
    set (s2 := match clauseid_new ids with NTrue => s1 | NFalse => set_contra s1 | NClause c => push s1 (OClause c) end).
    assert (X : inv [] s2 /\ goes s1 s2).
    { unfold s2. apply clauseid_litn in T1. destruct (clauseid_new ids); [split; [apply G1|apply goes_refl]|apply good_contra; auto|apply good_push; auto]. }
    destruct X as [I2 G2]. eapply ev_mono; [|apply (ev_process _ I2)]. intros s' [Gd' G']. split; auto. split; auto.
    eapply goes_trans; [exact E1|]. eapply goes_trans; eauto. }
  destruct c as [|l [|l' c]]; [apply K; simpl; auto| |apply K; simpl; auto]. clear K. cbn [insert_clause].
  eapply ev_bind; [apply ev_insert; auto|]. intros [s1 li] (G1 & E1 & T1). cbn [fst snd] in *.
  eapply ev_bind; [apply ev_insert; auto|]. intros [s2 ri] (G2 & E2 & T2). cbn [fst snd] in *. pose proof (term_at_goes _ _ _ _ E2 T1) as T1'.
  assert (Y : forall s', goes s2 s' -> term_at s' li = Some (left l) /\ term_at s' ri = Some (right l)) by (intros; split; eapply term_at_goes; eauto).
  destruct (positive l) eqn:Ep.
  - eapply ev_mono; [|eapply ev_set_equal; eauto]. intros s' (A & B & C). split; auto. split; [eapply goes_trans; [exact E1|]; eapply goes_trans; eauto|].
    unfold recorded. destruct C as [C|C]; auto. right. exists li, ri. rewrite Ep. destruct (Y _ B). auto.
  - eapply ev_mono; [|eapply ev_set_not_equal; eauto]. intros s' (A & B & C). split; auto. split; [eapply goes_trans; [exact E1|]; eapply goes_trans; eauto|].
    unfold recorded. destruct C as [C|C]; auto. right. exists li, ri. rewrite Ep. destruct (Y _ B). auto.
Qed.
Lemma ev_evaluate s l : good s -> ev (fun n => evaluate_literal ordk ordc n s l) (fun r => good (fst r) /\ goes s (fst r) /\
  (has_any_variable (left l) || has_any_variable (right l) = false ->
   in_graph (fst r) (left l) /\ in_graph (fst r) (right l) /\
   exists i j g h gi, term_at (fst r) i = Some (left l) /\ term_at (fst r) j = Some (right l) /\ group_at (fst r) i = Some g /\ group_at (fst r) j = Some h /\
     nth_error (eg_groups (fst r)) g = Some (Info gi) /\
     snd r = if Nat.eqb g h then Some (positive l) else if memb h (gi_ineq gi) then Some (negb (positive l)) else None)).
Proof.
  intros Gd. unfold evaluate_literal. destruct (has_any_variable (left l) || has_any_variable (right l)).
  { apply ev_ret. simpl. split; auto. split; [apply goes_refl|discriminate]. }
  eapply ev_bind; [apply ev_insert; auto|]. intros [s1 li] (G1 & E1 & T1). cbn [fst snd] in *.
  eapply ev_bind; [apply ev_insert; auto|]. intros [s2 ri] (G2 & E2 & T2). cbn [fst snd] in *. apply ev_ret.
  pose proof (term_at_goes _ _ _ _ E2 T1) as T1'.
  destruct (good_group s2 li _ G2 T1') as (lg & X1 & X2 & (gi & X3) & X4). destruct (good_group s2 ri _ G2 T2) as (rg & Y1 & Y2 & _ & Y4).
  rewrite X1, Y1. cbn [rbind].
  assert (Z : forall o, o = (if Nat.eqb lg rg then Some (positive l) else if memb rg (gi_ineq gi) then Some (negb (positive l)) else None) ->
     wp (Ok (s2, o)) (fun r => good (fst r) /\ goes s (fst r) /\ (false = false -> in_graph (fst r) (left l) /\ in_graph (fst r) (right l) /\
     exists i j g h gi, term_at (fst r) i = Some (left l) /\ term_at (fst r) j = Some (right l) /\ group_at (fst r) i = Some g /\ group_at (fst r) j = Some h /\
     nth_error (eg_groups (fst r)) g = Some (Info gi) /\
     snd r = if Nat.eqb g h then Some (positive l) else if memb h (gi_ineq gi) then Some (negb (positive l)) else None))).
  { intros o Eo. cbn [wp fst snd]. split; auto. split; [eapply goes_trans; eauto|]. intros _. split; [exists li; auto|]. split; [exists ri; auto|].
    exists li, ri, lg, rg, gi. auto 8. }
  destruct (Nat.eqb lg rg) eqn:E; [apply Z; auto|]. unfold get_group_info. rewrite X3. cbn [rbind]. destruct (memb rg (gi_ineq gi)); apply Z; auto.
Qed.
Lemma ev_some_true c : forall s, good s -> ev (fun n => some_literal_true ordk ordc n s c) (fun r => good (fst r) /\ goes s (fst r)).
Proof.
  induction c as [|l c IH]; intros s Gd; cbn [some_literal_true].
  - apply ev_ret. simpl. split; auto. apply goes_refl.
  - eapply ev_bind; [apply ev_evaluate; auto|]. intros [s1 v] (G1 & E1 & _). cbn [fst snd] in *.
    assert (R : ev (fun n => some_literal_true ordk ordc n s1 c) (fun r => good (fst r) /\ goes s (fst r))).
    { eapply ev_mono; [|apply IH; auto]. intros r [A B]. split; auto. eapply goes_trans; eauto. }
    destruct v as [[]|]; auto. apply ev_ret. simpl. auto.
Qed.
Lemma ev_check s c : good s -> ev (fun n => check_clause ordk ordc n s c) (fun r => good (fst r) /\ goes s (fst r)).
Proof.
  intros Gd. unfold check_clause. destruct (eg_contra s); [apply ev_ret; simpl; split; auto; apply goes_refl|].
  eapply ev_bind; [apply ev_some_true; auto|]. intros [s1 b] (G1 & E1). cbn [fst snd] in *. destruct b; [apply ev_ret; simpl; auto|].
  unfold clause_exists. destruct c as [|l c]; [apply ev_ret; simpl; auto|]. destruct (existsb _ _); [apply ev_ret; simpl; auto|].
  eapply ev_bind; [apply ev_literal_ids; auto|]. intros [s2 ids] (G2 & E2 & _). cbn [fst snd] in *. apply ev_ret. simpl. split; auto. eapply goes_trans; eauto.
Qed.

Lemma mono_literal_id s l : mono (fun n => literal_id ordk ordc n s l).
Proof. apply mono_bind; [apply mono_insert|]. intros [s1 a]. apply mono_bind; [apply mono_insert|]. intros [s2 b]. apply mono_const. Qed.
Lemma mono_literal_ids c : forall s, mono (fun n => literal_ids ordk ordc n s c).
Proof.
  induction c as [|l c IH]; intros s; cbn [literal_ids]; [apply mono_const|]. apply mono_bind; [apply mono_literal_id|]. intros [s1 i].
  apply mono_bind; [apply IH|]. intros [s2 is]. apply mono_const.
Qed.
Lemma mono_insert_clause s c : mono (fun n => insert_clause ordk ordc n s c).
Proof.
  assert (K : mono (fun n => do (s, ids) <- literal_ids ordk ordc n s c; process_pending ordk ordc n
      match clauseid_new ids with NTrue => s | NFalse => set_contra s | NClause c => push s (OClause c) end)).
  { apply mono_bind; [apply mono_literal_ids|]. intros [s1 ids]. apply mono_process. }
  destruct c as [|l [|l' c]]; auto. cbn [insert_clause]. apply mono_bind; [apply mono_insert|]. intros [s1 li]. apply mono_bind; [apply mono_insert|]. intros [s2 ri].
  destruct (positive l); apply mono_process.
Qed.
Lemma mono_evaluate s l : mono (fun n => evaluate_literal ordk ordc n s l).
Proof.
  unfold evaluate_literal. destruct (_ || _); [apply mono_const|]. apply mono_bind; [apply mono_insert|]. intros [s1 a]. apply mono_bind; [apply mono_insert|].
  intros [s2 b]. apply mono_const.
Qed.
Lemma mono_some_true c : forall s, mono (fun n => some_literal_true ordk ordc n s c).
Proof.
  induction c as [|l c IH]; intros s; cbn [some_literal_true]; [apply mono_const|]. apply mono_bind; [apply mono_evaluate|]. intros [s1 v].
  destruct v as [[]|]; auto. apply mono_const.
Qed.
Lemma mono_check s c : mono (fun n => check_clause ordk ordc n s c).
Proof.
  unfold check_clause. destruct (eg_contra s); [apply mono_const|]. apply mono_bind; [apply mono_some_true|]. intros [s1 b]. destruct b; [apply mono_const|].
  unfold clause_exists. destruct c as [|l c]; [apply mono_const|]. destruct (existsb _ _); [apply mono_const|]. apply mono_bind; [apply mono_literal_ids|].
  intros [s2 ids]. apply mono_const.
Qed.

Lemma recorded_goes s s' c : goes s s' -> recorded s c -> recorded s' c.
Proof.
  intros G. destruct c as [|l [|l' c]]; simpl; auto. intros [C|(i & j & Hi & Hj & H)]; [left; apply (q_con _ _ G); auto|].
  destruct (q_rest _ _ G) as [C|(C1 & C2 & _)]; auto. right. exists i, j. split; [eapply term_at_goes; eauto|]. split; [eapply term_at_goes; eauto|].
  destruct (positive l); auto.
Qed.
Lemma good_new : good eg_new.
Proof.
  split; [|intros _; reflexivity]. split; [|right; intros i Hi; simpl in Hi; lia]. constructor.
  - constructor; auto; simpl; [intros [|] ? H; discriminate|intros [|] ? ? H; discriminate|intros [|] ? H; discriminate].
  - constructor; simpl; [intros [|] ? H; discriminate|intros g (gi & H & _); destruct g; discriminate|intros g h (gi & H & _); destruct g; discriminate].
  - exists (fun _ => 0). intros [|] h H; discriminate.
  - constructor; simpl; try discriminate; [intros [|] ? ? H; discriminate|intros [|] ? H; discriminate|intros [|] ? ? H; discriminate|intros [|] ? ? ? H; discriminate].
  - split; [|split]; simpl; try discriminate. intros [|] ? H; discriminate.
  - constructor; simpl; [apply consistent_new|tauto|tauto].
Qed.
Lemma reached_good A Q s : reached A Q s -> good s /\ forall c, In c A -> recorded s c.
Proof.
  induction 1 as [|A Q s n t s' id H [IH1 IH2] E|A Q s n c s' H [IH1 IH2] E|A Q s n a b ta tb s' H [IH1 IH2] Ea Eb E|A Q s n a b ta tb s' H [IH1 IH2] Ea Eb E
    |A Q s n l s' o H [IH1 IH2] E|A Q s n c s' b H [IH1 IH2] E].
  - split; [apply good_new|intros c []].
  - destruct (ev_get _ _ _ _ (mono_insert s t) (ev_insert s t IH1) E) as (G & P & _). split; auto. intros c Hc. eapply recorded_goes; eauto.
  - destruct (ev_get _ _ _ _ (mono_insert_clause s c) (ev_insert_clause s c IH1) E) as (G & P & R). split; auto. intros d [<-|Hd]; auto. eapply recorded_goes; eauto.
  - destruct (ev_get _ _ _ _ (mono_process _) (ev_set_equal s a b ta tb IH1 Ea Eb) E) as (G & P & R). split; auto. intros d [<-|Hd]; [|eapply recorded_goes; eauto].
    simpl. destruct R as [R|R]; auto. right. exists a, b. split; [eapply term_at_goes; eauto|]. split; [eapply term_at_goes; eauto|auto].
  - destruct (ev_get _ _ _ _ (mono_process _) (ev_set_not_equal s a b ta tb IH1 Ea Eb) E) as (G & P & R). split; auto. intros d [<-|Hd]; [|eapply recorded_goes; eauto].
    simpl. destruct R as [R|R]; auto. right. exists a, b. split; [eapply term_at_goes; eauto|]. split; [eapply term_at_goes; eauto|auto].
  - destruct (ev_get _ _ _ _ (mono_evaluate s l) (ev_evaluate s l IH1) E) as (G & P & _). split; auto. intros c Hc. eapply recorded_goes; eauto.
  - destruct (ev_get _ _ _ _ (mono_check s c) (ev_check s c IH1) E) as (G & P). split; auto. intros d Hd. eapply recorded_goes; eauto.
Qed.

(** ** from numbers to terms *)
Lemma settled_conn s : eg_pending s = [] -> forall i j, conn s i j -> i < length (eg_terms s) -> same_group s i j.
Proof.
  intros P i j H L. assert (X : i = j \/ same_group s i j).
  { apply H.
    - split; [auto|]. split.
      + intros a b [->|(ta & tb & A & B & E)]; auto. right. exists tb, ta. auto.
      + intros a b c [->|(ta & tb & A & B & E)]; auto. intros [<-|(tb' & tc & B' & C & E')]; [right; exists ta, tb; auto|].
        rewrite B in B'. injection B' as <-. right. exists ta, tc. repeat split; auto; congruence.
    - auto.
    - rewrite P. intros a b []. }
  destruct X as [->|X]; auto. destruct (nth_error (eg_terms s) j) as [tj|] eqn:E; [|apply nth_error_None in E; lia]. exists tj, tj. auto.
Qed.
Lemma same_equal s i j t u : same_group s i j -> term_at s i = Some t -> term_at s j = Some u -> equal_in s t u.
Proof.
  intros (ti & tj & Hi & Hj & E) Ti Tj. exists i, j, (ti_group ti). unfold group_at. rewrite Hi, Hj. simpl. repeat split; auto; congruence.
Qed.
Lemma equal_same s i j t u : jwf s -> equal_in s t u -> term_at s i = Some t -> term_at s j = Some u -> same_group s i j.
Proof.
  intros J (i' & j' & g & Ti & Tj & Gi & Gj) Hi Hj. unfold term_at, group_at in *.
  destruct (nth_error (eg_terms s) i) as [ti|] eqn:Ei; [|discriminate]. destruct (nth_error (eg_terms s) j) as [tj|] eqn:Ej; [|discriminate].
  destruct (nth_error (eg_terms s) i') as [ti'|] eqn:Ei'; [|discriminate]. destruct (nth_error (eg_terms s) j') as [tj'|] eqn:Ej'; [|discriminate]. simpl in *.
  assert (i = i') by (eapply (term_unique s J t i i' ti ti'); congruence). assert (j = j') by (eapply (term_unique s J u j j' tj tj'); congruence). subst i' j'.
  exists ti, tj. repeat split; auto; congruence.
Qed.

(** C04: without a contradiction, equality in the graph is an equivalence, subterms of applications are in the graph, and
    applications with equal functions and equal arguments are equal. *)
Theorem graph_congruence A Q s : reached A Q s -> eg_contra s = false ->
  (forall t, in_graph s t -> equal_in s t t) /\
  (forall t u, equal_in s t u -> equal_in s u t) /\
  (forall t u v, equal_in s t u -> equal_in s u v -> equal_in s t v) /\
  (forall f a, in_graph s (TApp f a) -> in_graph s f /\ in_graph s a) /\
  (forall f f' a a', in_graph s (TApp f a) -> in_graph s (TApp f' a') -> equal_in s f f' -> equal_in s a a' -> equal_in s (TApp f a) (TApp f' a')) /\
  (forall T x y, in_graph s (teq T x y) -> equal_in s (teq T x y) (teq T y x)).
Proof.
  intros R C. destruct (reached_good _ _ _ R) as [[[J [C'|H]] S] _]; [congruence|]. specialize (S C).
  split; [|split; [|split; [|split; [|split]]]].
  - intros t (i & Hi). unfold term_at in Hi. destruct (nth_error (eg_terms s) i) as [ti|] eqn:E; [|discriminate]. exists i, i, (ti_group ti). unfold term_at, group_at. rewrite E. auto.
  - intros t u (i & j & g & A1 & A2 & A3 & A4). exists j, i, g. auto.
  - intros t u v (i & j & g & A1 & A2 & A3 & A4) (j' & k & h & B1 & B2 & B3 & B4).
    assert (Ej : j = j').
    { unfold term_at in A2, B1. destruct (nth_error (eg_terms s) j) as [x|] eqn:X; [|discriminate]. destruct (nth_error (eg_terms s) j') as [y|] eqn:Y; [|discriminate].
      simpl in *. eapply (term_unique s J u j j' x y); congruence. }
    subst j'. exists i, k, g. repeat split; auto; congruence.
  - intros f a (i & Hi). unfold term_at in Hi. destruct (nth_error (eg_terms s) i) as [ti|] eqn:E; [|discriminate]. simpl in Hi. injection Hi as Hi.
    destruct (j_d _ J) as (D1 & _). specialize (D1 _ _ E). rewrite Hi in D1. destruct (ti_decomp ti) as [x|x y|]; [destruct D1; discriminate| |destruct D1 as [(? & ? & ? & ?) _]; discriminate].
    destruct D1 as [_ (tf & ta & Hf & Ha & Et)]. injection Et as Et1 Et2. split; [exists x|exists y]; unfold term_at; [rewrite Hf|rewrite Ha]; simpl; congruence.
  - assert (K : forall f a i, term_at s i = Some (TApp f a) -> exists x y tx ty r, term_at s x = Some f /\ term_at s y = Some a /\ nth_error (eg_terms s) x = Some tx /\
      nth_error (eg_terms s) y = Some ty /\ map_get key_eqb (eg_amap s) (ti_group tx, ti_group ty) = Some r /\ same_group s i r).
    { intros f a i Hi. pose proof (term_at_lt _ _ _ Hi) as L. destruct (H i L) as [Hc _]. unfold term_at in Hi.
      destruct (nth_error (eg_terms s) i) as [ti|] eqn:E; [|discriminate]. simpl in Hi. injection Hi as Hi.
      destruct (j_d _ J) as (D1 & _). specialize (D1 _ _ E). rewrite Hi in D1. destruct (ti_decomp ti) as [x|x y|] eqn:Ed; [destruct D1; discriminate| |destruct D1 as [(? & ? & ? & ?) _]; discriminate].
      destruct D1 as [_ (tf & ta & Hf & Ha & Et)]. injection Et as Et1 Et2. destruct (Hc ti x y E Ed) as (tf' & ta' & r & Hf' & Ha' & Hm & Hr).
      exists x, y, tf', ta', r. unfold term_at. rewrite Hf', Ha'. rewrite Hf in Hf'. rewrite Ha in Ha'. injection Hf' as <-. injection Ha' as <-. simpl.
      split; [congruence|]. split; [congruence|]. split; auto. split; auto. split; auto. apply settled_conn; auto. }
    intros f f' a a' (i & Hi) (j & Hj) Ef Ea. destruct (K _ _ _ Hi) as (x & y & tx & ty & r & X1 & X2 & X3 & X4 & X5 & X6).
    destruct (K _ _ _ Hj) as (x' & y' & tx' & ty' & r' & Y1 & Y2 & Y3 & Y4 & Y5 & Y6).
    destruct (equal_same s x x' f f' J Ef X1 Y1) as (u & u' & U1 & U2 & U3). destruct (equal_same s y y' a a' J Ea X2 Y2) as (v & v' & V1 & V2 & V3).
    assert (r = r'). { rewrite X3 in U1. rewrite Y3 in U2. rewrite X4 in V1. rewrite Y4 in V2. injection U1 as <-. injection U2 as <-. injection V1 as <-. injection V2 as <-. rewrite U3, V3 in X5. congruence. }
    subst r'. destruct X6 as (p & q & P1 & P2 & P3), Y6 as (p' & q' & P1' & P2' & P3'). apply (same_equal s i j); auto. exists p, p'. repeat split; auto; congruence.
  - intros T x y (i & Hi). pose proof (term_at_lt _ _ _ Hi) as L. destruct (H i L) as [_ [[]|Hs]].
    pose proof Hi as Hi'. unfold term_at in Hi. destruct (nth_error (eg_terms s) i) as [ti|] eqn:E; [|discriminate]. simpl in Hi. injection Hi as Hi.
    destruct (term_eqb (teq T y x) (teq T x y)) eqn:Eq.
    + apply term_eqb_eq in Eq. rewrite Eq. apply (same_equal s i i); auto. exists ti, ti. auto.
    + destruct (Hs ti (teq T y x) E) as (j & tj & Hj & Et & Cj).
      { rewrite Hi. unfold swapped_eq. change (args (teq T x y)) with [T; x; y]. change (spine_head (teq T x y)) with (TSym SEq). cbn [head_atom]. rewrite Eq. auto. }
      apply (same_equal s i j); auto; [apply settled_conn; auto|]. unfold term_at. rewrite Hj. simpl. congruence.
Qed.

(** C04: what was asserted as a unit clause is recorded. *)
Theorem graph_records_units A Q s : reached A Q s -> eg_contra s = false -> forall p t u, In [Lit p t u] A ->
  if p then equal_in s t u else different_in s t u.
Proof.
  intros R C p t u Hin. destruct (reached_good _ _ _ R) as [[[J _] S] Rc]. specialize (S C). destruct (Rc _ Hin) as [C'|(i & j & Hi & Hj & H)]; [congruence|].
  cbn [left right positive] in *. destruct p.
  - apply (same_equal s i j); auto. apply settled_conn; auto. eapply term_at_lt; eauto.
  - destruct H as [H|(ti & tj & X & Y & (gi & Z & I))]; [rewrite S in H; destruct H|].
    exists i, j, (ti_group ti), (ti_group tj), gi. unfold group_at. rewrite X, Y. simpl. auto 8.
Qed.

(** ** the algebra of the groups *)
Inductive gv := VG (g : nat) | VA (f a : gv) | VO (t : term).
Definition gapp (s : egraph) (f a : gv) : gv :=
  match f, a with
  | VG g, VG h => match map_get key_eqb (eg_amap s) (g, h) with
                  | Some r => match group_at s r with Some k => VG k | None => VA f a end
                  | None => VA f a end
  | _, _ => VA f a
  end.
Definition leaf (s : egraph) (t : term) (o : option nat) : gv :=
  match o with Some i => match group_at s i with Some g => VG g | None => VO t end | None => VO t end.
Fixpoint geval (s : egraph) (t : term) : gv :=
  match t with
  | TAtom a => leaf s t (map_get decomp_eqb (eg_decomps s) (DAtomic a))
  | TApp f a => gapp s (geval s f) (geval s a)
  | TBind _ _ _ => leaf s t (map_get term_eqb (eg_opaque s) t)
  end.
Lemma geval_in A Q s : reached A Q s -> eg_contra s = false -> forall t i, term_at s i = Some t -> exists g, group_at s i = Some g /\ geval s t = VG g.
Proof.
  intros R C. destruct (reached_good _ _ _ R) as [[[J [C'|H]] S] _]; [congruence|]. specialize (S C). destruct (j_d _ J) as (D1 & _).
  induction t as [a|f IHf a IHa|k B IHB b IHb]; intros i Hi; pose proof (term_at_lt _ _ _ Hi) as L; unfold term_at in Hi;
    (destruct (nth_error (eg_terms s) i) as [ti|] eqn:E; [|discriminate]); simpl in Hi; injection Hi as Hi; pose proof (D1 _ _ E) as X; rewrite Hi in X;
    exists (ti_group ti); (split; [unfold group_at; rewrite E; auto|]).
  - destruct (ti_decomp ti) as [x|x y|]; [|destruct X as [_ (? & ? & ? & ? & ?)]; discriminate|destruct X as [(? & ? & ? & ?) _]; discriminate].
    destruct X as [Xa Xb]. injection Xa as <-. simpl. rewrite Xb. simpl. unfold group_at. rewrite E. auto.
  - destruct (ti_decomp ti) as [x|x y|] eqn:Ed; [destruct X; discriminate| |destruct X as [(? & ? & ? & ?) _]; discriminate].
    destruct X as [_ (tf & ta & Hf & Ha & Et)]. injection Et as Et1 Et2. destruct (H i L) as [Hc _].
    destruct (Hc ti x y E Ed) as (tf' & ta' & r & Hf' & Ha' & Hm & Hr). rewrite Hf in Hf'. rewrite Ha in Ha'. injection Hf' as <-. injection Ha' as <-.
    destruct (IHf x) as (gf & Gf & Ef); [unfold term_at; rewrite Hf; simpl; congruence|]. destruct (IHa y) as (ga & Ga & Ea); [unfold term_at; rewrite Ha; simpl; congruence|].
    unfold group_at in Gf, Ga. rewrite Hf in Gf. rewrite Ha in Ga. injection Gf as <-. injection Ga as <-.
    cbn [geval]. rewrite Ef, Ea. cbn [gapp]. rewrite Hm. apply settled_conn in Hr; auto. destruct Hr as (p & q & P1 & P2 & P3). unfold group_at. rewrite P2. simpl.
    rewrite E in P1. injection P1 as <-. congruence.
  - destruct (ti_decomp ti) as [x|x y|]; [destruct X; discriminate|destruct X as [_ (? & ? & ? & ? & ?)]; discriminate|].
    destruct X as [_ X]. cbn [geval]. rewrite X. simpl. unfold group_at. rewrite E. auto.
Qed.

(** C04: everything that follows by equational logic, also through terms that are not in the graph, is known. *)
Theorem graph_equations_complete A Q s : reached A Q s -> eg_contra s = false -> forall t u, derivable (known_eq A s) t u ->
  in_graph s t -> in_graph s u -> equal_in s t u.
Proof.
  intros R C t u D (i & Hi) (j & Hj). assert (V : geval s t = geval s u).
  { clear i Hi j Hj. induction D as [t u E|t|t u D IH|t u v D1 IH1 D2 IH2|f f' a a' D1 IH1 D2 IH2]; [|reflexivity|congruence|congruence|cbn [geval]; congruence].
    assert (X : equal_in s t u).
    { destruct E as [E|(T & x & y & G & -> & ->)].
      - apply (graph_records_units A Q s R C true). exact E.
      - apply (graph_congruence A Q s R C). auto. }
    destruct X as (i & j & g & T1 & T2 & G1 & G2). destruct (geval_in A Q s R C t i T1) as (g1 & A1 & A2). destruct (geval_in A Q s R C u j T2) as (g2 & B1 & B2). congruence. }
  destruct (geval_in A Q s R C t i Hi) as (g1 & A1 & A2). destruct (geval_in A Q s R C u j Hj) as (g2 & B1 & B2).
  exists i, j, g1. repeat split; auto; congruence.
Qed.

(** C04: a disequation that contradicts the equations is found. *)
Theorem graph_finds_contradictions A Q s : reached A Q s -> forall t u, In [Lit false t u] A -> derivable (unit_eq A) t u -> eg_contra s = true.
Proof.
  intros R t u Hin D. destruct (eg_contra s) eqn:C; auto. exfalso.
  destruct (graph_records_units A Q s R C false t u Hin) as (i & j & g & h & gi & A1 & A2 & A3 & A4 & A5 & A6).
  assert (X : equal_in s t u).
  { apply (graph_equations_complete A Q s R C); [|exists i; auto|exists j; auto]. clear - D. induction D; [apply d_ax; left; auto|apply d_refl|apply d_sym; auto|eapply d_trans; eauto|apply d_app; auto]. }
  destruct (reached_good _ _ _ R) as [[[J _] _] _]. destruct (equal_same s i j t u J X A1 A2) as (ti & tj & B1 & B2 & B3).
  unfold group_at in A3, A4. rewrite B1 in A3. rewrite B2 in A4. injection A3 as <-. injection A4 as <-.
  apply (i_irr _ (j_i _ J) (ti_group ti)). exists gi. split; auto. congruence.
Qed.

(** C04: a ground literal that follows by equational logic is evaluated. *)
Theorem evaluate_literal_complete A Q s : reached A Q s -> forall n l s' o, evaluate_literal ordk ordc n s l = Ok (s', o) -> eg_contra s' = false ->
  has_any_variable (left l) = false -> has_any_variable (right l) = false -> derivable (known_eq A s') (left l) (right l) -> o = Some (positive l).
Proof.
  intros R n l s' o E C V1 V2 D. assert (R2 : reached A ([l] :: Q) s') by (eapply r_evaluate; eauto). destruct (reached_good _ _ _ R) as [G _].
  destruct (ev_get _ _ _ _ (mono_evaluate s l) (ev_evaluate s l G) E) as (G' & _ & X). cbn [fst snd] in *. rewrite V1, V2 in X.
  destruct (X eq_refl) as (I1 & I2 & i & j & g & h & gi & T1 & T2 & K1 & K2 & K3 & ->).
  pose proof (graph_equations_complete A _ s' R2 C _ _ D I1 I2) as Eq. destruct (equal_same s' i j _ _ (proj1 (proj1 G')) Eq T1 T2) as (ti & tj & B1 & B2 & B3).
  unfold group_at in K1, K2. rewrite B1 in K1. rewrite B2 in K2. injection K1 as <-. injection K2 as <-. rewrite B3, Nat.eqb_refl. auto.
Qed.

(** C04: every operation returns, and none panics. *)
Theorem graph_total A Q s : reached A Q s ->
  (forall t, (exists n s' i, insert_term ordk ordc n s t = Ok (s', i)) /\ forall n, insert_term ordk ordc n s t <> Panic) /\
  (forall c, (exists n s', insert_clause ordk ordc n s c = Ok s') /\ forall n, insert_clause ordk ordc n s c <> Panic) /\
  (forall a b ta tb, term_at s a = Some ta -> term_at s b = Some tb ->
     ((exists n s', set_terms_equal ordk ordc n s a b = Ok s') /\ forall n, set_terms_equal ordk ordc n s a b <> Panic) /\
     ((exists n s', set_terms_not_equal ordk ordc n s a b = Ok s') /\ forall n, set_terms_not_equal ordk ordc n s a b <> Panic)) /\
  (forall l, (exists n s' o, evaluate_literal ordk ordc n s l = Ok (s', o)) /\ forall n, evaluate_literal ordk ordc n s l <> Panic) /\
  (forall c, (exists n s' b, check_clause ordk ordc n s c = Ok (s', b)) /\ forall n, check_clause ordk ordc n s c <> Panic).
Proof.
  intros R. destruct (reached_good _ _ _ R) as [G _]. split; [|split; [|split; [|split]]].
  - intros t. split; [|intros n; apply (ev_safe _ _ n (mono_insert s t) (ev_insert s t G))]. destruct (ev_some _ _ (ev_insert s t G)) as (n & [s' i] & E). eauto.
  - intros c. split; [|intros n; apply (ev_safe _ _ n (mono_insert_clause s c) (ev_insert_clause s c G))]. destruct (ev_some _ _ (ev_insert_clause s c G)) as (n & s' & E). eauto.
  - intros a b ta tb Ha Hb. split; (split; [|intros n]).
    + destruct (ev_some _ _ (ev_set_equal s a b ta tb G Ha Hb)) as (n & s' & E). eauto.
    + apply (ev_safe _ _ n (mono_process _) (ev_set_equal s a b ta tb G Ha Hb)).
    + destruct (ev_some _ _ (ev_set_not_equal s a b ta tb G Ha Hb)) as (n & s' & E). eauto.
    + apply (ev_safe _ _ n (mono_process _) (ev_set_not_equal s a b ta tb G Ha Hb)).
  - intros l. split; [|intros n; apply (ev_safe _ _ n (mono_evaluate s l) (ev_evaluate s l G))]. destruct (ev_some _ _ (ev_evaluate s l G)) as (n & [s' o] & E). eauto.
  - intros c. split; [|intros n; apply (ev_safe _ _ n (mono_check s c) (ev_check s c G))]. destruct (ev_some _ _ (ev_check s c G)) as (n & [s' b] & E). eauto.
Qed.
End Main.
Print Assumptions graph_congruence.
Print Assumptions graph_records_units.
Print Assumptions graph_equations_complete.
Print Assumptions graph_finds_contradictions.
Print Assumptions evaluate_literal_complete.
Print Assumptions graph_total.

(** [f] is constant 4, [g] is constant 5; [a = c], [f a = b] and [g (f c) <> a] are asserted, so [g (f c) = g b] follows. *)
Definition cg_f t := TApp (eg_c 4) t.
Definition cg_g t := TApp (eg_c 5) t.
Definition cg_A : list (list literal) := [[Lit true (eg_c 1) (eg_c 2)]; [Lit true (cg_f (eg_c 1)) (eg_c 3)]; [Lit false (cg_g (cg_f (eg_c 2))) (eg_c 1)]].
Lemma cg_derivable : derivable (unit_eq cg_A) (cg_g (cg_f (eg_c 2))) (cg_g (eg_c 3)).
Proof.
  apply d_app; [apply d_refl|]. eapply d_trans; [apply d_app; [apply d_refl|apply d_sym; apply d_ax; left; reflexivity]|]. apply d_ax. right; left; reflexivity.
Qed.
Lemma derivable_mono (E E' : term -> term -> Prop) t u : (forall x y, E x y -> E' x y) -> derivable E t u -> derivable E' t u.
Proof. intros H. induction 1; eauto using derivable. Qed.
Example graph_congruence_case :
  (exists s s' o, reached eg_idk eg_idc cg_A [] s /\ eg_contra s = false /\ in_graph s (cg_g (cg_f (eg_c 2))) /\
     evaluate_literal eg_idk eg_idc 40 s (Lit true (cg_g (cg_f (eg_c 2))) (cg_g (eg_c 3))) = Ok (s', o) /\ eg_contra s' = false /\ o = Some true) /\
  (exists s, reached eg_idk eg_idc ([Lit false (cg_g (eg_c 3)) (cg_g (cg_f (eg_c 2)))] :: cg_A) [] s /\ eg_contra s = true).
Proof.
  split.
  - destruct (eg_run cg_A) as [s| |] eqn:E; [|vm_compute in E; discriminate|vm_compute in E; discriminate]. pose proof (eg_run_reached _ _ E) as R.
    vm_compute in E. injection E as <-.
    assert (X : exists s', evaluate_literal eg_idk eg_idc 40 ltac:(match type of R with reached _ _ _ _ ?s => exact s end) (Lit true (cg_g (cg_f (eg_c 2))) (cg_g (eg_c 3))) = Ok (s', Some true) /\ eg_contra s' = false)
      by (eexists; split; [vm_compute; reflexivity|reflexivity]).
    destruct X as (s' & X & Y). eexists _, s', (Some true). split; [exact R|]. split; [reflexivity|]. split; [|auto]. exists 4. vm_compute. reflexivity.
  - destruct (eg_run ([Lit false (cg_g (eg_c 3)) (cg_g (cg_f (eg_c 2)))] :: cg_A)) as [s| |] eqn:E; [|vm_compute in E; discriminate|vm_compute in E; discriminate].
    exists s. pose proof (eg_run_reached _ _ E) as R. split; auto. apply (graph_finds_contradictions eg_idk eg_idc (fun _ l => Permutation_refl l) (fun _ l => Permutation_refl l) _ _ _ R (cg_g (eg_c 3)) (cg_g (cg_f (eg_c 2)))); [left; reflexivity|].
    apply d_sym. apply (derivable_mono (unit_eq cg_A)); [intros x y H; right; exact H|apply cg_derivable].
Qed.

(** C47: a clause that was asserted is accepted again as long as nothing else happens; after one of its literals is refuted the
    graph keeps only the shorter clause, and no longer accepts the asserted one. *)
Definition fg_long : list literal := [Lit true (eg_c 1) (eg_c 2); Lit true (eg_c 3) (eg_c 4); Lit true (eg_c 5) (eg_c 6)].
Theorem graph_keeps_clauses_refuted : exists A c s s', In c A /\ reached eg_idk eg_idc A [] s /\ eg_contra s = false /\
  check_clause eg_idk eg_idc 40 s c = Ok (s', false) /\
  exists s0 s1 n, reached eg_idk eg_idc [c] [] s0 /\ check_clause eg_idk eg_idc n s0 c = Ok (s1, true).
Proof.
  exists [[Lit false (eg_c 1) (eg_c 2)]; fg_long], fg_long.
  destruct (eg_run [[Lit false (eg_c 1) (eg_c 2)]; fg_long]) as [s| |] eqn:E; [|vm_compute in E; discriminate|vm_compute in E; discriminate].
  pose proof (eg_run_reached _ _ E) as R. vm_compute in E. injection E as <-. eexists _, _. split; [right; left; reflexivity|]. split; [exact R|]. split; [reflexivity|].
  split; [vm_compute; reflexivity|]. clear R.
  destruct (eg_run [fg_long]) as [s| |] eqn:E; [|vm_compute in E; discriminate|vm_compute in E; discriminate].
  pose proof (eg_run_reached _ _ E) as R. vm_compute in E. injection E as <-. eexists _, _, 40. split; [exact R|]. vm_compute. reflexivity.
Qed.
Print Assumptions graph_keeps_clauses_refuted.
