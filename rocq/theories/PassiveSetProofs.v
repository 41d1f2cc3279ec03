(** Lemmas about the queue of passive clauses. *)
From Coq Require Import List Arith NArith ZArith Bool Lia Sorted.
Import ListNotations.
From Verif Require Import Term LocalContext Literal Clause EqualityGraph Score P_Score PassiveSet.

(** ** ascending lists *)
Section B.
Context {A : Type} (cmp : A -> A -> comparison) (O : total_order cmp).
Definition ascending := StronglySorted (fun a b => cmp a b = Lt).
Lemma cmp_sym a b : cmp a b = Lt <-> cmp b a = Gt.
Proof. rewrite (o_anti _ O a b). destruct (cmp a b); simpl; split; congruence. Qed.
Lemma cmp_eq_sym a b : cmp a b = Eq <-> cmp b a = Eq.
Proof. rewrite (o_anti _ O a b). destruct (cmp a b); simpl; split; congruence. Qed.
Lemma insert_in x l y : In y (bt_insert cmp x l) -> y = x \/ In y l.
Proof. induction l as [|z l IH]; simpl; [intuition|]. destruct (cmp x z); simpl; intros H; tauto || (destruct H as [H|H]; auto). Qed.
Lemma insert_in_r x l y : In y l -> In y (bt_insert cmp x l).
Proof. induction l as [|z l IH]; simpl; [tauto|]. destruct (cmp x z); simpl; tauto. Qed.
Lemma insert_in_x x l : (forall y, In y l -> cmp x y <> Eq) -> In x (bt_insert cmp x l).
Proof. induction l as [|z l IH]; simpl; intros H; auto. destruct (cmp x z) eqn:E; simpl; auto. exfalso. apply (H z); auto. Qed.
Lemma insert_ascending x l : ascending l -> ascending (bt_insert cmp x l).
Proof.
  induction 1 as [|z l H IH F]; simpl; [repeat constructor|]. rewrite Forall_forall in F. destruct (cmp x z) eqn:E.
  - constructor; auto. apply Forall_forall; auto.
  - constructor; [constructor; auto; apply Forall_forall; auto|]. constructor; auto. apply Forall_forall. intros y Hy. eapply (o_trans _ O); eauto.
  - constructor; auto. apply Forall_forall. intros y Hy. apply insert_in in Hy. destruct Hy as [->|Hy]; auto. apply cmp_sym; auto.
Qed.
Lemma remove_in x l y : ascending l -> (In y (bt_remove cmp x l) <-> In y l /\ cmp x y <> Eq).
Proof.
  induction 1 as [|z l H IH F]; simpl; [tauto|]. rewrite Forall_forall in F. destruct (cmp x z) eqn:E; simpl.
  - split.
    + intros Hy. split; auto. rewrite (o_eq_l _ O _ _ y E), (F y Hy). discriminate.
    + intros [[<-|Hy] Hn]; auto. congruence.
  - rewrite IH. split; [intros [<-|Hy]; [split; auto; congruence|tauto]|tauto].
  - rewrite IH. split; [intros [<-|Hy]; [split; auto; congruence|tauto]|tauto].
Qed.
Lemma remove_ascending x l : ascending l -> ascending (bt_remove cmp x l).
Proof.
  intros H. induction H as [|z l H IH F]; simpl; [constructor|]. destruct (cmp x z); auto; constructor; auto; rewrite Forall_forall in *; intros y Hy;
  apply remove_in in Hy; auto; apply F, Hy.
Qed.
Lemma find_last_none f (l : list A) : find_last f l = None <-> forall x, In x l -> f x = false.
Proof.
  unfold find_last. split.
  - intros H x Hx. apply (find_none _ _ H). apply in_rev in Hx. exact Hx.
  - intros H. destruct (find f (rev l)) as [x|] eqn:E; auto. apply find_some in E. destruct E as [E1 E2]. apply in_rev in E1. rewrite (H x E1) in E2. discriminate.
Qed.
Lemma find_last_some f l x : ascending l -> find_last f l = Some x -> In x l /\ f x = true /\ forall y, In y l -> f y = true -> cmp y x <> Gt.
Proof.
  intros H. unfold find_last. induction H as [|z l H IH F]; simpl; [discriminate|]. rewrite Forall_forall in F.
  assert (Q : forall l', find f (l' ++ [z]) = match find f l' with Some y => Some y | None => if f z then Some z else None end).
  { induction l' as [|a l' IHl]; simpl; auto. destruct (f a); auto. }
  rewrite Q. destruct (find f (rev l)) as [y|] eqn:E.
  - intros H1; injection H1 as ->. destruct (IH eq_refl) as (A1 & A2 & A3). split; auto. split; auto. intros y [<-|Hy] Hf; auto. rewrite (F x A1). discriminate.
  - destruct (f z) eqn:Ez; [|discriminate]. intros H1; injection H1 as ->. split; auto. split; auto. intros y [<-|Hy] Hf.
    + rewrite (o_refl _ O). discriminate.
    + exfalso. assert (N : f y = false) by (apply (proj1 (find_last_none f l) E); auto). congruence.
Qed.
End B.

Lemma nat_order : total_order Nat.compare.
Proof. apply (order_from_rank Z.of_nat). intros a b. symmetry. apply Nat2Z.inj_compare. Qed.
Lemma queue_order : total_order queue_cmp.
Proof. apply (order_lex score_cmp Nat.compare fst snd); [apply score_order_total|apply nat_order]. Qed.
Lemma df_order : total_order df_cmp.
Proof.
  apply (order_lex bool_cmp (fun a b : df_key => then_cmp (status_cmp (snd (fst a)) (snd (fst b))) (Nat.compare (snd a) (snd b))) (fun k : df_key => fst (fst k)) (fun k => k)).
  - apply bool_order.
  - apply (order_lex status_cmp Nat.compare (fun k : df_key => snd (fst k)) snd); [apply status_order|apply nat_order].
Qed.
Lemma queue_eq s id s' id' : queue_cmp (s, id) (s', id') = Eq -> id = id'.
Proof. unfold queue_cmp. simpl. destruct (score_cmp s s'); simpl; try discriminate. apply Nat.compare_eq. Qed.
Lemma df_eq s id s' id' : df_cmp (mk_df s id) (mk_df s' id') = Eq -> id = id'.
Proof. unfold df_cmp. simpl. destruct (bool_cmp _ _); simpl; try discriminate. destruct (status_cmp _ _); simpl; try discriminate. apply Nat.compare_eq. Qed.

Lemma set_nth_len {A} (l : list A) : forall i x, length (set_nth l i x) = length l.
Proof. induction l; destruct i; simpl; auto. Qed.
Lemma set_nth_nth {A} (l : list A) : forall i x j, nth_error (set_nth l i x) j = if Nat.eqb i j && Nat.ltb j (length l) then Some x else nth_error l j.
Proof.
  induction l as [|a l IH]; intros i x j; [rewrite andb_false_r; destruct i; reflexivity|]. destruct i as [|i], j as [|j]; simpl; auto. rewrite IH. reflexivity.
Qed.
Lemma foldm_inv {A S} (I : S -> Prop) (f : S -> A -> res S) l : forall s, I s ->
  (forall s x, I s -> In x l -> exists s', f s x = Ok s' /\ I s') -> exists s', foldm f l s = Ok s' /\ I s'.
Proof.
  induction l as [|x l IH]; simpl; intros s Hs H; [eauto|]. destruct (H s x Hs (or_introl eq_refl)) as (s1 & E & H1). rewrite E. simpl. apply IH; auto.
Qed.

Section P.
Context {info goal : Type}.
Notation pstep := (pstep info).
Notation passive := (@passive info goal).

(** step [st] with score [s] is waiting under the number [id] *)
Definition waiting (p : passive) (id : nat) (st : pstep) (s : score) : Prop := nth_error (clauses p) id = Some (Some (st, s)).
Record sync (p : passive) : Prop := {
  y_asc : ascending queue_cmp (queue p);
  y_queue : forall s id, In (s, id) (queue p) <-> exists st, waiting p id st s;
  y_df_asc : forall d, df_queue p = Some d -> ascending df_cmp d;
  y_df : forall d k, df_queue p = Some d -> (In k d <-> exists st s, waiting p (snd k) st s /\ k = mk_df s (snd k));
  y_index : forall id i, In (id, i) (literals_index p) -> id < length (clauses p) /\ forall st s, waiting p id st s -> i < length (literals (p_clause st));
  y_singles : forall k v, find_single k (singles p) = Some v -> snd v < length (clauses p);
  y_contra : forall a b, contradiction p = Some (a, b) -> a < length (clauses p) /\ b < length (clauses p);
  y_period : df_interleave_period (scoring p) <> None -> df_queue p <> None
}.
(** what stays when [p] becomes [p'] *)
Record later (p p' : passive) : Prop := {
  l_len : length (clauses p) <= length (clauses p');
  l_wait : forall id st s, waiting p id st s -> nth_error (clauses p') id = Some None \/ exists s', waiting p' id st s';
  l_gone : forall id, nth_error (clauses p) id = Some None -> nth_error (clauses p') id = Some None
}.
Lemma later_refl p : later p p.
Proof. constructor; auto. intros id st s H. right. eauto. Qed.
Lemma later_trans p q r : later p q -> later q r -> later p r.
Proof.
  intros [A B C] [A' B' C']. constructor; [lia| |auto]. intros id st s H. destruct (B _ _ _ H) as [H1|[s1 H1]]; eauto.
Qed.

(** *** numbers leave and enter the queues *)
Lemma waiting_fun p id st s st' s' : waiting p id st s -> waiting p id st' s' -> st = st' /\ s = s'.
Proof. unfold waiting. intros H H'. rewrite H in H'. injection H' as -> ->. auto. Qed.
Lemma dequeue_in p st s id : sync p -> waiting p id st s ->
  ascending queue_cmp (queue (dequeue p s id)) /\
  (forall s' id', In (s', id') (queue (dequeue p s id)) <-> id' <> id /\ exists st', waiting p id' st' s') /\
  (forall d, df_queue (dequeue p s id) = Some d -> ascending df_cmp d /\
     forall k, In k d <-> snd k <> id /\ exists st' s', waiting p (snd k) st' s' /\ k = mk_df s' (snd k)).
Proof.
  intros Y W. unfold dequeue. cbn [queue df_queue with_queues]. split; [apply (remove_ascending _ queue_order), Y|]. split.
  - intros s' id'. rewrite (remove_in _ queue_order) by apply Y. rewrite (y_queue _ Y). split.
    + intros [(st' & H) N]. split; [|eauto]. intros ->. apply N. destruct (waiting_fun _ _ _ _ _ _ W H) as [_ <-]. apply (o_refl _ queue_order).
    + intros [N H]. split; auto. intros E. apply queue_eq in E. auto.
  - intros d. unfold df_remove. destruct (df_queue p) as [d0|] eqn:D; simpl; intros H; [|discriminate]. injection H as <-.
    pose proof (y_df_asc _ Y _ D) as A. split; [apply (remove_ascending _ df_order), A|]. intros k. rewrite (remove_in _ df_order) by auto.
    rewrite (y_df _ Y _ k D). split.
    + intros [(st' & s' & H & E) N]. split; [|eauto]. intros Ei. apply N. rewrite Ei in *. destruct (waiting_fun _ _ _ _ _ _ W H) as [_ <-].
      rewrite E. apply (o_refl _ df_order).
    + intros (N & st' & s' & H & E). split; [eauto|]. intros Q. rewrite E in Q. apply df_eq in Q. auto.
Qed.
Lemma set_nth_wait (p q : passive) id o : clauses q = set_nth (clauses p) id o -> id < length (clauses p) ->
  forall j st s, waiting q j st s <-> (j <> id /\ waiting p j st s) \/ (j = id /\ o = Some (st, s)).
Proof.
  intros E L j st s. unfold waiting. rewrite E, set_nth_nth. destruct (Nat.eqb_spec id j) as [<-|N]; simpl.
  - rewrite (proj2 (Nat.ltb_lt _ _) L). split; [intros H; injection H as ->; auto|]. intros [[H _]|[_ ->]]; [congruence|auto].
  - split; [auto|]. intros [[_ H]|[H _]]; [auto|congruence].
Qed.
Lemma waiting_lt p id st s : waiting p id st s -> id < length (clauses p).
Proof. intros H. apply nth_error_Some. unfold waiting in H. congruence. Qed.
(** a waiting step is taken out *)
Lemma take_sync p p' id st s : sync p -> waiting p id st s ->
  clauses p' = set_nth (clauses p) id None -> queue p' = queue (dequeue p s id) -> df_queue p' = df_queue (dequeue p s id) ->
  literals_index p' = literals_index p -> singles p' = singles p -> contradiction p' = contradiction p -> scoring p' = scoring p ->
  sync p' /\ later p p' /\ (forall j st' s', waiting p' j st' s' <-> j <> id /\ waiting p j st' s') /\ nth_error (clauses p') id = Some None.
Proof.
  intros Y W Ec Eq Ed Ei Es Ex Esc. destruct (dequeue_in p st s id Y W) as (A & B & C). pose proof (waiting_lt _ _ _ _ W) as L.
  pose proof (set_nth_wait p p' id None Ec L) as Q.
  assert (Q' : forall j st' s', waiting p' j st' s' <-> j <> id /\ waiting p j st' s').
  { intros. rewrite Q. split; [intros [H|[_ H]]; [auto|discriminate]|auto]. }
  assert (Z : nth_error (clauses p') id = Some None) by (rewrite Ec, set_nth_nth, Nat.eqb_refl, (proj2 (Nat.ltb_lt _ _) L); reflexivity).
  split; [|split; [|split; auto]].
  - constructor.
    + rewrite Eq. exact A.
    + intros s' id'. rewrite Eq, B. split; [intros (N & st' & H); exists st'; apply Q'; auto|intros (st' & H); apply Q' in H; destruct H; eauto].
    + intros d Hd. rewrite Ed in Hd. apply (C d Hd).
    + intros d k Hd. rewrite Ed in Hd. destruct (C d Hd) as [_ C']. rewrite C'. split.
      * intros (N & st' & s' & H & E). exists st', s'. split; [apply Q'; auto|auto].
      * intros (st' & s' & H & E). apply Q' in H. destruct H. split; eauto.
    + rewrite Ei, Ec, set_nth_len. intros j i H. destruct (y_index _ Y _ _ H) as [H1 H2]. split; auto. intros st' s' H'. apply Q' in H'. eapply H2, H'.
    + rewrite Es, Ec, set_nth_len. apply (y_singles _ Y).
    + rewrite Ex, Ec, set_nth_len. apply (y_contra _ Y).
    + rewrite Esc, Ed. intros H. apply (y_period _ Y) in H. cbn. destruct (df_queue p); [discriminate|auto].
  - constructor.
    + rewrite Ec, set_nth_len. auto.
    + intros j st' s' H. destruct (Nat.eq_dec j id) as [->|N]; [auto|]. right. exists s'. apply Q'. auto.
    + intros j H. rewrite Ec, set_nth_nth. destruct (Nat.eqb id j && Nat.ltb j (length (clauses p))); auto.
Qed.
(** a number that is not in the queues enters them *)
Lemma enqueue_in (p : passive) (P : nat -> score -> Prop) s id : ascending queue_cmp (queue p) ->
  (forall s' id', In (s', id') (queue p) <-> id' <> id /\ P id' s') ->
  (forall d, df_queue p = Some d -> ascending df_cmp d /\ forall k, In k d <-> snd k <> id /\ exists s', P (snd k) s' /\ k = mk_df s' (snd k)) ->
  ascending queue_cmp (queue (enqueue p s id)) /\
  (forall s' id', In (s', id') (queue (enqueue p s id)) <-> (id' <> id /\ P id' s') \/ (id' = id /\ s' = s)) /\
  (forall d, df_queue (enqueue p s id) = Some d -> ascending df_cmp d /\
    forall k, In k d <-> (snd k <> id /\ exists s', P (snd k) s' /\ k = mk_df s' (snd k)) \/ k = mk_df s id).
Proof.
  intros A B C. unfold enqueue. cbn [queue df_queue with_queues]. split; [apply (insert_ascending _ queue_order), A|]. split.
  - intros s' id'. split.
    + intros H. apply insert_in in H. destruct H as [H|H]; [injection H as -> ->; auto|left; apply B; auto].
    + intros [H|[-> ->]]; [apply insert_in_r, B, H|]. apply insert_in_x. intros [s2 id2] H2 E. apply queue_eq in E. apply B in H2. destruct H2; auto.
  - intros d. unfold df_insert. destruct (df_queue p) as [d0|] eqn:D; simpl; intros H; [|discriminate]. injection H as <-.
    destruct (C d0 eq_refl) as [C1 C2]. split; [apply (insert_ascending _ df_order), C1|]. intros k. split.
    + intros H. apply insert_in in H. destruct H as [->|H]; auto. left. apply C2. auto.
    + intros [H| ->]; [apply insert_in_r, C2, H|]. apply insert_in_x. intros k2 H2 E. apply C2 in H2. destruct H2 as (N & s' & _ & E2). rewrite E2 in E. apply df_eq in E. auto.
Qed.

Context (harvest : goal -> pstep -> goal) (known : goal -> bool) (is_goal : pstep -> bool) (uses_goal : bool).
Context (scorer : goal -> pstep -> score) (inhab : term -> lctx -> bool).

Lemma rescore_sync p id : sync p -> id < length (clauses p) -> exists p', rescore scorer p id = Ok p' /\ sync p' /\ later p p' /\
  length (clauses p') = length (clauses p) /\ scoring p' = scoring p /\
  forall j st, (exists s, waiting p j st s) <-> exists s, waiting p' j st s.
Proof.
  intros Y L. unfold rescore. destruct (nth_error (clauses p) id) as [[[st old]|]|] eqn:E.
  - assert (W : waiting p id st old) by exact E. set (new := scorer (goal_symbols p) st). eexists. split; [reflexivity|].
    destruct (dequeue_in p st old id Y W) as (A & B & C).
    destruct (enqueue_in (dequeue p old id) (fun j s' => exists st', waiting p j st' s') new id A) as (A' & B' & C').
    { intros s' id'. rewrite B. tauto. }
    { intros d Hd. destruct (C d Hd) as [C1 C2]. split; auto. intros k. rewrite C2. split; intros (N & H); split; auto.
      - destruct H as (st' & s' & H1 & H2). eauto.
      - destruct H as (s' & (st' & H1) & H2). eauto. }
    set (p' := with_clauses (enqueue (dequeue p old id) new id) (set_nth (clauses p) id (Some (st, new)))).
    pose proof (set_nth_wait p p' id (Some (st, new)) eq_refl L) as Q.
    split; [|split; [|split; [|split]]].
    + constructor.
      * exact A'.
      * intros s' id'. unfold p'. cbn [queue with_clauses]. rewrite B'. split.
        -- intros [(N & st' & H)|[-> ->]]; [exists st'; apply Q; auto|exists st; apply Q; auto].
        -- intros (st' & H). apply Q in H. destruct H as [[N H]|[-> H]]; [left; eauto|right]. split; auto. congruence.
      * intros d Hd. apply (C' d Hd).
      * intros d k Hd. destruct (C' d Hd) as [_ C2]. rewrite C2. split.
        -- intros [(N & s' & (st' & H) & Ek)| ->]; [exists st', s'; split; auto; apply Q; auto|]. exists st, new. split; auto. apply Q. auto.
        -- intros (st' & s' & H & Ek). apply Q in H. destruct H as [[N H]|[Ei H]]; [left; split; eauto|right]. injection H as -> <-. rewrite Ek, Ei. reflexivity.
      * intros j i H. cbn [literals_index with_clauses enqueue dequeue with_queues] in H. destruct (y_index _ Y _ _ H) as [H1 H2].
        unfold p'. cbn [clauses with_clauses]. rewrite set_nth_len. split; auto. intros st' s' H'. apply Q in H'. destruct H' as [[_ H']|[-> H']]; [eapply H2; eauto|].
        injection H' as -> _. eapply H2; eauto.
      * intros k v H. unfold p'. cbn [clauses with_clauses]. rewrite set_nth_len. apply (y_singles _ Y k v H).
      * intros a b H. unfold p'. cbn [clauses with_clauses]. rewrite set_nth_len. apply (y_contra _ Y a b H).
      * intros H. apply (y_period _ Y) in H. cbn. destruct (df_queue p); [discriminate|auto].
    + constructor.
      * unfold p'. cbn [clauses with_clauses]. rewrite set_nth_len. auto.
      * intros j st' s' H. right. destruct (Nat.eq_dec j id) as [->|N]; [exists new; apply Q; right; split; auto; destruct (waiting_fun _ _ _ _ _ _ W H); congruence|].
        exists s'. apply Q. auto.
      * intros j H. unfold p'. cbn [clauses with_clauses]. rewrite set_nth_nth. destruct (Nat.eqb_spec id j) as [<-|]; auto. unfold waiting in W. congruence.
    + unfold p'. cbn [clauses with_clauses]. apply set_nth_len.
    + reflexivity.
    + intros j st'. split.
      * intros [s' H]. destruct (Nat.eq_dec j id) as [->|N]; [exists new; apply Q; right; split; auto; destruct (waiting_fun _ _ _ _ _ _ W H); congruence|].
        exists s'. apply Q. auto.
      * intros [s' H]. apply Q in H. destruct H as [[_ H]|[-> H]]; [eauto|]. injection H as -> _. eauto.
  - exists p. split; auto. split; auto. split; [apply later_refl|]. split; auto. split; [auto|tauto].
  - apply nth_error_None in E. lia.
Qed.
Lemma rescore_all_sync p : sync p -> exists p', rescore_all scorer p = Ok p' /\ sync p' /\ later p p' /\
  length (clauses p') = length (clauses p) /\ scoring p' = scoring p /\ forall j st, (exists s, waiting p j st s) <-> exists s, waiting p' j st s.
Proof.
  intros Y. apply (foldm_inv (fun p' => sync p' /\ later p p' /\ length (clauses p') = length (clauses p) /\ scoring p' = scoring p /\
     forall j st, (exists s, waiting p j st s) <-> exists s, waiting p' j st s)).
  - split; auto. split; [apply later_refl|]. split; auto. split; [auto|tauto].
  - intros q id (Yq & Lq & Len & Sc & Wq) Hid. apply in_seq in Hid. destruct (rescore_sync q id Yq) as (q' & E & Y' & L' & Len' & Sc' & W'); [lia|].
    exists q'. split; auto. split; auto. split; [eapply later_trans; eauto|]. split; [congruence|]. split; [congruence|]. intros j st. rewrite Wq. apply W'.
Qed.

Lemma note_single_sync p st id : sync p -> exists p', note_single inhab p st id = Ok p' /\ clauses p' = clauses p /\ queue p' = queue p /\ df_queue p' = df_queue p /\
  literals_index p' = literals_index p /\ scoring p' = scoring p /\ goal_symbols p' = goal_symbols p /\
  (forall k v, find_single k (singles p') = Some v -> snd v < length (clauses p) \/ snd v = id) /\
  (forall a b, contradiction p' = Some (a, b) -> a < length (clauses p) /\ (b < length (clauses p) \/ b = id)).
Proof.
  intros Y. assert (Hs : forall k v, find_single k (singles p) = Some v -> snd v < length (clauses p) \/ snd v = id) by (intros k v H; left; apply (y_singles _ Y k v H)).
  assert (Hc : forall a b, contradiction p = Some (a, b) -> a < length (clauses p) /\ (b < length (clauses p) \/ b = id)).
  { intros a b H. destruct (y_contra _ Y a b H). auto. }
  assert (Same : exists p', Ok p = Ok p' /\ clauses p' = clauses p /\ queue p' = queue p /\ df_queue p' = df_queue p /\
    literals_index p' = literals_index p /\ scoring p' = scoring p /\ goal_symbols p' = goal_symbols p /\
    (forall k v, find_single k (singles p') = Some v -> snd v < length (clauses p) \/ snd v = id) /\
    (forall a b, contradiction p' = Some (a, b) -> a < length (clauses p) /\ (b < length (clauses p) \/ b = id))).
  { exists p. repeat (split; [auto; fail|]). auto. }
  unfold note_single. destruct (literals (p_clause st)) as [|l [|l2 r]]; [exact Same| |exact Same].
  destruct (find_single (left l, right l) (singles p)) as [[pos old]|] eqn:F.
  - pose proof (y_singles _ Y _ _ F) as Ho. cbn [snd] in Ho. destruct (Bool.eqb pos (positive l)); [exact Same|].
    destruct (nth_error (clauses p) old) as [[[other so]|]|] eqn:E; [| exact Same |apply nth_error_None in E; lia].
    destruct (_ && _); [|exact Same]. eexists. split; [reflexivity|]. cbn. repeat (split; [auto; fail|]).
    intros a b H. injection H as <- <-. auto.
  - eexists. split; [reflexivity|]. cbn [clauses queue df_queue literals_index scoring goal_symbols singles contradiction with_singles].
    repeat (split; [auto; fail|]). split; [|exact Hc].
    intros k v. cbn [find_single fst snd]. destruct (term_eqb (left l) (fst k) && term_eqb (right l) (snd k)); [intros H; injection H as <-; auto|apply Hs].
Qed.
Lemma push_sync p st s : sync p -> exists p', push_scored inhab p st s = Ok p' /\ sync p' /\ later p p' /\ clauses p' = clauses p ++ [Some (st, s)] /\
  scoring p' = scoring p /\ goal_symbols p' = goal_symbols p /\
  literals_index p' = literals_index p ++ map (pair (length (clauses p))) (seq 0 (length (literals (p_clause st)))).
Proof.
  intros Y. unfold push_scored. set (id := length (clauses p)).
  set (p1 := with_index p (literals_index p ++ map (pair id) (seq 0 (length (literals (p_clause st)))))).
  assert (N : exists p2, note_single inhab p1 st id = Ok p2 /\ clauses p2 = clauses p /\ queue p2 = queue p /\ df_queue p2 = df_queue p /\
    literals_index p2 = literals_index p1 /\ scoring p2 = scoring p /\ goal_symbols p2 = goal_symbols p /\
    (forall k v, find_single k (singles p2) = Some v -> snd v < length (clauses p) \/ snd v = id) /\
    (forall a b, contradiction p2 = Some (a, b) -> a < length (clauses p) /\ (b < length (clauses p) \/ b = id))).
  { destruct (note_single_sync p st id Y) as (p2 & E & C1 & C2 & C3 & C4 & C5 & C6 & C7 & C8).
    unfold note_single in *. unfold p1. cbn [singles clauses with_index].
    destruct (literals (p_clause st)) as [|l [|l2 r]].
    - injection E as <-. eexists. split; [reflexivity|]. cbn. auto 9.
    - destruct (find_single (left l, right l) (singles p)) as [[pos old]|].
      + destruct (Bool.eqb pos (positive l)); [injection E as <-; eexists; split; [reflexivity|]; cbn; auto 9|].
        destruct (nth_error (clauses p) old) as [[[other so]|]|]; [|injection E as <-; eexists; split; [reflexivity|]; cbn; auto 9|discriminate].
        destruct (_ && _); injection E as <-; eexists; (split; [reflexivity|]); cbn in *; auto 9.
      + injection E as <-. eexists. split; [reflexivity|]. cbn in *. auto 9.
    - injection E as <-. eexists. split; [reflexivity|]. cbn. auto 9. }
  destruct N as (p2 & -> & C1 & C2 & C3 & C4 & C5 & C6 & C7 & C8). cbn [rbind]. eexists. split; [reflexivity|].
  set (p3 := enqueue (with_clauses p2 (clauses p2 ++ [Some (st, s)])) s id).
  assert (Cp : clauses p3 = clauses p ++ [Some (st, s)]) by (unfold p3; cbn; rewrite C1; reflexivity).
  assert (Q : forall j st' s', waiting p3 j st' s' <-> (j <> id /\ waiting p j st' s') \/ (j = id /\ st' = st /\ s' = s)).
  { intros j st' s'. unfold waiting. rewrite Cp. destruct (Nat.lt_ge_cases j id) as [Hl|Hl].
    - rewrite nth_error_app1 by auto. split; [left; split; auto; lia|]. intros [[_ H]|[-> _]]; [auto|lia].
    - rewrite nth_error_app2 by auto. fold id. destruct (Nat.eq_dec j id) as [->|Hn].
      + rewrite Nat.sub_diag. cbn [nth_error]. split; [intros H; injection H as -> ->; auto|]. intros [[H _]|[_ [-> ->]]]; [congruence|auto].
      + destruct (j - id) as [|k] eqn:Ek; [lia|]. cbn [nth_error]. split; [destruct k; discriminate|]. intros [[_ H]|[H _]]; [|lia].
        exfalso. assert (j < id) by (apply nth_error_Some; congruence). lia. }
  assert (Wl : forall j st' s', waiting p j st' s' -> j <> id) by (intros j st' s' H; apply waiting_lt in H; unfold id; lia).
  destruct (enqueue_in (with_clauses p2 (clauses p2 ++ [Some (st, s)])) (fun j s' => exists st', waiting p j st' s') s id) as (A & B & C).
  { cbn. rewrite C2. apply Y. }
  { intros s' id'. cbn. rewrite C2, (y_queue _ Y). split; [intros [st' H]; split; eauto|tauto]. }
  { cbn. rewrite C3. intros d Hd. split; [apply (y_df_asc _ Y _ Hd)|]. intros k. rewrite (y_df _ Y _ k Hd). split.
    - intros (st' & s' & H & Ek). split; eauto.
    - intros (_ & s' & (st' & H) & Ek). eauto. }
  split; [|split; [|split; [exact Cp|split; [cbn; exact C5|split; [cbn; exact C6|cbn; rewrite C4; reflexivity]]]]].
  - constructor.
    + exact A.
    + intros s' id'. unfold p3. rewrite B. split.
      * intros [(N & st' & H)|[-> ->]]; [exists st'; apply Q; auto|exists st; apply Q; auto].
      * intros (st' & H). apply Q in H. destruct H as [[N H]|(-> & _ & ->)]; [left; eauto|auto].
    + intros d Hd. apply (C d Hd).
    + intros d k Hd. destruct (C d Hd) as [_ C']. rewrite C'. split.
      * intros [(N & s' & (st' & H) & Ek)| ->]; [exists st', s'; split; auto; apply Q; auto|]. exists st, s. split; auto. apply Q. auto.
      * intros (st' & s' & H & Ek). apply Q in H. destruct H as [[N H]|(Ei & _ & ->)]; [left; split; eauto|right]. rewrite Ek, Ei. reflexivity.
    + intros j i H. rewrite Cp, app_length. cbn [length]. unfold p3 in H. cbn in H. rewrite C4 in H. cbn in H. apply in_app_or in H. destruct H as [H|H].
      * destruct (y_index _ Y _ _ H) as [H1 H2]. split; [lia|]. intros st' s' H'. apply Q in H'. destruct H' as [[_ H']|(-> & _)]; [eapply H2; eauto|unfold id in H1; lia].
      * apply in_map_iff in H. destruct H as (x & Hx & Hi). injection Hx as <- <-. apply in_seq in Hi. split; [unfold id; lia|].
        intros st' s' H'. apply Q in H'. destruct H' as [[H' _]|(_ & -> & _)]; [congruence|lia].
    + intros k v H. rewrite Cp, app_length. cbn [length]. destruct (C7 k v H); unfold id in *; lia.
    + intros a b H. rewrite Cp, app_length. cbn [length]. destruct (C8 a b H) as [H1 [H2|H2]]; unfold id in *; lia.
    + intros H. unfold p3 in H. cbn in H. rewrite C5 in H. apply (y_period _ Y) in H. unfold p3. cbn. rewrite C3. destruct (df_queue p); [discriminate|auto].
  - constructor.
    + rewrite Cp, app_length. lia.
    + intros j st' s' H. right. exists s'. apply Q. left. split; eauto.
    + intros j H. rewrite Cp. rewrite nth_error_app1; auto. apply nth_error_Some. congruence.
Qed.
Lemma push_all_sync steps : forall p, sync p -> exists p', foldm (fun p st => push_scored inhab p st (scorer (goal_symbols p) st)) steps p = Ok p' /\ sync p' /\ later p p' /\
  scoring p' = scoring p /\ incl (literals_index p) (literals_index p') /\
  exists ss, length ss = length steps /\ clauses p' = clauses p ++ map (fun x => Some x) (combine steps ss).
Proof.
  induction steps as [|st r IH]; intros p Y; cbn [foldm].
  - exists p. split; auto. split; auto. split; [apply later_refl|]. split; auto. split; [apply incl_refl|]. exists []. split; auto. symmetry. apply app_nil_r.
  - destruct (push_sync p st (scorer (goal_symbols p) st) Y) as (p1 & -> & Y1 & L1 & C1 & S1 & _ & I1). cbn [rbind].
    destruct (IH p1 Y1) as (p' & E & Y' & L' & S' & I' & ss & Ls & C'). exists p'. split; auto. split; auto. split; [eapply later_trans; eauto|]. split; [congruence|]. split.
    + intros x Hx. apply I'. rewrite I1. apply in_or_app. auto.
    + exists (scorer (goal_symbols p) st :: ss). split; [cbn; congruence|]. rewrite C', C1, <- app_assoc. reflexivity.
Qed.
Lemma push_batch_sync p steps : sync p -> exists p', push_batch harvest known is_goal uses_goal scorer inhab p steps = Ok p' /\ sync p' /\ later p p' /\ scoring p' = scoring p /\
  length (clauses p') = length (clauses p) + length steps /\
  (forall i st, nth_error steps i = Some st -> exists s, waiting p' (length (clauses p) + i) st s) /\
  (forall j st, j < length (clauses p) -> ((exists s, waiting p j st s) <-> exists s, waiting p' j st s)).
Proof.
  intros Y. unfold push_batch. destruct steps as [|st r].
  { exists p. split; auto. split; auto. split; [apply later_refl|]. split; auto. split; [cbn; lia|]. split; [intros [|i]; discriminate|tauto]. }
  set (steps := st :: r) in *. set (p1 := with_goal p (fold_left harvest (filter is_goal steps) (goal_symbols p))).
  assert (Y1 : sync p1) by (destruct Y; constructor; auto).
  assert (R : exists p2, (if existsb is_goal steps && negb (known (goal_symbols p)) && uses_goal then rescore_all scorer p1 else Ok p1) = Ok p2 /\
    sync p2 /\ later p1 p2 /\ length (clauses p2) = length (clauses p1) /\ scoring p2 = scoring p1 /\ forall j st, (exists s, waiting p1 j st s) <-> exists s, waiting p2 j st s).
  { destruct (_ && uses_goal); [apply rescore_all_sync, Y1|]. exists p1. split; auto. split; auto. split; [apply later_refl|]. split; auto. split; [auto|tauto]. }
  destruct R as (p2 & -> & Y2 & L2 & Len2 & S2 & W2). cbn [rbind].
  destruct (push_all_sync steps p2 Y2) as (p' & E & Y' & L' & S' & _ & ss & Ls & C'). exists p'. split; auto. split; auto. split.
  { eapply later_trans; [|exact L']. destruct L2. constructor; auto. }
  split; [rewrite S', S2; reflexivity|]. change (length (clauses p1)) with (length (clauses p)) in Len2. split; [|split].
  - rewrite C', app_length, map_length, combine_length. lia.
  - intros i st' Hi. unfold waiting. rewrite C', nth_error_app2 by lia. replace (length (clauses p) + i - length (clauses p2)) with i by lia.
    rewrite nth_error_map. assert (G : exists s, nth_error (combine steps ss) i = Some (st', s)).
    { clear - Ls Hi. revert ss Ls i Hi. generalize steps. clear. intros steps. induction steps as [|a l IH]; intros [|b ss] L [|i] Hi; cbn in *; try discriminate; [injection Hi as ->; eauto|]. apply IH; auto. }
    destruct G as [s G]. rewrite G. exists s. reflexivity.
  - intros j st' Hj. change (exists s, waiting p j st' s) with (exists s, waiting p1 j st' s). rewrite W2. unfold waiting. rewrite C', nth_error_app1 by lia. reflexivity.
Qed.

(** *** pops *)
Definition pops (p p' : passive) (id : nat) (st : pstep) (s : score) : Prop :=
  waiting p id st s /\ sync p' /\ later p p' /\ (forall j st' s', waiting p' j st' s' <-> j <> id /\ waiting p j st' s') /\ nth_error (clauses p') id = Some None /\ scoring p' = scoring p.
Lemma take_pops p q id st s : sync p -> waiting p id st s -> clauses q = clauses p -> queue q = queue (dequeue p s id) -> df_queue q = df_queue (dequeue p s id) ->
  literals_index q = literals_index p -> singles q = singles p -> contradiction q = contradiction p -> scoring q = scoring p ->
  exists p', take_entry q id = Ok (p', (id, st, s)) /\ pops p p' id st s.
Proof.
  intros Y W Ec Eq Ed Ei Es Ex Esc. unfold take_entry. rewrite Ec, W. eexists. split; [reflexivity|].
  destruct (take_sync p (with_clauses q (set_nth (clauses p) id None)) id st s Y W) as (A & B & C & D); cbn; auto.
  unfold pops. auto 9.
Qed.
Lemma shallow_fields (p : passive) s : clauses (note_shallow p s) = clauses p /\ queue (note_shallow p s) = queue p /\ df_queue (note_shallow p s) = df_queue p /\
  literals_index (note_shallow p s) = literals_index p /\ singles (note_shallow p s) = singles p /\ contradiction (note_shallow p s) = contradiction p /\
  scoring (note_shallow p s) = scoring p /\ pop_count (note_shallow p s) = pop_count p.
Proof. unfold note_shallow. destruct (s_shallow s); cbn; auto 9. Qed.
Lemma score_of_queue s id s' id' : queue_cmp (s', id') (s, id) <> Gt -> score_cmp s' s <> Gt.
Proof. unfold queue_cmp. cbn [fst snd]. destruct (score_cmp s' s); cbn; congruence. Qed.
Lemma pop_main_spec p : sync p -> exists p' o, pop_main p = Ok (p', o) /\
  match o with
  | Some (id, st, s) => pops p p' id st s /\ forall j st' s', waiting p j st' s' -> score_cmp s' s <> Gt
  | None => p' = p /\ forall j st s, ~ waiting p j st s
  end.
Proof.
  intros Y. unfold pop_main. destruct (find_last (fun _ => true) (queue p)) as [[s id]|] eqn:F.
  - destruct (find_last_some _ queue_order _ _ _ (y_asc _ Y) F) as (A & _ & B). apply (y_queue _ Y) in A. destruct A as [st W].
    destruct (shallow_fields (dequeue p s id) s) as (f1 & f2 & f3 & f4 & f5 & f6 & f7 & f8).
    destruct (take_pops p (note_shallow (dequeue p s id) s) id st s Y W) as (p' & -> & P); auto.
    cbn [rbind]. exists p', (Some (id, st, s)). split; auto. split; auto. intros j st' s' H.
    apply (score_of_queue s id s' j). apply B; auto. apply (y_queue _ Y). eauto.
  - exists p, None. split; auto. split; auto. intros j st s H. apply (proj1 (find_last_none _ _) F (s, j)) in H || (assert (H' : In (s, j) (queue p)) by (apply (y_queue _ Y); eauto)).
    pose proof (proj1 (find_last_none (fun _ => true) _) F (s, j) H'). discriminate.
Qed.
Lemma pop_df_spec p : sync p -> exists p' o, pop_df p = Ok (p', o) /\
  match o with
  | Some (id, st, s) => pops p p' id st s /\ forall j st' s', waiting p j st' s' -> df_cmp (mk_df s' j) (mk_df s id) <> Gt
  | None => p' = p /\ (df_queue p <> None -> forall j st s, ~ waiting p j st s)
  end.
Proof.
  intros Y. unfold pop_df. destruct (df_queue p) as [d|] eqn:D; [|exists p, None; split; auto; split; auto; congruence].
  destruct (find_last (fun _ => true) d) as [k|] eqn:F.
  - destruct (find_last_some _ df_order _ _ _ (y_df_asc _ Y _ D) F) as (A & _ & B). apply (y_df _ Y _ _ D) in A. destruct A as (st & s & W & Ek).
    cbn [clauses with_queues]. pose proof W as W'. unfold waiting in W'. rewrite W'.
    set (q := with_queues _ _ _). destruct (shallow_fields q s) as (f1 & f2 & f3 & f4 & f5 & f6 & f7 & f8).
    destruct (take_pops p (note_shallow q s) (snd k) st s Y W) as (p' & -> & P); auto.
    { rewrite f3. unfold q, dequeue. cbn. rewrite D. cbn. rewrite <- Ek. reflexivity. }
    cbn [rbind]. exists p', (Some (snd k, st, s)). split; auto. split; auto. intros j st' s' H. rewrite <- Ek. apply B; auto. apply (y_df _ Y _ _ D). cbn [snd mk_df]. eauto.
  - exists p, None. split; auto. split; auto. intros _ j st s H. assert (H' : In (mk_df s j) d) by (apply (y_df _ Y _ _ D); cbn; eauto).
    pose proof (proj1 (find_last_none (fun _ => true) _) F _ H'). discriminate.
Qed.
Lemma pops_count p n p' id st s : pops (with_count p n) p' id st s -> pops p p' id st s.
Proof. intros (A & B & C & D). split; auto. split; auto. split; [destruct C; constructor; auto|]. exact D. Qed.
Lemma pop_entry_spec p : sync p -> exists p' o, pop_entry p = Ok (p', o) /\
  match o with
  | Some (id, st, s) => pops p p' id st s /\
      (df_turn p = false -> forall j st' s', waiting p j st' s' -> score_cmp s' s <> Gt) /\
      (df_turn p = true -> forall j st' s', waiting p j st' s' -> df_cmp (mk_df s' j) (mk_df s id) <> Gt)
  | None => sync p' /\ later p p' /\ scoring p' = scoring p /\ forall j st s, ~ waiting p j st s
  end.
Proof.
  intros Y. assert (Y1 : sync (with_count p (S (pop_count p)))) by (destruct Y; constructor; auto).
  unfold pop_entry. destruct (df_turn p) eqn:T.
  - destruct (pop_df_spec _ Y1) as (p1 & o & -> & H). cbn [rbind]. destruct o as [[[id st] s]|].
    + exists p1, (Some (id, st, s)). split; auto. destruct H as [P M]. apply pops_count in P. split; auto. split; [discriminate|auto].
    + destruct H as [-> H]. destruct (pop_main_spec _ Y1) as (p2 & o & -> & H2). exists p2, o. split; auto. destruct o as [[[id st] s]|].
      * destruct H2 as [P M]. pose proof P as P0. apply pops_count in P. split; auto. split; [discriminate|]. intros _. exfalso. refine (H _ id st s (proj1 P)).
        apply (y_period _ Y1). cbn. unfold df_turn in T. destruct (df_interleave_period (scoring p)); discriminate.
      * destruct H2 as [-> H2]. split; auto. split; [constructor; auto; intros; right; eauto|]. split; auto.
  - destruct (pop_main_spec _ Y1) as (p2 & o & -> & H2). exists p2, o. split; auto. destruct o as [[[id st] s]|].
    + destruct H2 as [P M]. apply pops_count in P. split; auto. split; [auto|discriminate].
    + destruct H2 as [-> H2]. split; auto. split; [constructor; auto; intros; right; eauto|]. split; auto.
Qed.
Lemma pop_shallow_spec p : sync p -> exists p' o, pop_shallow p = Ok (p', o) /\
  match o with
  | Some (id, st, s) => pops p p' id st s /\ s_shallow s = true /\ forall j st' s', waiting p j st' s' -> s_shallow s' = true -> score_cmp s' s <> Gt
  | None => p' = p /\ forall j st s, waiting p j st s -> s_shallow s = false
  end.
Proof.
  intros Y. unfold pop_shallow, next_shallow. destruct (find_last (fun x : score * nat => s_shallow (fst x)) (queue p)) as [[s id]|] eqn:F.
  - destruct (find_last_some _ queue_order _ _ _ (y_asc _ Y) F) as (A & A' & B). apply (y_queue _ Y) in A. destruct A as [st W].
    destruct (take_pops p (dequeue p s id) id st s Y W) as (p' & -> & P); auto.
    cbn [rbind]. exists p', (Some (id, st, s)). split; auto. split; auto. split; auto. intros j st' s' H Hs.
    apply (score_of_queue s id s' j). apply B; auto. apply (y_queue _ Y). eauto.
  - exists p, None. split; auto. split; auto. intros j st s H. assert (H' : In (s, j) (queue p)) by (apply (y_queue _ Y); eauto).
    apply (proj1 (find_last_none (fun x : score * nat => s_shallow (fst x)) _) F _ H').
Qed.

(** *** simplification *)
Section S.
Context (decide : pstep -> nat -> decision info).
(** what one direction may do: every step that disappears was found and not to be kept, every new step is the result
    for one of them *)
Record simplified (p p' : passive) (new : list pstep) : Prop := {
  m_sync : sync p';
  m_later : later p p';
  m_len : length (clauses p') = length (clauses p);
  m_scoring : scoring p' = scoring p;
  m_index : literals_index p' = literals_index p;
  m_wait : forall j st s, waiting p' j st s -> waiting p j st s;
  m_gone : forall j st s, waiting p j st s -> nth_error (clauses p') j = Some None -> exists i, i < length (literals (p_clause st)) /\ decide st i <> Keep;
  m_new : forall st', In st' new -> exists j st s i, waiting p j st s /\ i < length (literals (p_clause st)) /\ decide st i = Replace st'
}.
Lemma simplify_found_spec p (found : list (nat * nat)) : sync p -> incl found (literals_index p) ->
  exists r, foldm (simplify_found decide) found (p, []) = Ok r /\ simplified p (fst r) (snd r).
Proof.
  intros Y H. apply (foldm_inv (fun r => simplified p (fst r) (snd r))).
  - constructor; cbn; auto; [apply later_refl| |tauto]. intros j st s W N. unfold waiting in W. congruence.
  - intros [q new] [id i] Q Hin. cbn [fst snd] in Q. apply H in Hin. unfold simplify_found.
    pose proof Hin as Hin'. rewrite <- (m_index _ _ _ Q) in Hin'. destruct (y_index _ (m_sync _ _ _ Q) _ _ Hin') as [Hl Hi].
    destruct (nth_error (clauses q) id) as [[[st s]|]|] eqn:E; [| exists (q, new); split; auto |apply nth_error_None in E; lia].
    assert (W : waiting q id st s) by exact E. specialize (Hi _ _ W). rewrite (proj2 (Nat.ltb_lt _ _) Hi). cbn [negb].
    pose proof (m_wait _ _ _ Q _ _ _ W) as W0.
    destruct (decide st i) as [| |st'] eqn:Dc.
    + exists (q, new). split; auto.
    + eexists. split; [reflexivity|]. cbn [fst snd].
      destruct (take_sync q (dequeue (with_clauses q (set_nth (clauses q) id None)) s id) id st s (m_sync _ _ _ Q) W) as (A & B & C & D); auto.
      destruct Q as [q1 q2 q3 q4 q5 q6 q7 q8]. constructor; auto.
      * eapply later_trans; eauto.
      * cbn. rewrite set_nth_len. auto.
      * intros j st2 s2 H2. apply C in H2. apply q6, H2.
      * intros j st2 s2 H2 H3. destruct (Nat.eq_dec j id) as [->|Hn]; [destruct (waiting_fun _ _ _ _ _ _ W0 H2) as [<- <-]; exists i; split; auto; congruence|].
        eapply q7; eauto. cbn in H3. rewrite set_nth_nth in H3. apply Nat.eqb_neq in Hn. rewrite Nat.eqb_sym in Hn. rewrite Hn in H3. exact H3.
    + eexists. split; [reflexivity|]. cbn [fst snd].
      destruct (take_sync q (dequeue (with_clauses q (set_nth (clauses q) id None)) s id) id st s (m_sync _ _ _ Q) W) as (A & B & C & D); auto.
      destruct Q as [q1 q2 q3 q4 q5 q6 q7 q8]. constructor; auto.
      * eapply later_trans; eauto.
      * cbn. rewrite set_nth_len. auto.
      * intros j st2 s2 H2. apply C in H2. apply q6, H2.
      * intros j st2 s2 H2 H3. destruct (Nat.eq_dec j id) as [->|Hn]; [destruct (waiting_fun _ _ _ _ _ _ W0 H2) as [<- <-]; exists i; split; auto; congruence|].
        eapply q7; eauto. cbn in H3. rewrite set_nth_nth in H3. apply Nat.eqb_neq in Hn. rewrite Nat.eqb_sym in Hn. rewrite Hn in H3. exact H3.
      * intros st2 H2. apply in_app_or in H2. destruct H2 as [H2|[<-|[]]]; [auto|]. exists id, st, s, i. auto.
Qed.
End S.
(** one direction: found steps may disappear, their replacements are added at the end *)
Definition simplifies (decide : pstep -> nat -> decision info) (p p' : passive) : Prop :=
  sync p' /\ later p p' /\ scoring p' = scoring p /\
  (forall j st s, waiting p j st s -> nth_error (clauses p') j = Some None -> exists i, decide st i <> Keep) /\
  (forall j st s, length (clauses p) <= j -> waiting p' j st s -> exists j0 st0 s0 i, waiting p j0 st0 s0 /\ decide st0 i = Replace st).
Lemma simplify_dir_spec found decide p : sync p -> incl (found (literals_index p)) (literals_index p) ->
  exists p', simplify_dir harvest known is_goal uses_goal scorer inhab found decide p = Ok p' /\ simplifies decide p p'.
Proof.
  intros Y H. unfold simplify_dir. destruct (simplify_found_spec decide p _ Y H) as ([q new] & -> & Q). cbn [fst snd rbind] in *.
  destruct (push_batch_sync q new (m_sync _ _ _ _ Q)) as (p' & E & Y' & L' & S' & Len & W & W'). exists p'. split; auto.
  split; auto. split; [eapply later_trans; [apply (m_later _ _ _ _ Q)|exact L']|]. split; [rewrite S'; apply (m_scoring _ _ _ _ Q)|]. split.
  - intros j st s H1 H2. destruct (l_wait _ _ (m_later _ _ _ _ Q) _ _ _ H1) as [H3|[s' H3]].
    + destruct (m_gone _ _ _ _ Q _ _ _ H1 H3) as (i & _ & Hd). eauto.
    + exfalso. pose proof (waiting_lt _ _ _ _ H3) as Hl. apply ex_intro with (x := s') in H3. apply (proj1 (W' _ _ Hl)) in H3. destruct H3 as [s2 H3]. unfold waiting in H3. congruence.
  - intros j st s Hj H1. rewrite <- (m_len _ _ _ _ Q) in Hj. pose proof (waiting_lt _ _ _ _ H1) as Hl.
    destruct (nth_error new (j - length (clauses q))) as [st'|] eqn:En; [|apply nth_error_None in En; lia].
    destruct (W _ _ En) as [s' H2]. replace (length (clauses q) + (j - length (clauses q))) with j in H2 by lia.
    destruct (waiting_fun _ _ _ _ _ _ H1 H2) as [<- _]. apply nth_error_In in En. destruct (m_new _ _ _ _ Q _ En) as (j0 & st0 & s0 & i & A & _ & B). eauto 9.
Qed.
End P.
