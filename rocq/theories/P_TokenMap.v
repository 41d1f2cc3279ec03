(** C29: looking up a position finds the token that covers it. *)
From Coq Require Import List NArith Bool Lia.
Import ListNotations.
From Verif Require Import TokenMap.
Local Open Scope N_scope.

(** the positions of a token, and what the text allows: a token is not empty and its columns fit *)
Definition covers (k : key) (line position : N) : Prop := k_line k = line /\ k_start k <= position /\ position < k_start k + k_len k.
Definition token_ok (k : key) : Prop := 0 < k_len k /\ k_start k + k_len k < 4294967296.
Definition disjoint (ks : list key) : Prop := forall a b line position, In a ks -> In b ks -> covers a line position -> covers b line position -> a = b.

Lemma key_eq a b : key_cmp a b = Eq <-> a = b.
Proof.
  destruct a as [a1 a2 a3], b as [b1 b2 b3]. unfold key_cmp. cbn. split.
  - destruct (N.compare_spec a1 b1); try discriminate. destruct (N.compare_spec a2 b2); try discriminate. intros E. apply N.compare_eq in E. congruence.
  - intros E. injection E as -> -> ->. rewrite !N.compare_refl. auto.
Qed.
Lemma key_dec (a b : key) : {a = b} + {a <> b}.
Proof. decide equality; apply N.eq_dec. Defined.
Definition lt (a b : key) : Prop :=
  k_line a < k_line b \/ (k_line a = k_line b /\ (k_start a < k_start b \/ (k_start a = k_start b /\ k_len a < k_len b))).
Lemma key_lt_spec a b : key_lt a b = true <-> lt a b.
Proof.
  unfold key_lt, key_cmp, lt. destruct (N.compare_spec (k_line a) (k_line b)) as [E|E|E]; [|split; [left; auto|auto]|split; [discriminate|lia]].
  destruct (N.compare_spec (k_start a) (k_start b)) as [E'|E'|E']; [|split; [right; auto|auto]|split; [discriminate|lia]].
  destruct (N.compare_spec (k_len a) (k_len b)); split; try discriminate; try lia; auto.
Qed.
Lemma cmp_lt a b : key_cmp a b = Lt <-> lt a b.
Proof. rewrite <- key_lt_spec. unfold key_lt. destruct (key_cmp a b); split; congruence. Qed.
Lemma cmp_gt a b : key_cmp a b = Gt -> lt b a.
Proof.
  unfold key_cmp, lt. destruct (N.compare_spec (k_line a) (k_line b)); try discriminate; [|auto]. destruct (N.compare_spec (k_start a) (k_start b)); try discriminate; [|lia].
  destruct (N.compare_spec (k_len a) (k_len b)); try discriminate. lia.
Qed.
Lemma lt_trans a b c : lt a b -> lt b c -> lt a c.
Proof. unfold lt. lia. Qed.
Lemma lt_irrefl a : ~ lt a a.
Proof. unfold lt. lia. Qed.

Section Map.
Context {V : Type}.
Inductive sorted : list (key * V) -> Prop :=
| sorted_nil : sorted []
| sorted_cons k v m : (forall j u, In (j, u) m -> lt k j) -> sorted m -> sorted ((k, v) :: m).
Lemma insert_in k v m j u : sorted m -> In (j, u) (tinsert k v m) <-> (j = k /\ u = v) \/ (j <> k /\ In (j, u) m).
Proof.
  induction 1 as [|k0 v0 m Hk Hm IH]; cbn [tinsert In].
  - intuition congruence.
  - destruct (key_cmp k k0) eqn:E; cbn [In].
    + apply key_eq in E. subst k0. split.
      * intros [H|H]; [left; split; congruence|]. right. split; [|auto]. intros ->. apply (lt_irrefl k). eapply Hk; eauto.
      * intros [[-> ->]|[N [H|H]]]; auto. congruence.
    + apply cmp_lt in E. split.
      * intros [H|[H|H]]; [left; split; congruence| |].
        -- right. split; auto. intros ->. injection H as -> _. apply (lt_irrefl k). auto.
        -- right. split; auto. intros ->. apply (lt_irrefl k). eapply lt_trans; eauto.
      * intros [[-> ->]|[N H]]; auto.
    + apply cmp_gt in E. rewrite IH. split.
      * intros [H|[H|[N H]]]; auto. right. split; auto. intros ->. injection H as -> _. apply (lt_irrefl k). auto.
      * intros [H|[N [H|H]]]; auto.
Qed.
Lemma insert_sorted k v m : sorted m -> sorted (tinsert k v m).
Proof.
  induction 1 as [|k0 v0 m Hk Hm IH]; cbn [tinsert]; [constructor; [intros ? ? []|constructor]|]. destruct (key_cmp k k0) eqn:E.
  - apply key_eq in E. subst k0. constructor; auto.
  - apply cmp_lt in E. constructor; [|constructor; auto]. intros j u [H|H]; [injection H as <- <-; auto|]. eapply lt_trans; eauto.
  - apply cmp_gt in E. constructor; auto. intros j u H. apply insert_in in H; auto. destruct H as [[-> _]|[_ H]]; eauto.
Qed.
Lemma build_spec (l : list (key * V)) : sorted (build l) /\ forall j u, In (j, u) (build l) <-> exists a b, l = (a ++ (j, u) :: b)%list /\ ~ In j (map fst b).
Proof.
  unfold build. assert (G : forall l m, sorted m -> sorted (fold_left (fun m e => tinsert (fst e) (snd e) m) l m) /\
    forall j u, In (j, u) (fold_left (fun m e => tinsert (fst e) (snd e) m) l m) <-> (exists a b, l = (a ++ (j, u) :: b)%list /\ ~ In j (map fst b)) \/ (~ In j (map fst l) /\ In (j, u) m)).
  { clear l. induction l as [|[k v] l IH]; intros m Hm; cbn [fold_left fst snd map].
    - split; auto. intros j u. split; [intros H; right; auto|]. intros [([|] & b & E & _)|[_ H]]; auto; discriminate.
    - destruct (IH _ (insert_sorted k v m Hm)) as [S D]. split; auto. intros j u. rewrite D, insert_in by auto. split.
      + intros [(a & b & -> & N)|[N [[-> ->]|[Nk H]]]]; [left; exists ((k, v) :: a), b; auto|left; exists [], l; auto|]. right. split; auto. cbn [In]. intros [->|X]; auto.
      + intros [([|e a] & b & E & N)|[N H]].
        * injection E as -> -> ->. right. auto.
        * injection E as <- ->. left. eauto.
        * right. cbn [In] in N. split; [tauto|]. right. split; [intros ->; tauto|auto]. }
  destruct (G l [] sorted_nil) as [S D]. split; auto. intros j u. rewrite D. split; [intros [H|[_ []]]; auto|auto].
Qed.
Lemma last_before_spec k m : sorted m ->
  match last_before k m with
  | Some (j, u) => In (j, u) m /\ lt j k /\ forall i w, In (i, w) m -> lt i k -> i = j \/ lt i j
  | None => forall i w, In (i, w) m -> ~ lt i k
  end.
Proof.
  induction 1 as [|k0 v0 m Hk Hm IH]; cbn [last_before]; [intros i w []|]. destruct (last_before k m) as [[j u]|].
  - destruct IH as (I1 & I2 & I3). split; [right; auto|]. split; auto. intros i w [H|H] L; [injection H as <- <-; right; eapply Hk; eauto|eauto].
  - cbn [fst]. destruct (key_lt k0 k) eqn:E.
    + apply key_lt_spec in E. split; [left; auto|]. split; auto. intros i w [H|H] L; [injection H as <- <-; auto|]. destruct (IH i w H L).
    + intros i w [H|H] L; [injection H as <- <-; apply key_lt_spec in L; congruence|]. eapply IH; eauto.
Qed.
Lemma contains_spec k line position : token_ok k -> contains k line position = true <-> covers k line position.
Proof. intros [_ H]. unfold contains, covers, u32. rewrite N.mod_small by lia. rewrite !andb_true_iff, N.eqb_eq, N.leb_le, N.ltb_lt. tauto. Qed.
End Map.

(** For every sequence of insertions of disjoint tokens, every position: the entry found is the last one inserted for the token that covers
    the position, and nothing is found exactly when no token covers it. *)
Theorem lookup_finds_token : forall {V} (l : list (key * V)) line position, position < 4294967295 ->
  (forall k, In k (map fst l) -> token_ok k) -> disjoint (map fst l) ->
  match get (build l) line position with
  | Some (k, v) => covers k line position /\ exists a b, l = (a ++ (k, v) :: b)%list /\ ~ In k (map fst b)
  | None => forall k, In k (map fst l) -> ~ covers k line position
  end.
Proof.
  intros V l line position Hp Ok Dj. destruct (build_spec l) as [S D]. unfold get. pose proof (last_before_spec (Key line (u32 (position + 1)) 0) (build l) S) as L.
  unfold u32 in *. rewrite N.mod_small in * by lia.
  assert (Src : forall k, In k (map fst l) -> exists v, In (k, v) (build l)).
  { clear - D. intros k Hk. assert (G : exists v a b, l = (a ++ (k, v) :: b)%list /\ ~ In k (map fst b)).
    { clear D. induction l as [|[j u] l IH]; [destruct Hk|]. cbn [map fst In] in Hk. destruct (in_dec key_dec k (map fst l)) as [H|H].
      - destruct (IH H) as (v & a & b & -> & N). exists v, ((j, u) :: a), b. auto.
      - destruct Hk as [<-|Hk]; [|contradiction]. exists u, [], l. auto. }
    destruct G as (v & G). exists v. apply D. auto. }
  assert (Tgt : forall k v, In (k, v) (build l) -> In k (map fst l)).
  { intros k v H. apply D in H. destruct H as (a & b & -> & _). rewrite map_app, in_app_iff. right. left. auto. }
  assert (Cv : forall k, In k (map fst l) -> covers k line position -> lt k (Key line (position + 1) 0)).
  { intros k Hk (C1 & C2 & C3). unfold lt. cbn. lia. }
  destruct (last_before (Key line (position + 1) 0) (build l)) as [[j u]|].
  - destruct L as (L1 & L2 & L3). cbn [fst]. pose proof (Ok j (Tgt j u L1)) as Oj. destruct (contains j line position) eqn:E.
    + apply contains_spec in E; auto. split; auto. apply D. auto.
    + intros k Hk C. destruct (Src k Hk) as (v & Hv). pose proof (Ok k Hk) as Okk. destruct (L3 k v Hv (Cv k Hk C)) as [->|Lk].
      * apply contains_spec in C; auto. congruence.
      * (* j starts at or after k and at or before the position, so both cover the start of j *)
        destruct C as (C1 & C2 & C3). unfold lt in L2, Lk. cbn in L2. destruct Oj as [Oj1 Oj2]. destruct Okk as [Ok1 Ok2].
        assert (j = k).
        { apply (Dj j k line (k_start j)); eauto; unfold covers; lia. }
        subst j. unfold lt in Lk. lia.
  - intros k Hk C. destruct (Src k Hk) as (v & Hv). apply (L k v Hv (Cv k Hk C)).
Qed.
Print Assumptions lookup_finds_token.
(** Without the condition on empty tokens it fails: an empty token inside another one hides it. *)
Theorem lookup_finds_token_refuted : exists (l : list (key * unit)) line position k, disjoint (map fst l) /\ In k (map fst l) /\ covers k line position /\ get (build l) line position = None.
Proof.
  exists [(Key 0 0 5, tt); (Key 0 3 0, tt)], 0, 4, (Key 0 0 5). split; [|split; [left; auto|split; [unfold covers; cbn; lia|reflexivity]]].
  intros a b line position [<-|[<-|[]]] [<-|[<-|[]]] (A1 & A2 & A3) (B1 & B2 & B3); auto; cbn in *; lia.
Qed.
Print Assumptions lookup_finds_token_refuted.
Definition tm_tokens : list (key * N) := [(Key 2 4 3, 7); (Key 0 0 5, 8); (Key 2 7 1, 9); (Key 2 4 3, 10)].
Example lookup_case : (forall k, In k (map fst tm_tokens) -> token_ok k) /\ disjoint (map fst tm_tokens) /\
  get (build tm_tokens) 2 6 = Some (Key 2 4 3, 10) /\ get (build tm_tokens) 2 7 = Some (Key 2 7 1, 9) /\ get (build tm_tokens) 2 8 = None /\ get (build tm_tokens) 1 2 = None.
Proof.
  split; [intros k [<-|[<-|[<-|[<-|[]]]]]; unfold token_ok; cbn; lia|]. split; [|repeat split; reflexivity].
  intros a b line position [<-|[<-|[<-|[<-|[]]]]] [<-|[<-|[<-|[<-|[]]]]] (A1 & A2 & A3) (B1 & B2 & B3); auto; cbn in *; lia.
Qed.
