(** Soundness invariant of the equality graph. *)
From Coq Require Import List Arith NArith Bool Lia Permutation.
Import ListNotations.
From Verif Require Import Term LocalContext Semantics TermProofs SemFacts Literal Clause ClauseSem ClauseSet ClauseSetProofs
  P_ClauseSet EqualityGraph.

Lemma rbind_ok {A B} (x : res A) (f : A -> res B) b : rbind x f = Ok b -> exists a, x = Ok a /\ f a = Ok b.
Proof. destruct x; simpl; try discriminate. eauto. Qed.
Lemma unwrap_ok {A} (x : option A) a : unwrap x = Ok a -> x = Some a.
Proof. destruct x; simpl; congruence. Qed.
Ltac dob H := apply rbind_ok in H; destruct H as (? & ? & H).

Lemma foldm_ind {A S} (f : S -> A -> res S) (P : S -> Prop) l :
  (forall x s s', In x l -> f s x = Ok s' -> P s -> P s') -> forall s s', foldm f l s = Ok s' -> P s -> P s'.
Proof.
  induction l as [|x l IH]; intros Hf s s' H Hs; simpl in H.
  - congruence.
  - dob H. eapply IH; [|exact H|].
    + intros y s1 s2 Hy. apply Hf. simpl; auto.
    + eapply Hf; eauto. simpl; auto.
Qed.
Lemma fold_ind {A S} (f : S -> A -> S) (P : S -> Prop) l :
  (forall x s, In x l -> P s -> P (f s x)) -> forall s, P s -> P (fold_left f l s).
Proof. induction l as [|x l IH]; intros Hf s Hs; simpl; auto. apply IH; [intros; apply Hf; simpl; auto|]. apply Hf; simpl; auto. Qed.

Lemma upd_length {A} (l : list A) i x : length (upd l i x) = length l.
Proof. revert i; induction l as [|y l IH]; intros [|i]; simpl; auto. Qed.
Lemma nth_upd {A} (l : list A) i x j : nth_error (upd l i x) j = if Nat.eqb i j then option_map (fun _ => x) (nth_error l j) else nth_error l j.
Proof. revert i j; induction l as [|y l IH]; intros [|i] [|j]; simpl; auto. destruct (Nat.eqb i j); auto. Qed.
Lemma nth_upd_same {A} (l : list A) i x y : nth_error (upd l i x) i = Some y -> y = x.
Proof. rewrite nth_upd, Nat.eqb_refl. destruct (nth_error l i); simpl; congruence. Qed.
Lemma nth_upd_cases {A} (l : list A) i x j y : nth_error (upd l i x) j = Some y -> (i = j /\ y = x) \/ (i <> j /\ nth_error l j = Some y).
Proof.
  rewrite nth_upd. destruct (Nat.eqb_spec i j); auto. destruct (nth_error l j); simpl; [|discriminate].
  intros H; injection H as <-. auto.
Qed.
Lemma nth_lt {A} (l : list A) i x : nth_error l i = Some x -> i < length l.
Proof. intros H. apply nth_error_Some. congruence. Qed.
Lemma nth_snoc {A} (l : list A) x i y : nth_error (l ++ [x]) i = Some y -> nth_error l i = Some y \/ (i = length l /\ y = x).
Proof.
  intros H. destruct (Nat.lt_ge_cases i (length l)) as [L|L].
  - rewrite nth_error_app1 in H by auto. auto.
  - rewrite nth_error_app2 in H by auto. destruct (i - length l) as [|k] eqn:E; simpl in H; [|destruct k; discriminate].
    injection H as <-. right. split; auto. lia.
Qed.
Lemma memb_in x l : memb x l = true <-> In x l.
Proof. unfold memb. rewrite existsb_exists. split; [intros (y & Hy & E); apply Nat.eqb_eq in E; subst; auto|intros H; exists x; split; auto; apply Nat.eqb_refl]. Qed.
Lemma memb_nin x l : memb x l = false <-> ~ In x l.
Proof. rewrite <- memb_in. destruct (memb x l); split; congruence. Qed.
Lemma delete_in x y l : In y (delete x l) <-> y <> x /\ In y l.
Proof. unfold delete. rewrite filter_In. destruct (Nat.eqb_spec x y); simpl; intuition congruence. Qed.
Lemma key_eqb_eq a b : key_eqb a b = true <-> a = b.
Proof. destruct a, b. unfold key_eqb. simpl. rewrite andb_true_iff, !Nat.eqb_eq. split; [intros [-> ->]; auto|intros H; injection H; auto]. Qed.
Lemma decomp_eqb_eq a b : decomp_eqb a b = true <-> a = b.
Proof. unfold decomp_eqb. destruct (decomp_eq_dec a b); split; congruence. Qed.
Lemma upd_map {A B} (f : A -> B) l i x y : nth_error l i = Some y -> f x = f y -> map f (upd l i x) = map f l.
Proof. revert i; induction l as [|z l IH]; intros [|i] H E; simpl in *; try discriminate; [congruence|f_equal; auto]. Qed.

Lemma fold_merge_in new l : forall i g, In g (fold_left (fun l g => if negb (Nat.eqb g new) && negb (memb g l) then g :: l else l) l i)
  <-> In g i \/ (In g l /\ g <> new).
Proof.
  induction l as [|x l IH]; intros i g; simpl; [tauto|]. rewrite IH.
  destruct (Nat.eqb_spec x new) as [->|Nx]; simpl.
  - intuition congruence.
  - destruct (memb x i) eqn:E; simpl.
    + apply memb_in in E. intuition (subst; auto).
    + intuition (subst; auto).
Qed.

Lemma chase_chain n gs : forall g chain last, chase n gs g = Ok (chain, last) ->
  (exists i, nth_error gs last = Some (Info i)) /\ forall P : nat -> Prop,
  (forall a b, nth_error gs a = Some (Remapped b) -> P a -> P b) -> P g -> P last /\ Forall P chain.
Proof.
  induction n as [|n IH]; intros g chain last H; simpl in H; [discriminate|].
  dob H. apply unwrap_ok in H0. destruct x as [h|i].
  - dob H. destruct x as [ch la]. injection H as <- <-. apply IH in H1. destruct H1 as [H1 H2]. split; auto.
    intros P HP Hg. destruct (H2 P HP (HP _ _ H0 Hg)). split; auto.
  - injection H as <- <-. split; eauto.
Qed.

Section Sound.
Context (ordk : nat -> list nat -> list nat) (ordc : nat -> list clauseid -> list clauseid).
Context (ordk_perm : forall n l, Permutation (ordk n l) l) (ordc_perm : forall n l, Permutation (ordc n l) l).
Context (M : Model) (rho : nat -> D M).

Lemma ordk_in n l x : In x (ordk n l) <-> In x l.
Proof. split; apply Permutation_in; auto using Permutation_sym. Qed.
Lemma ordc_in n l x : In x (ordc n l) <-> In x l.
Proof. split; apply Permutation_in; auto using Permutation_sym. Qed.

Section Values.
(** the terms by id *)
Context (tl : list term).
Definition tval (i : nat) : D M := ev M rho (nth i tl ttrue).
Definition gval (g : N) : D M := tval (N.to_nat g).
Notation n := (length tl).
Definition eqv (i j : nat) : Prop := i < n /\ j < n /\ tval i = tval j.
Definition nev (i j : nat) : Prop := i < n /\ j < n /\ tval i <> tval j.
Definition appv (k : nat * nat) (r : nat) : Prop :=
  fst k < n /\ snd k < n /\ r < n /\ dapp M (tval (fst k)) (tval (snd k)) = tval r.
Definition litr (l : litid) : Prop := N.to_nat (lleft l) < n /\ N.to_nat (lright l) < n.
Definition okc (c : list litid) : Prop := (forall l, In l c -> litr l) /\ clause_true gval c.
Definition oko (o : semop) : Prop :=
  match o with OEq a b => eqv a b | ONeq a b => nev a b | OClause c => okc c end.
Definition okg (g : nat) (p : pgroup) : Prop :=
  match p with
  | Remapped h => eqv g h
  | Info i => (forall t, In t (gi_terms i) -> eqv g t) /\ (forall h, In h (gi_ineq i) -> nev g h)
  end.
Definition okd (d : decomp) (i : nat) : Prop :=
  match d with
  | DAtomic a => nth_error tl i = Some (TAtom a)
  | DApp f a => exists tf ta, nth_error tl f = Some tf /\ nth_error tl a = Some ta /\ nth_error tl i = Some (TApp tf ta)
  | DOpaque => False
  end.
Record sok (s : egraph) : Prop := {
  so_tl : map ti_term (eg_terms s) = tl;
  so_len : length (eg_groups s) = n;
  so_wt : forall t, In t tl -> wt M rho t;
  so_grp : forall i ti, nth_error (eg_terms s) i = Some ti -> eqv i (ti_group ti);
  so_gs : forall g p, nth_error (eg_groups s) g = Some p -> okg g p;
  so_app : forall k a, nth_error (eg_apps s) k = Some (Some a) -> appv (ai_key a) (ai_res a);
  so_amap : forall k r, map_get key_eqb (eg_amap s) k = Some r -> appv k r;
  so_dec : forall d i, map_get decomp_eqb (eg_decomps s) d = Some i -> okd d i;
  so_opq : forall t i, map_get term_eqb (eg_opaque s) t = Some i -> nth_error tl i = Some t;
  so_cls : forall c, In c (cs_clauses (eg_clauses s)) -> okc c;
  so_cset : consistent (eg_clauses s);
  so_pend : forall o, In o (eg_pending s) -> oko o;
  so_con : eg_contra s = false
}.

Lemma terms_len s : sok s -> length (eg_terms s) = n.
Proof. intros H. rewrite <- (so_tl s H), map_length. auto. Qed.
Lemma eqv_sym a b : eqv a b -> eqv b a. Proof. unfold eqv; intuition. Qed.
Lemma eqv_trans a b c : eqv a b -> eqv b c -> eqv a c.
Proof. unfold eqv. intuition congruence. Qed.
Lemma nev_sym a b : nev a b -> nev b a. Proof. unfold nev; intuition. Qed.
Lemma nev_eqv a b c : nev a b -> eqv b c -> nev a c.
Proof. unfold eqv, nev. intuition congruence. Qed.
Lemma group_ok s t g : sok s -> get_group_id s t = Ok g -> eqv t g.
Proof. intros Hs H. unfold get_group_id in H. dob H. apply unwrap_ok in H0. injection H as <-. eapply so_grp; eauto. Qed.
Lemma info_ok s g i : get_group_info s g = Ok i -> nth_error (eg_groups s) g = Some (Info i).
Proof. unfold get_group_info. destruct (nth_error (eg_groups s) g) as [[|]|]; try discriminate. congruence. Qed.

Lemma sok_groups s gs : sok s -> length gs = length (eg_groups s) ->
  (forall g p, nth_error gs g = Some p -> okg g p) -> sok (set_groups s gs).
Proof. intros [H1 H2 H3 H4 H5 H6 H7 H8 H9 H10 H11 H12 H13] L H. constructor; simpl; auto. congruence. Qed.
Lemma sok_upd s g p : sok s -> okg g p -> sok (set_groups s (upd (eg_groups s) g p)).
Proof.
  intros Hs Hp. apply sok_groups; auto using upd_length. intros h q Hq.
  apply nth_upd_cases in Hq. destruct Hq as [[-> ->]|[_ Hq]]; auto. eapply so_gs; eauto.
Qed.
Lemma sok_push s o : sok s -> oko o -> sok (push s o).
Proof. intros [H1 H2 H3 H4 H5 H6 H7 H8 H9 H10 H11 H12 H13] H. constructor; simpl; auto. intros o' [<-|]; auto. Qed.
Lemma sok_tick s : sok s -> sok (tick s).
Proof. intros [H1 H2 H3 H4 H5 H6 H7 H8 H9 H10 H11 H12 H13]. constructor; simpl; auto. Qed.
Lemma sok_clauses s cs : sok s -> consistent cs -> (forall c, In c (cs_clauses cs) -> okc c) -> sok (set_clauses s cs).
Proof. intros [H1 H2 H3 H4 H5 H6 H7 H8 H9 H10 H11 H12 H13] ? ?. constructor; simpl; auto. Qed.
Lemma sok_apps s x y : sok s -> (forall k a, nth_error x k = Some (Some a) -> appv (ai_key a) (ai_res a)) ->
  (forall k r, map_get key_eqb y k = Some r -> appv k r) -> sok (set_apps s x y).
Proof. intros [H1 H2 H3 H4 H5 H6 H7 H8 H9 H10 H11 H12 H13] ? ?. constructor; simpl; auto. Qed.

Lemma lit_of_true g1 g2 p : lit_true gval (lit_of g1 g2 p) <-> (if p then tval g1 = tval g2 else tval g1 <> tval g2).
Proof.
  unfold lit_of. rewrite (proj2 (literal_id_symmetric _ _ _ _ gval)). unfold gval. rewrite !Nnat.Nat2N.id. tauto.
Qed.
Lemma litid_new_litr l r p : N.to_nat l < n -> N.to_nat r < n -> litr (litid_new l r p).
Proof. unfold litid_new, litr. destruct (N.leb l r); simpl; auto. Qed.
Lemma lit_of_litr l r p : l < n -> r < n -> litr (lit_of l r p).
Proof. intros. apply litid_new_litr; rewrite Nnat.Nat2N.id; auto. Qed.

(** what [clauseid_new] makes of a true clause *)
Lemma clauseid_ok c : okc c -> match clauseid_new c with NTrue => True | NFalse => False | NClause c' => okc c' end.
Proof.
  intros [Hr Hc]. pose proof (clause_id_equivalent c (D M) gval (val_dec M)) as E.
  pose proof (clause_id_exact c) as (_ & _ & X).
  destruct (clauseid_new c) as [| |c']; auto. specialize (X c' eq_refl). split; [|tauto].
  intros l Hl. apply Hr. apply X. auto.
Qed.

Lemma handle_inequality_ok s g1 g2 : sok s -> sok (handle_inequality ordc s g1 g2).
Proof.
  intros Hs. unfold handle_inequality, remove_literal. cbv zeta.
  set (c1 := ordc (eg_tick s) _). set (s1 := tick _). set (c2 := ordc (eg_tick s1) _). set (s2 := tick _).
  pose proof (consistent_remove_all c1 _ (so_cset s Hs)) as [C1 E1].
  assert (Hs1 : sok s1). { apply sok_tick, sok_clauses; auto. intros c Hc. apply E1 in Hc. apply (so_cls s Hs); tauto. }
  pose proof (consistent_remove_all c2 _ (so_cset s1 Hs1)) as [C2 E2].
  assert (Hs2 : sok s2). { apply sok_tick, sok_clauses; auto. intros c Hc. apply E2 in Hc. apply (so_cls s1 Hs1); tauto. }
  apply fold_ind; auto. intros c s' Hc Hs'. apply sok_push; auto. simpl. apply in_app_iff in Hc.
  destruct Hc as [Hc|Hc]; apply ordc_in in Hc.
  - apply (co_lit _ (so_cset s Hs)) in Hc. apply (so_cls s Hs); tauto.
  - apply (co_lit _ (so_cset s1 Hs1)) in Hc. apply (so_cls s1 Hs1); tauto.
Qed.
Lemma handle_all_ok s l : sok s -> sok (handle_all ordc s l).
Proof. intros Hs. unfold handle_all. apply fold_ind; auto. intros. apply handle_inequality_ok; auto. Qed.

Lemma take_group_ok s old new s' oi : take_group s old new = Ok (s', oi) -> eqv old new -> sok s ->
  sok s' /\ okg old (Info oi) /\ (forall t, In t (gi_terms oi) -> eqv new t) /\ forall h, In h (gi_ineq oi) -> nev new h.
Proof.
  intros H E Hs. unfold take_group in H. dob H. apply info_ok in H0. injection H as <- <-.
  pose proof (so_gs s Hs _ _ H0) as Ho. split; [apply sok_upd; auto|]. split; auto. destruct Ho as [T I]. split.
  - intros t Ht. eapply eqv_trans; [|apply T; auto]. apply eqv_sym; auto.
  - intros h Hh. apply nev_sym, nev_eqv with old; auto. apply nev_sym; auto.
Qed.
Lemma move_terms_ok s new ts s' : move_terms s new ts = Ok s' -> (forall t, In t ts -> eqv new t) -> sok s -> sok s'.
Proof.
  intros H Ht Hs. unfold move_terms in H. dob H. injection H as <-.
  assert (X : map ti_term x = tl /\ forall i ti, nth_error x i = Some ti -> eqv i (ti_group ti)).
  { refine (foldm_ind _ (fun x => map ti_term x = tl /\ forall i ti, nth_error x i = Some ti -> eqv i (ti_group ti)) _ _ _ _ H0 _).
    - intros t l l' Hin Hl [E G]. dob Hl. apply unwrap_ok in H. injection Hl as <-. split.
      + rewrite <- E. eapply upd_map; eauto.
      + intros i ti Hi. apply nth_upd_cases in Hi. destruct Hi as [[-> ->]|[_ Hi]]; eauto. simpl. apply eqv_sym; auto.
    - destruct Hs; auto. }
  destruct Hs as [H1 H2 H3 H4 H5 H6 H7 H8 H9 H10 H11 H12 H13], X. constructor; simpl; auto.
Qed.
Lemma remap_appv old new k r : eqv old new -> appv k r -> appv (key_remap old new k) r.
Proof.
  intros (E1 & E2 & E3) (A1 & A2 & A3 & A4). destruct k as [f a]. unfold appv, key_remap in *. simpl in *.
  destruct (Nat.eqb_spec f old), (Nat.eqb_spec a old); subst; rewrite <- ?E3; auto.
Qed.
Lemma move_application_ok old new sk id sk' : move_application old new sk id = Ok sk' -> eqv old new -> sok (fst sk) -> sok (fst sk').
Proof.
  destruct sk as [s keep]. intros H E Hs. simpl in H, Hs. dob H. apply unwrap_ok in H0. destruct x as [app|]; [|injection H as <-; auto].
  pose proof (so_app s Hs _ _ H0) as Ha.
  assert (Hm : forall k r, map_get key_eqb (map_remove key_eqb (eg_amap s) (ai_key app)) k = Some r -> appv k r).
  { intros k r. rewrite (get_remove key_eqb key_eqb_eq). destruct (key_eqb _ k); [discriminate|]. apply so_amap; auto. }
  destruct (map_get key_eqb (map_remove _ _ _) _) as [ex|] eqn:G; injection H as <-; cbn [fst].
  - apply sok_push.
    + apply sok_apps; auto. intros k a Hk. apply nth_upd_cases in Hk. destruct Hk as [[_ Hk]|[_ Hk]]; [discriminate|]. eapply so_app; eauto.
    + simpl. apply Hm in G. pose proof (remap_appv old new _ _ E Ha) as Ha'. destruct G as (G1 & G2 & G3 & G4), Ha' as (A1 & A2 & A3 & A4).
      repeat split; auto. congruence.
  - apply sok_apps; auto.
    + intros k a Hk. apply nth_upd_cases in Hk. destruct Hk as [[_ Hk]|[_ Hk]]; [|eapply so_app; eauto].
      injection Hk as ->. apply remap_appv; auto.
    + intros k r. rewrite (get_set key_eqb key_eqb_eq). destruct (key_eqb _ k) eqn:K; [|apply Hm].
      apply key_eqb_eq in K. subst k. intros Hr; injection Hr as <-. apply remap_appv; auto.
Qed.
Lemma move_inequality_ok old new sd g sd' : move_inequality old new sd g = Ok sd' -> eqv old new -> nev new g -> sok (fst sd) -> sok (fst sd').
Proof.
  destruct sd as [s disc]. intros H E Hg Hs. simpl in H, Hs. dob H. apply info_ok in H0.
  destruct (so_gs s Hs _ _ H0) as [T I].
  destruct (memb old (gi_ineq x)); [|discriminate].
  assert (HD : forall h, In h (delete old (gi_ineq x)) -> nev g h) by (intros h Hh; apply delete_in in Hh; apply I; tauto).
  destruct (Nat.eqb_spec g new) as [->|_]; [exfalso; destruct Hg; tauto|].
  destruct (memb new _); injection H as <-; cbn [fst]; apply sok_upd; auto.
  - simpl. auto.
  - simpl. split; auto. intros h [<-|Hh]; auto. apply nev_sym; auto.
Qed.
Lemma reverse_inequality_ok new sd g sd' : reverse_inequality new sd g = Ok sd' -> nev new g -> sok (fst sd) -> sok (fst sd').
Proof.
  destruct sd as [s disc]. intros H Hg Hs. simpl in H, Hs. destruct (nth_error (eg_groups s) g) as [[h|i]|] eqn:G; [|..|discriminate].
  - injection H as <-. auto.
  - destruct (so_gs s Hs _ _ G) as [T I]. destruct (memb new (gi_ineq i)); injection H as <-; auto. cbn [fst].
    apply sok_upd; auto. simpl. split; auto. intros h [<-|Hh]; auto. apply nev_sym; auto.
Qed.
Lemma move_clause_ok old new s c : eqv old new -> okc c -> sok s -> sok (move_clause old new s c).
Proof.
  intros E [Hr Hc] Hs. unfold move_clause. set (c' := map _ c).
  assert (R : forall g, N.to_nat g < n -> N.to_nat (remap_id old new g) < n /\ gval (remap_id old new g) = gval g).
  { intros g Hg. unfold remap_id. destruct E as (E1 & E2 & E3). destruct (N.eqb_spec g (N.of_nat old)) as [->|_]; auto.
    rewrite Nnat.Nat2N.id. split; auto. unfold gval. rewrite !Nnat.Nat2N.id. auto. }
  assert (O : okc c').
  { split.
    - intros l Hl. apply in_map_iff in Hl. destruct Hl as (l0 & <- & Hl). destruct (Hr _ Hl). apply litid_new_litr; apply R; auto.
    - destruct Hc as (l & Hl & H). exists (litid_new (remap_id old new (lleft l)) (remap_id old new (lright l)) (lpos l)).
      split; [apply in_map_iff; eauto|]. apply (proj2 (literal_id_symmetric _ _ _ _ gval)).
      destruct (Hr _ Hl) as [R1 R2]. rewrite (proj2 (R _ R1)), (proj2 (R _ R2)). exact H. }
  apply clauseid_ok in O. destruct (clauseid_new c'); auto; [tauto|]. apply sok_push; auto.
Qed.

Lemma remap_group_ok s old new s' : remap_group ordk ordc s old new = Ok s' -> eqv old new -> sok s -> sok s'.
Proof.
  intros H E Hs. unfold remap_group in H.
  dob H. destruct x as [s1 oi]. destruct (take_group_ok _ _ _ _ _ H0 E Hs) as (S1 & O1 & T1 & I1). clear Hs H0 s.
  dob H. rename x into s2. assert (S2 : sok s2) by (eapply move_terms_ok; eauto). clear S1 H0 s1.
  dob H. destruct x as [s3 keep].
  assert (S3 : sok s3).
  { refine (foldm_ind _ (fun sk => sok (fst sk)) _ _ _ _ H0 S2). intros; eapply move_application_ok; eauto. }
  clear S2 H0 s2.
  dob H. destruct x as [s4 disc].
  assert (S4 : sok s4).
  { refine (foldm_ind _ (fun sk => sok (fst sk)) _ _ _ _ H0 (sok_tick _ S3)).
    intros x a b Hx Hm. eapply move_inequality_ok; eauto. apply I1. apply ordk_in in Hx. auto. }
  clear S3 H0 s3. cbv zeta in H.
  dob H. rename x into ni. set (s5 := handle_all ordc s4 disc) in *. assert (S5 : sok s5) by (apply handle_all_ok; auto).
  clearbody s5. clear S4 s4 disc. apply info_ok in H0.
  set (mi := merge_info _ _ _ _ _) in *.
  assert (OM : okg new (Info mi)).
  { destruct (so_gs s5 S5 _ _ H0) as [T I]. split; simpl.
    - intros t Ht. apply in_app_iff in Ht. destruct Ht; auto.
    - intros h Hh. apply fold_merge_in in Hh. destruct Hh as [Hh|[Hh Nh]]; auto. apply ordk_in in Hh. auto. }
  dob H. destruct x as [s6 disc].
  assert (S6 : sok s6).
  { refine (foldm_ind _ (fun sk => sok (fst sk)) _ _ _ _ H1 _).
    - intros x a b Hx Hm. eapply reverse_inequality_ok; eauto. apply OM. apply ordk_in in Hx. auto.
    - apply sok_tick. apply sok_tick. apply sok_upd; auto. }
  set (s7 := handle_all ordc s6 disc) in *. assert (S7 : sok s7) by (apply handle_all_ok; auto). clearbody s7.
  unfold remove_group in H. injection H as <-. set (cs := ordc _ _).
  pose proof (consistent_remove_all cs _ (so_cset s7 S7)) as [C1 E1].
  apply fold_ind.
  - intros c s Hc Hs. apply move_clause_ok; auto. apply ordc_in in Hc. apply (co_group _ (so_cset s7 S7)) in Hc. apply (so_cls s7 S7); tauto.
  - apply sok_tick, sok_clauses; auto. intros c Hc. apply E1 in Hc. apply (so_cls s7 S7); tauto.
Qed.

Lemma update_group_id_ok s g s' h : update_group_id s g = Ok (s', h) -> g < n -> sok s -> sok s' /\ eqv g h.
Proof.
  intros H Hg Hs. unfold update_group_id in H. dob H. destruct x as [chain last]. injection H as <- <-.
  apply chase_chain in H0. destruct H0 as (_ & X).
  destruct (X (eqv g)) as [X1 X2].
  { intros a b Hab Ha. eapply eqv_trans; eauto. apply (so_gs s Hs _ _ Hab). }
  { unfold eqv; auto. }
  split; auto. apply sok_groups; auto.
  - apply (fold_ind _ (fun gs => length gs = length (eg_groups s))); auto. intros. rewrite upd_length. auto.
  - apply (fold_ind _ (fun gs => forall g p, nth_error gs g = Some p -> okg g p)).
    + intros x gs Hx Hgs a p Ha. apply nth_upd_cases in Ha. destruct Ha as [[-> ->]|[_ Ha]]; auto. simpl.
      assert (In a chain). { clear -Hx. induction chain as [|y [|z l] IH]; simpl in *; auto. destruct Hx; auto. }
      rewrite Forall_forall in X2. apply eqv_trans with g; auto. apply eqv_sym; auto.
    + intros a p Ha. eapply so_gs; eauto.
Qed.

Lemma evaluate_literals_ok : forall c acc s s' o, evaluate_literals s c acc = Ok (s', o) -> (forall l, In l c -> litr l) ->
  (forall l, In l acc -> litr l) -> sok s ->
  sok s' /\ match o with
            | None => True
            | Some lits => (forall l, In l lits -> litr l) /\ (clause_true gval (acc ++ c) -> clause_true gval lits)
            end.
Proof.
  induction c as [|l c IH]; intros acc s s' o H Hr Ha Hs; simpl in H.
  - injection H as <- <-. rewrite app_nil_r. auto.
  - destruct (Hr l (or_introl eq_refl)) as [R1 R2].
    dob H. destruct x as [s1 lf]. destruct (update_group_id_ok _ _ _ _ H0 R1 Hs) as [S1 E1]. clear H0.
    dob H. destruct x as [s2 rt]. destruct (update_group_id_ok _ _ _ _ H0 R2 S1) as [S2 E2]. clear H0.
    assert (Hr' : forall l, In l c -> litr l) by (intros; apply Hr; simpl; auto).
    assert (EL : lit_true gval l <-> (if lpos l then tval lf = tval rt else tval lf <> tval rt)).
    { unfold lit_true, gval. destruct E1 as (_ & _ & ->), E2 as (_ & _ & ->). tauto. }
    assert (Drop : ~ lit_true gval l -> forall s' o, evaluate_literals s2 c acc = Ok (s', o) ->
      sok s' /\ match o with
            | None => True
            | Some lits => (forall l, In l lits -> litr l) /\ (clause_true gval (acc ++ l :: c) -> clause_true gval lits)
            end).
    { intros F s3 o3 H3. destruct (IH _ _ _ _ H3 Hr' Ha S2) as [S3 X]. split; auto. destruct o3 as [lits|]; auto.
      destruct X as [X1 X2]. split; auto. intros (m & Hm & T). apply X2. exists m. split; auto.
      apply in_app_iff in Hm. apply in_app_iff. destruct Hm as [Hm|[<-|Hm]]; auto. tauto. }
    destruct (Nat.eqb_spec lf rt) as [->|Nlr].
    + destruct (lpos l); [injection H as <- <-; auto|]. apply (Drop ltac:(tauto) _ _ H).
    + dob H. rename x into li. apply info_ok in H0.
      destruct (memb rt (gi_ineq li)) eqn:Em.
      * apply memb_in in Em. destruct (so_gs s2 S2 _ _ H0) as [_ I]. specialize (I _ Em). destruct I as (_ & _ & I).
        destruct (lpos l); simpl in H; [|injection H as <- <-; auto]. apply (Drop ltac:(tauto) _ _ H).
      * assert (L : litr (lit_of lf rt (lpos l))) by (apply lit_of_litr; [apply E1|apply E2]).
        destruct (IH _ _ _ _ H Hr') as [S3 X]; auto.
        { intros m Hm. apply in_app_iff in Hm. destruct Hm as [Hm|[<-|[]]]; auto. }
        split; auto. destruct o as [lits|]; auto. destruct X as [X1 X2]. split; auto.
        intros (m & Hm & T). apply X2. apply in_app_iff in Hm. destruct Hm as [Hm|[<-|Hm]].
        -- exists m. rewrite <- app_assoc. split; auto. apply in_app_iff; auto.
        -- exists (lit_of lf rt (lpos l)). split; [rewrite !in_app_iff; simpl; auto|]. apply lit_of_true. tauto.
        -- exists m. split; auto. rewrite in_app_iff. auto.
Qed.

Lemma without_in c i l : In l (without c i) -> In l c.
Proof. revert i; induction c as [|x c IH]; intros [|i]; simpl; auto. intros [|]; eauto. Qed.
Lemma without_other c i j l : nth_error c j = Some l -> i <> j -> In l (without c i).
Proof. revert i j; induction c as [|x c IH]; intros [|i] [|j] H N; simpl in *; try discriminate; try tauto.
  - eauto using nth_error_In.
  - left; congruence.
  - right. apply (IH i j); auto.
Qed.
Lemma resolve_true c i : clause_true gval c -> clause_true gval (flip_literal c i) -> i < length c -> clause_true gval (without c i).
Proof.
  intros (l & Hl & T) (m & Hm & U) Hi. unfold flip_literal in Hm.
  destruct (nth_error c i) as [k|] eqn:K; [|apply nth_error_None in K; lia].
  apply In_nth_error in Hl. destruct Hl as (j & Hj). apply In_nth_error in Hm. destruct Hm as (j' & Hm).
  destruct (Nat.eq_dec i j) as [->|Nj]; [|exists l; split; auto; eapply without_other; eauto].
  apply nth_upd_cases in Hm. destruct Hm as [[-> ->]|[Nj' Hm]]; [|exists m; split; auto; eapply without_other; eauto].
  exfalso. apply (proj1 (proj2 (literal_id_symmetric _ _ _ _ gval))) in U. rewrite K in Hj. injection Hj as ->. unfold lit_true in T.
  destruct (lpos l); simpl in U; contradiction.
Qed.
Lemma insert_new_clause_ok s lits : okc lits -> sok s -> sok (insert_new_clause s lits).
Proof.
  intros O Hs. unfold insert_new_clause. apply clauseid_ok in O. destruct (clauseid_new lits) as [| |c]; auto; [tauto|].
  destruct (set_mem c (cs_clauses (eg_clauses s))); auto.
  destruct (consistent_insert _ c (so_cset s Hs)) as [C E].
  apply fold_ind.
  - intros i s' Hi Hs'. apply in_seq in Hi. unfold resolve_literal. destruct (set_mem (flip_literal c i) _) eqn:F; auto.
    apply set_mem_in in F. apply (so_cls s' Hs') in F.
    assert (O2 : okc (without c i)).
    { split; [intros l Hl; apply O; eapply without_in; eauto|]. apply resolve_true; [apply O|apply F|lia]. }
    apply clauseid_ok in O2. destruct (clauseid_new (without c i)) as [| |r]; auto; [tauto|].
    destruct (set_mem r _); auto. apply sok_push; auto.
  - apply sok_clauses; auto. intros d Hd. apply E in Hd. destruct Hd as [->|Hd]; auto. eapply so_cls; eauto.
Qed.
Lemma insert_clause_normalized_ok s c s' : insert_clause_normalized s c = Ok s' -> okc c -> sok s -> sok s'.
Proof.
  intros H [Hr Hc] Hs. unfold insert_clause_normalized in H. dob H. destruct x as [s1 o].
  destruct (evaluate_literals_ok _ _ _ _ _ H0 Hr ltac:(intros ? []) Hs) as [S1 X]. clear H0.
  destruct o as [lits|]; [|injection H as <-; auto]. destruct X as [X1 X2]. specialize (X2 Hc).
  destruct lits as [|l [|l' lits]].
  - destruct X2 as (? & [] & _).
  - destruct (X1 l (or_introl eq_refl)) as [R1 R2].
    dob H. destruct x as [s2 lg]. destruct (update_group_id_ok _ _ _ _ H0 R1 S1) as [S2 E1]. clear H0.
    dob H. destruct x as [s3 rg]. destruct (update_group_id_ok _ _ _ _ H0 R2 S2) as [S3 E2]. clear H0.
    dob H. dob H. apply info_ok in H0, H1. rename x into li, x0 into ri.
    assert (N : sok (insert_new_clause s3 [l])) by (apply insert_new_clause_ok; auto; split; auto).
    destruct (gi_terms li) as [|lt lts] eqn:EL; [injection H as <-; auto|].
    destruct (gi_terms ri) as [|rt rts] eqn:ER; [injection H as <-; auto|]. injection H as <-.
    apply sok_push; auto. destruct X2 as (m & [<-|[]] & T). unfold lit_true, gval in T.
    assert (Q1 : eqv (N.to_nat (lleft l)) lt).
    { eapply eqv_trans; eauto. apply (so_gs s3 S3 _ _ H0). rewrite EL. simpl; auto. }
    assert (Q2 : eqv (N.to_nat (lright l)) rt).
    { eapply eqv_trans; eauto. apply (so_gs s3 S3 _ _ H1). rewrite ER. simpl; auto. }
    destruct Q1 as (? & ? & Q1), Q2 as (? & ? & Q2). rewrite Q1, Q2 in T. destruct (lpos l); simpl; unfold eqv, nev; auto.
  - injection H as <-. apply insert_new_clause_ok; auto. split; auto.
Qed.

Lemma set_terms_equal_once_ok s a b s' : set_terms_equal_once ordk ordc s a b = Ok s' -> eqv a b -> sok s -> sok s'.
Proof.
  intros H E Hs. unfold set_terms_equal_once in H. dob H. dob H.
  assert (G : eqv x x0). { apply (group_ok s) in H0, H1; auto. eapply eqv_trans; [|eauto]. eapply eqv_trans; [|eauto]. apply eqv_sym; auto. }
  destruct (Nat.eqb x x0); [injection H as <-; auto|]. dob H. dob H. cbv zeta in H.
  destruct (Nat.ltb _ _ || _); eapply remap_group_ok; eauto. apply eqv_sym; auto.
Qed.
Lemma set_terms_not_equal_once_ok s a b s' : set_terms_not_equal_once ordc s a b = Ok s' -> nev a b -> sok s -> sok s'.
Proof.
  intros H E Hs. unfold set_terms_not_equal_once in H. dob H. dob H.
  assert (G : nev x x0). { apply (group_ok s) in H0, H1; auto. eapply nev_eqv; [|eauto]. apply nev_sym. eapply nev_eqv; [|eauto]. apply nev_sym; auto. }
  destruct (Nat.eqb_spec x x0) as [->|_]; [destruct G; tauto|]. dob H. apply info_ok in H2.
  destruct (memb x0 (gi_ineq x1)); [dob H; injection H as <-; auto|]. cbv zeta in H.
  set (s1 := set_groups s _) in *.
  assert (S1 : sok s1). { apply sok_upd; auto. destruct (so_gs s Hs _ _ H2) as [T I]. simpl. split; auto. intros h [<-|Hh]; auto. }
  dob H. apply info_ok in H3. destruct (memb x (gi_ineq x2)); [discriminate|]. injection H as <-.
  apply handle_inequality_ok. apply sok_upd; auto. destruct (so_gs s1 S1 _ _ H3) as [T I]. simpl. split; auto. intros h [<-|Hh]; auto.
  apply nev_sym; auto.
Qed.
Lemma process_pending_ok k : forall s s', process_pending ordk ordc k s = Ok s' -> sok s -> sok s'.
Proof.
  induction k as [|k IH]; intros s s' H Hs; simpl in H; [discriminate|].
  destruct (eg_pending s) as [|o rest] eqn:Ep; [injection H as <-; auto|].
  assert (Hs' : sok (set_pending s rest)).
  { destruct Hs as [H1 H2 H3 H4 H5 H6 H7 H8 H9 H10 H11 H12 H13]. constructor; simpl; auto. intros p Hp. apply H12. rewrite Ep. simpl; auto. }
  destruct (eg_contra _) eqn:Ec; [simpl in Ec; rewrite (so_con s Hs) in Ec; discriminate|].
  dob H. apply IH in H; auto. assert (Ho : oko o) by (apply (so_pend s Hs); rewrite Ep; simpl; auto).
  destruct o as [a b|a b|c]; simpl in H0, Ho.
  - eapply set_terms_equal_once_ok; eauto.
  - eapply set_terms_not_equal_once_ok; eauto.
  - eapply insert_clause_normalized_ok; eauto.
Qed.
Lemma insert_group_application_ok s f a r s' : insert_group_application s f a r = Ok s' -> appv (f, a) r -> sok s -> sok s'.
Proof.
  intros H A Hs. unfold insert_group_application in H. dob H.
  destruct (map_get key_eqb (eg_amap s) (f, a)) as [ex|] eqn:G.
  - dob H. injection H as <-. destruct (Nat.eqb x0 x); auto. apply sok_push; auto. simpl.
    apply (so_amap s Hs) in G. destruct G as (G1 & G2 & G3 & G4), A as (A1 & A2 & A3 & A4). repeat split; auto. congruence.
  - cbv zeta in H. dob H. injection H as <-.
    assert (X : length x0 = length (eg_groups s) /\ forall g p, nth_error x0 g = Some p -> okg g p).
    { refine (foldm_ind _ (fun x0 => length x0 = length (eg_groups s) /\ forall g p, nth_error x0 g = Some p -> okg g p) _ _ _ _ H1 _).
      - intros g gs gs' _ Hg [L1 L2]. destruct (nth_error gs g) as [[|i]|] eqn:E; try discriminate. injection Hg as <-.
        split; [rewrite upd_length; auto|]. intros h p Hp. apply nth_upd_cases in Hp. destruct Hp as [[<- ->]|[_ Hp]]; auto. apply (L2 _ _ E).
      - split; auto. intros. eapply so_gs; eauto. }
    destruct X as [X1 X2]. apply sok_apps.
    + apply sok_groups; auto.
    + intros k ap Hk. apply nth_snoc in Hk. destruct Hk as [Hk|[_ Hk]]; [eapply so_app; eauto|]. injection Hk as ->. auto.
    + intros k r0. rewrite (get_set key_eqb key_eqb_eq). destruct (key_eqb (f, a) k) eqn:K; [|apply so_amap; auto].
      apply key_eqb_eq in K. subst k. intros Hk; injection Hk as <-. auto.
Qed.
End Values.

(** more terms *)
Lemma tval_app tl ext i : i < length tl -> tval (tl ++ ext) i = tval tl i.
Proof. intros H. unfold tval. rewrite app_nth1; auto. Qed.
Lemma eqv_app tl ext i j : eqv tl i j -> eqv (tl ++ ext) i j.
Proof. intros (H1 & H2 & H3). unfold eqv. rewrite app_length, !tval_app by auto. repeat split; auto; lia. Qed.
Lemma nev_app tl ext i j : nev tl i j -> nev (tl ++ ext) i j.
Proof. intros (H1 & H2 & H3). unfold nev. rewrite app_length, !tval_app by auto. repeat split; auto; lia. Qed.
Lemma appv_app tl ext k r : appv tl k r -> appv (tl ++ ext) k r.
Proof. intros (H1 & H2 & H3 & H4). unfold appv. rewrite app_length, !tval_app by auto. repeat split; auto; lia. Qed.
Lemma okc_app tl ext c : okc tl c -> okc (tl ++ ext) c.
Proof.
  intros [Hr (l & Hl & T)]. split.
  - intros m Hm. destruct (Hr m Hm). unfold litr. rewrite app_length. lia.
  - exists l. split; auto. destruct (Hr l Hl). unfold lit_true, gval in *. rewrite !tval_app; auto.
Qed.
Lemma nth_app tl ext i t : nth_error tl i = Some t -> nth_error (tl ++ ext) i = Some (t : term).
Proof. intros H. rewrite nth_error_app1; auto. eapply nth_lt; eauto. Qed.
Lemma tval_nth tl i t : nth_error tl i = Some t -> tval tl i = ev M rho t.
Proof. intros H. unfold tval. rewrite (nth_error_nth _ _ _ H). auto. Qed.

Lemma new_term_ok tl s t d s' id : new_term s t d = (s', id) -> wt M rho t -> sok tl s -> sok (tl ++ [t]) s' /\ id = length tl.
Proof.
  intros H Ht Hs. pose proof (terms_len tl s Hs) as Lt. unfold new_term in H. injection H as <- <-.
  destruct Hs as [H1 H2 H3 H4 H5 H6 H7 H8 H9 H10 H11 H12 H13]. split; auto.
  assert (New : eqv (tl ++ [t]) (length tl) (length tl)) by (unfold eqv; rewrite app_length; simpl; repeat split; auto; lia).
  constructor; simpl; auto.
  - rewrite map_app, H1. auto.
  - rewrite !app_length, H2. auto.
  - intros u Hu. apply in_app_iff in Hu. destruct Hu as [Hu|[<-|[]]]; auto.
  - intros i ti Hi. apply nth_snoc in Hi. destruct Hi as [Hi|[-> ->]]; [apply eqv_app; eauto|]. simpl. rewrite H2, Lt. auto.
  - intros g p Hp. apply nth_snoc in Hp. destruct Hp as [Hp|[-> ->]].
    + apply H5 in Hp. destruct p as [h|i]; simpl in *; [apply eqv_app; auto|]. destruct Hp. split; auto using eqv_app, nev_app.
    + simpl. rewrite H2, Lt. split; [intros t' [<-|[]]; auto|intros h []].
  - intros; apply appv_app; eauto.
  - intros; apply appv_app; eauto.
  - intros d' i Hi. apply H8 in Hi. destruct d' as [a|f a|]; simpl in *; auto using nth_app.
    destruct Hi as (tf & ta & A1 & A2 & A3). exists tf, ta. auto using nth_app.
  - intros; apply nth_app; eauto.
  - intros; apply okc_app; eauto.
  - intros o Ho. apply H12 in Ho. destruct o; simpl in *; auto using eqv_app, nev_app, okc_app.
Qed.
Lemma add_decomp_ok tl s d id : okd tl d id -> sok tl s -> sok tl (add_decomp s d id).
Proof.
  intros Hd [H1 H2 H3 H4 H5 H6 H7 H8 H9 H10 H11 H12 H13]. constructor; try assumption.
  intros e i. cbn [eg_decomps add_decomp]. rewrite (get_set decomp_eqb decomp_eqb_eq). destruct (decomp_eqb d e) eqn:E; auto.
  apply decomp_eqb_eq in E. subst e. intros H; injection H as <-. auto.
Qed.
Lemma add_opaque_ok tl s t id : nth_error tl id = Some t -> sok tl s -> sok tl (add_opaque s t id).
Proof.
  intros Hd [H1 H2 H3 H4 H5 H6 H7 H8 H9 H10 H11 H12 H13]. constructor; try assumption.
  intros u i. cbn [eg_opaque add_opaque]. rewrite (get_set term_eqb term_eqb_eq). destruct (term_eqb t u) eqn:E; auto.
  apply term_eqb_eq in E. subst u. intros H; injection H as <-. auto.
Qed.

(** the graph grew to hold the term [t] with number [id] *)
Definition holds_term (tl : list term) (s' : egraph) (t : term) (id : nat) : Prop :=
  exists ext, sok (tl ++ ext) s' /\ nth_error (tl ++ ext) id = Some t.

Lemma insert_atom_ok tl s a : wt M rho (TAtom a) -> sok tl s -> holds_term tl (fst (insert_atom s a)) (TAtom a) (snd (insert_atom s a)).
Proof.
  intros Hw Hs. unfold insert_atom. destruct (map_get decomp_eqb (eg_decomps s) (DAtomic a)) as [id|] eqn:G.
  - exists []. rewrite app_nil_r. split; auto. apply (so_dec tl s Hs) in G. auto.
  - destruct (new_term s (TAtom a) (DAtomic a)) as [s1 id] eqn:E. destruct (new_term_ok _ _ _ _ _ _ E Hw Hs) as [S1 ->]. simpl.
    assert (X : nth_error (tl ++ [TAtom a]) (length tl) = Some (TAtom a)) by (rewrite nth_error_app2, Nat.sub_diag; auto).
    exists [TAtom a]. split; auto. apply add_decomp_ok; auto.
Qed.
Lemma insert_opaque_ok tl s t : wt M rho t -> sok tl s -> holds_term tl (fst (insert_opaque_term s t)) t (snd (insert_opaque_term s t)).
Proof.
  intros Hw Hs. unfold insert_opaque_term. destruct (map_get term_eqb (eg_opaque s) t) as [id|] eqn:G.
  - exists []. rewrite app_nil_r. split; auto. apply (so_opq tl s Hs) in G. auto.
  - destruct (new_term s t DOpaque) as [s1 id] eqn:E. destruct (new_term_ok _ _ _ _ _ _ E Hw Hs) as [S1 ->]. simpl.
    assert (X : nth_error (tl ++ [t]) (length tl) = Some t) by (rewrite nth_error_app2, Nat.sub_diag; auto).
    exists [t]. split; auto. apply add_opaque_ok; auto.
Qed.

Lemma swapped_eq_ok t sw : swapped_eq t = Some sw -> wt M rho t -> exists T a b, t = teq T a b /\ sw = teq T b a.
Proof.
  unfold swapped_eq. intros H Hw. destruct (args t) as [|x [|y [|z [|]]]] eqn:Ea; try discriminate.
  destruct (head_atom (spine_head t)) as [| |[]] eqn:Eh; try discriminate.
  rewrite <- head_spine in Eh. assert (Es := connective_spine M _ SEq _ _ t eq_refl Hw Eh).
  destruct (term_eqb _ t); [discriminate|]. injection H as <-. exists x, y, z. split; auto.
  rewrite (spine_eq t), Es, Ea. auto.
Qed.

Lemma insert_application_ok ins tl s f a tf ta s' id : insert_application ins s f a = Ok (s', id) ->
  (forall tl s t s' id, ins s t = Ok (s', id) -> wt M rho t -> sok tl s -> holds_term tl s' t id) ->
  nth_error tl f = Some tf -> nth_error tl a = Some ta -> wt M rho (TApp tf ta) -> sok tl s ->
  holds_term tl s' (TApp tf ta) id.
Proof.
  intros H Hins Hf Ha Hw Hs. unfold insert_application in H.
  destruct (map_get decomp_eqb (eg_decomps s) (DApp f a)) as [i|] eqn:G.
  - injection H as <- <-. exists []. rewrite app_nil_r. split; auto. apply (so_dec tl s Hs) in G.
    destruct G as (tf' & ta' & G1 & G2 & G3). congruence.
  - unfold get_term in H. dob H. dob H.
    assert (x = tf /\ x0 = ta) as [-> ->].
    { dob H0. dob H1. apply unwrap_ok in H2, H3. injection H0 as <-. injection H1 as <-.
      rewrite <- (so_tl tl s Hs) in Hf, Ha. rewrite nth_error_map in Hf, Ha. rewrite H2 in Hf. rewrite H3 in Ha. simpl in *. split; congruence. }
    clear H0 H1. set (t := TApp tf ta) in *. destruct (new_term s t (DApp f a)) as [s1 i] eqn:E.
    destruct (new_term_ok _ _ _ _ _ _ E Hw Hs) as [S1 ->]. set (tl1 := tl ++ [t]) in *.
    assert (X : nth_error tl1 (length tl) = Some t) by (unfold tl1; rewrite nth_error_app2, Nat.sub_diag; auto).
    assert (S2 : sok tl1 (add_decomp s1 (DApp f a) (length tl))).
    { apply add_decomp_ok; auto. simpl. exists tf, ta. unfold tl1 in *; auto using nth_app. }
    set (s2 := add_decomp s1 _ _) in *. clearbody s2.
    dob H. dob H. apply (group_ok tl1) in H0, H1; auto. rename x into fg, x0 into ag.
    dob H. rename x into s3. assert (S3 : sok tl1 s3).
    { eapply insert_group_application_ok; eauto. destruct H0 as (F1 & F2 & F3), H1 as (A1 & A2 & A3). repeat split; auto; simpl.
      - eapply nth_lt; eauto.
      - rewrite <- F3, <- A3, (tval_nth tl1 f tf), (tval_nth tl1 a ta), (tval_nth tl1 _ t) by (unfold tl1 in *; auto using nth_app). reflexivity. }
    destruct (swapped_eq t) as [sw|] eqn:Sw.
    + destruct (swapped_eq_ok _ _ Sw Hw) as (T & p & q & Et & ->). rewrite Et in Hw.
      destruct (eq_swap M _ _ _ T p q Hw) as [Hw' Ev].
      dob H. destruct x as [s4 sid]. injection H as <- <-.
      destruct (Hins _ _ _ _ _ H3 Hw' S3) as (ext & S4 & N4). exists (t :: ext).
      assert (Etl : tl ++ t :: ext = tl1 ++ ext) by (unfold tl1; rewrite <- app_assoc; auto). rewrite Etl.
      split; [|apply nth_app; auto]. apply sok_push; auto. simpl.
      assert (N5 : nth_error (tl1 ++ ext) (length tl) = Some t) by (apply nth_app; auto).
      split; [eapply nth_lt; eauto|]. split; [eapply nth_lt; eauto|].
      rewrite (tval_nth _ _ _ N4), (tval_nth _ _ _ N5), Et. symmetry. exact Ev.
    + injection H as <- <-. exists [t]. auto.
Qed.

Lemma insert_term_ok k : forall tl s t s' id, insert_term ordk ordc k s t = Ok (s', id) -> wt M rho t -> sok tl s -> holds_term tl s' t id.
Proof.
  induction k as [|k IH]; intros tl s t s' id H Hw Hs; simpl in H; [discriminate|].
  dob H. destruct x as [s1 i]. dob H. injection H as -> ->. 
  assert (G : holds_term tl s1 t id).
  { destruct t as [a|f a|kk A b].
    - injection H0 as H0. pose proof (insert_atom_ok tl s a Hw Hs) as X. rewrite H0 in X. auto.
    - assert (W : wt M rho f /\ wt M rho a) by (unfold wt, swt in *; simpl in Hw; tauto). destruct W as [Wf Wa].
      dob H0. destruct x as [s2 fid]. destruct (IH _ _ _ _ _ H Wf Hs) as (e1 & S2 & N2).
      dob H0. destruct x as [s3 aid]. destruct (IH _ _ _ _ _ H2 Wa S2) as (e2 & S3 & N3).
      destruct (insert_application_ok _ _ _ _ _ _ _ _ _ H0 (fun tl s t s' id => IH tl s t s' id) (nth_app _ _ _ _ N2) N3 Hw S3) as (e3 & S4 & N4).
      exists (e1 ++ e2 ++ e3). rewrite !app_assoc. auto.
    - injection H0 as H0. pose proof (insert_opaque_ok tl s _ Hw Hs) as X. rewrite H0 in X. auto. }
  destruct G as (ext & S1 & N1). exists ext. split; auto. eapply process_pending_ok; eauto.
Qed.
End Sound.
