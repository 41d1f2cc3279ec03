(** Lemmas about Simplify.v. *)
From Coq Require Import List Arith Bool Lia.
Import ListNotations.
From Verif Require Import LoweredModule LoweredModuleProofs Simplify.

(** Lines *)
Lemma skipn_add {A} b : forall a (l : list A), skipn a (skipn b l) = skipn (b + a) l.
Proof. induction b as [|b IH]; intros a l; auto. destruct l; simpl; auto. destruct a; auto. Qed.
Inductive lines_ok : list text -> Prop :=
| lo_nil : lines_ok []
| lo_last p : p <> [] -> ~ In 10 p -> lines_ok [p]
| lo_cons a ls : ~ In 10 a -> lines_ok ls -> lines_ok ((a ++ [10]) :: ls).
Lemma split_concat s : concat (split_inclusive s) = s.
Proof.
  induction s as [|c s IH]; auto. simpl. destruct (Nat.eqb_spec c 10); simpl; [rewrite IH; auto|].
  destruct (split_inclusive s); simpl in *; rewrite <- IH; auto.
Qed.
Lemma split_ok s : lines_ok (split_inclusive s).
Proof.
  induction s as [|c s IH]; [constructor|]. simpl. destruct (Nat.eqb_spec c 10) as [->|Hc]; [apply (lo_cons []); auto|].
  inversion IH as [|p Hp1 Hp2|a ls Ha Hl].
  - apply lo_last; [discriminate|]. intros [E|[]]. auto.
  - apply lo_last; [discriminate|]. intros [E|E]; auto.
  - change (c :: a ++ [10]) with ((c :: a) ++ [10]). apply lo_cons; auto. intros [E|E]; auto.
Qed.
Lemma split_full a s : ~ In 10 a -> split_inclusive (a ++ [10] ++ s) = (a ++ [10]) :: split_inclusive s.
Proof.
  induction a as [|c a IH]; intros H; auto. simpl. destruct (Nat.eqb_spec c 10) as [->|Hc]; [destruct H; left; auto|].
  simpl in IH. rewrite IH by (intros X; apply H; right; auto). auto.
Qed.
Lemma split_part p : p <> [] -> ~ In 10 p -> split_inclusive p = [p].
Proof.
  induction p as [|c p IH]; intros H1 H2; [congruence|]. simpl. destruct (Nat.eqb_spec c 10) as [->|Hc]; [destruct H2; left; auto|].
  destruct p as [|d p]; auto. rewrite IH; auto; [discriminate|]. intros X. apply H2. right. auto.
Qed.
Lemma ok_split ls : lines_ok ls -> split_inclusive (concat ls) = ls.
Proof.
  induction 1 as [|p H1 H2|a ls Ha Hl IH]; auto; simpl; [rewrite app_nil_r; apply split_part; auto|].
  rewrite <- app_assoc, split_full, IH; auto.
Qed.
Lemma ok_remove A M B : M <> [] -> lines_ok (A ++ M ++ B) -> lines_ok (A ++ B).
Proof.
  intros HM. induction A as [|a A IH]; simpl; intros H.
  - induction M as [|x M IHM]; [congruence|]. destruct M as [|y M].
    + inversion H; subst; auto. constructor.
    + apply IHM; [discriminate|]. inversion H; subst; auto.
  - inversion H as [|p X1 X2 X3|b ls Hb Hl]; [destruct A; [destruct M; [congruence|discriminate]|discriminate]|]. subst. apply lo_cons; auto.
Qed.

(** [x] is strictly inside of a block of the items *)
Inductive below (x : sitem) : list sitem -> Prop :=
| below_here is e items : In (SBlock is e) items -> In x is -> below x items
| below_deep is e items : In (SBlock is e) items -> below x is -> below x items.
Definition within (x : sitem) (items : list sitem) : Prop := In x items \/ below x items.

Section Ind.
  Context (P : sitem -> Prop) (H1 : forall f, P (SFact f)) (H2 : forall g p f l, P (SClaim g p f l)) (H3 : forall is e, Forall P is -> P (SBlock is e)).
  Fixpoint sitem_ind' (i : sitem) : P i :=
    match i with
    | SFact f => H1 f
    | SClaim g p f l => H2 g p f l
    | SBlock is e => H3 is e ((fix go l : Forall P l := match l with [] => Forall_nil _ | x :: l => Forall_cons _ (sitem_ind' x) (go l) end) is)
    end.
End Ind.

(** The last claim of a list of items is the last one in the order of the source. *)
Lemma last_spec is : match last_claim_fact is with Some p => exists pre g, flat_map claims (map erase is) = pre ++ [(g, p)] | None => flat_map claims (map erase is) = [] end.
Proof.
  assert (K : forall is, Forall (fun i => match last_claim i with Some p => exists pre g, claims (erase i) = pre ++ [(g, p)] | None => claims (erase i) = [] end) is ->
    match last_claim_fact is with Some p => exists pre g, flat_map claims (map erase is) = pre ++ [(g, p)] | None => flat_map claims (map erase is) = [] end).
  { clear is. induction 1 as [|i is Hi His IH]; unfold last_claim_fact in *; simpl; auto. destruct (last_list last_claim is) as [p|].
    - destruct IH as (pre & g & ->). exists (claims (erase i) ++ pre), g. apply app_assoc.
    - rewrite IH. destruct (last_claim i) as [p|]; rewrite app_nil_r; auto. }
  apply K. apply Forall_forall. intros i _. clear is. induction i as [f|g p f l|is e IH] using sitem_ind'; simpl; auto; [exists [], g; auto|apply (K is IH)].
Qed.
Definition ends_with (is : list sitem) (p : nat) : Prop := exists pre g, flat_map claims (map erase is) = pre ++ [(g, p)].
Lemma ends_last is p : ends_with is p -> last_claim_fact is = Some p.
Proof.
  intros (pre & g & E). pose proof (last_spec is) as H. destruct (last_claim_fact is) as [q|]; [|rewrite H in E; destruct pre; discriminate].
  destruct H as (pre' & g' & E'). rewrite E in E'. apply app_inj_tail in E'. destruct E' as [_ [= _ ->]]. auto.
Qed.

Definition claim_of (c : candidate) : sitem := SClaim (c_goal c) (c_post c) (c_first c) (c_last c).
Lemma candidates_in_spec l ex cur c i : forall depth, In c (candidates_in l ex cur depth i) ->
  (i = claim_of c /\ 0 < depth \/ exists is e, i = SBlock is e /\ within (claim_of c) is) /\
  cur <= c_first c /\ ~ In (c_post c) ex /\ ld_anon_goal l (c_goal c) = true /\ ld_anon_fact l (c_post c) = true.
Proof.
  induction i as [f|g p f la|is e IH] using sitem_ind'; intros depth H; [destruct H| |].
  - cbn [candidates_in] in H. destruct (0 <? depth) eqn:E1; [|destruct H]. destruct (cur <=? f) eqn:E2; [|destruct H].
    destruct (existsb (Nat.eqb p) ex) eqn:E3; [destruct H|]. destruct (ld_anon_goal l g) eqn:E4; [|destruct H]. destruct (ld_anon_fact l p) eqn:E5; [|destruct H].
    destruct H as [<-|[]]. simpl. apply Nat.ltb_lt in E1. apply Nat.leb_le in E2. split; [left; auto|]. split; [auto|]. split; [|auto].
    intros X. assert (existsb (Nat.eqb p) ex = true) by (apply existsb_exists; exists p; split; auto; apply Nat.eqb_refl). congruence.
  - cbn [candidates_in] in H. apply in_flat_map in H. destruct H as (x & Hx & Hc). rewrite Forall_forall in IH. destruct (IH x Hx _ Hc) as [H R]. split; auto.
    right. exists is, e. split; auto. destruct H as [[-> _]|(is' & e' & -> & Hw)]; [left; auto|]. right. destruct Hw; [eapply below_here|eapply below_deep]; eauto.
Qed.
Lemma exported_in is e items p : within (SBlock is e) items -> last_claim_fact is = Some p -> In p (flat_map exported_claims items).
Proof.
  intros [H|H] Hl; [apply in_flat_map; exists (SBlock is e); split; auto; simpl; rewrite Hl; left; auto|].
  induction H as [is' e' items Hb Hx|is' e' items Hb Hx IH]; apply in_flat_map; exists (SBlock is' e'); split; auto; simpl; apply in_or_app; right; auto.
  apply in_flat_map. exists (SBlock is e). split; auto. simpl. rewrite Hl. left. auto.
Qed.
Lemma collect_spec l cur c : In c (collect_candidates l cur) ->
  below (claim_of c) (ld_items l) /\ cur <= c_first c /\ (forall is e, within (SBlock is e) (ld_items l) -> last_claim_fact is <> Some (c_post c)) /\
  ld_anon_goal l (c_goal c) = true /\ ld_anon_fact l (c_post c) = true.
Proof.
  intros H. apply in_flat_map in H. destruct H as (i & Hi & H). apply candidates_in_spec in H. destruct H as (H & H1 & H2 & H3).
  split; [|split; [auto|split; [|auto]]].
  - destruct H as [[_ X]|(is & e & -> & X)]; [lia|]. destruct X; [eapply below_here|eapply below_deep]; eauto.
  - intros is e Hw Hl. apply H2. eapply exported_in; eauto.
Qed.
Lemma first_in cs c : first_candidate cs = Some c -> In c cs.
Proof.
  revert c. induction cs as [|d cs IH]; intros c; [discriminate|]. simpl. destruct (first_candidate cs) as [x|]; intros [= <-]; auto.
  destruct (key_ltb x d); auto.
Qed.

Lemma first_least cs c : first_candidate cs = Some c -> forall d, In d cs -> c_first c <= c_first d.
Proof.
  revert c. induction cs as [|x cs IH]; intros c; [discriminate|]. simpl. destruct (first_candidate cs) as [y|] eqn:E.
  - intros [= <-] d Hd. specialize (IH y eq_refl). unfold key_ltb. destruct (Nat.eqb_spec (c_first y) (c_first x)) as [Hxy|Hxy].
    + assert (c_first y <= c_first d) by (destruct Hd as [<-|Hd]; [lia|auto]). destruct (if c_last y =? c_last x then _ else _); lia.
    + destruct (Nat.ltb_spec (c_first y) (c_first x)); destruct Hd as [<-|Hd]; try (specialize (IH d Hd)); lia.
  - intros [= <-] d [<-|Hd]; auto. destruct cs as [|z cs]; [destruct Hd|]. simpl in E. destruct (first_candidate cs); discriminate.
Qed.

Lemma affected_spec l p g : In g (affected_goals l p) <-> g < ld_goals l /\ exists V, visible l g = Some V /\ In p V.
Proof.
  unfold affected_goals. rewrite filter_In, in_seq. destruct (visible l g) as [V|].
  - rewrite existsb_exists. split.
    + intros [H (x & Hx & E)]. apply Nat.eqb_eq in E. subst x. split; [lia|eauto].
    + intros [H (U & [= <-] & Hx)]. split; [lia|]. exists p. split; auto. apply Nat.eqb_refl.
  - split; [intros [_ X]; discriminate|intros (_ & V & X & _); discriminate].
Qed.

(** All facts of an item; those inside of it and those that later items see *)
Fixpoint all_ids (i : litem) : list nat :=
  match i with IFact f => [f] | IClaim _ f => [f] | IBlock is e => flat_map all_ids is ++ match e with Some f => [f] | None => [] end end.
Definition in_ids (i : litem) : list nat := match i with IBlock is _ => flat_map all_ids is | _ => [] end.
Definition top_ids (i : litem) : list nat := match i with IFact f => [f] | IClaim _ f => [f] | IBlock _ e => match e with Some f => [f] | None => [] end end.
Lemma all_split i : all_ids i = in_ids i ++ top_ids i.
Proof. destruct i; auto. Qed.
Lemma lower_ids {F G} (ns : list (lnode F G)) : forall top m its m', lower_nodes top ns m = (its, m') ->
  (exists j, length (l_facts m') = length (l_facts m) + j /\ flat_map all_ids its = seq (length (l_facts m)) j) /\
  forall id, In id (l_exports m') -> In id (l_exports m) \/ top = true /\ In id (flat_map top_ids its).
Proof.
  set (Q := fun (top : bool) (m m' : lmodule F G) ids tops => (exists j, length (l_facts m') = length (l_facts m) + j /\ ids = seq (length (l_facts m)) j) /\
    forall id, In id (l_exports m') -> In id (l_exports m) \/ top = true /\ In id tops).
  assert (K : forall l, Forall (fun n : lnode F G => forall top m it m', lower_node top n m = (it, m') -> Q top m m' (all_ids it) (top_ids it)) l ->
    forall top m its m', lower_nodes top l m = (its, m') -> Q top m m' (flat_map all_ids its) (flat_map top_ids its)).
  { induction 1 as [|n l Hn Hl IH]; intros top m its m' E.
    - injection E as <- <-. split; [exists 0; split; auto|]. auto.
    - rewrite lower_cons in E. destruct (lower_node top n m) as [i m1] eqn:E1. destruct (lower_nodes top l m1) as [is m2] eqn:E2. injection E as <- <-.
      destruct (Hn _ _ _ _ E1) as [(j1 & A1 & A2) A3]. destruct (IH _ _ _ _ E2) as [(j2 & B1 & B2) B3]. split.
      + exists (j1 + j2). split; [lia|]. simpl. rewrite A2, B2, seq_app. f_equal. f_equal. auto.
      + intros id Hi. simpl. destruct (B3 id Hi) as [H|[H1 H2]]; [destruct (A3 id H) as [H'|[H1 H2]]; auto|]; right; split; auto; apply in_or_app; auto. }
  assert (KE : forall (b imp : bool) (x id : nat) l, In id (if b && imp then l ++ [x] else l) -> In id l \/ b = true /\ In id [x]).
  { intros [] [] x id l H; auto. apply in_app_or in H. destruct H; auto. }
  apply K. apply Forall_forall. intros n _. clear ns. induction n as [f imp|g f imp|ns e IH] using lnode_ind'; intros top m it m' E.
  - injection E as <- <-. split; [exists 1; simpl; rewrite app_length; auto|]. intros id. apply KE.
  - injection E as <- <-. split; [exists 1; simpl; rewrite app_length; auto|]. intros id. apply KE.
  - cbn [lower_node] in E. destruct (lower_list (lower_node false) ns m) as [is m1] eqn:E1. destruct (K ns IH false _ _ _ E1) as [(j & A1 & A2) A3].
    assert (A4 : forall id, In id (l_exports m1) -> In id (l_exports m)) by (intros id Hi; destruct (A3 id Hi) as [H|[H _]]; [auto|discriminate]).
    destruct e as [[f imp]|]; injection E as <- <-.
    + split; [exists (j + 1); simpl; rewrite app_length; simpl; split; [lia|]; rewrite A2, seq_app; f_equal; simpl; f_equal; auto|].
      intros id Hi. apply KE in Hi. destruct Hi as [Hi|Hi]; auto.
    + split; [exists j; split; auto; simpl; rewrite app_nil_r; auto|]. auto.
Qed.
Lemma nodup_app_disjoint {A} (a b : list A) x : NoDup (a ++ b) -> In x a -> In x b -> False.
Proof.
  induction a as [|y a IH]; intros H []; inversion_clear H as [|? ? N1 N2]; [subst; intros X; apply N1, in_or_app; auto|eauto].
Qed.
Lemma nodup_app_r {A} (a b : list A) : NoDup (a ++ b) -> NoDup b.
Proof. induction a; auto. intros H. inversion_clear H. auto. Qed.
Lemma nodup_app_l {A} (a b : list A) : NoDup (a ++ b) -> NoDup a.
Proof. induction a; [constructor|]. intros H. inversion_clear H as [|? ? N1 N2]. constructor; auto. intros X. apply N1, in_or_app. auto. Qed.
Lemma in_top_disjoint its x : NoDup (flat_map all_ids its) -> In x (flat_map in_ids its) -> In x (flat_map top_ids its) -> False.
Proof.
  assert (A1 : forall l, In x (flat_map in_ids l) -> In x (flat_map all_ids l)) by (intros l; rewrite !in_flat_map; intros (i & Hi & Hx); exists i; split; auto; rewrite all_split; apply in_or_app; auto).
  assert (A2 : forall l, In x (flat_map top_ids l) -> In x (flat_map all_ids l)) by (intros l; rewrite !in_flat_map; intros (i & Hi & Hx); exists i; split; auto; rewrite all_split; apply in_or_app; auto).
  induction its as [|i its IH]; simpl; auto. intros N H1 H2. apply in_app_or in H1. apply in_app_or in H2.
  destruct H1 as [H1|H1], H2 as [H2|H2].
  - apply nodup_app_l in N. rewrite all_split in N. eapply nodup_app_disjoint; eauto.
  - eapply nodup_app_disjoint; [exact N|rewrite all_split; apply in_or_app; eauto|auto].
  - eapply nodup_app_disjoint; [exact N|rewrite all_split; apply in_or_app; eauto|auto].
  - apply IH; auto. eapply nodup_app_r; eauto.
Qed.
Lemma below_ids g p f l items : below (SClaim g p f l) items -> In p (flat_map in_ids (map erase items)).
Proof.
  assert (A : forall is, In p (flat_map in_ids is) -> In p (flat_map all_ids is)) by (intros is; rewrite !in_flat_map; intros (i & Hi & Hx); exists i; split; auto; rewrite all_split; apply in_or_app; auto).
  induction 1 as [is e items Hb Hx|is e items Hb Hx IH]; apply in_flat_map; exists (IBlock (map erase is) e); (split; [apply (in_map erase) in Hb; auto|]); simpl; auto.
  apply in_flat_map. exists (IClaim g p). split; [apply (in_map erase) in Hx; auto|left; auto].
Qed.

Section Run.
  Context (load : text -> option loaded) (prove : nat -> text -> nat -> list nat -> option bool) (verify : nat -> text -> bool).

  (** The states of a run, including those it ends in *)
  Inductive reach (dry : bool) (s : text) : state -> Prop :=
  | reach_init : reach dry s (init s)
  | reach_step st st' : reach dry s st -> (step load prove verify dry st = Next st' \/ step load prove verify dry st = Done st' \/ step load prove verify dry st = Failed st') -> reach dry s st'.
  Lemma run_reach fuel dry s : forall st ok st', reach dry s st -> run load prove verify fuel dry st = Some (ok, st') -> reach dry s st'.
  Proof.
    induction fuel as [|fuel IH]; intros st ok st' R E; [discriminate|]. simpl in E. destruct (step load prove verify dry st) as [x|x|x] eqn:Es.
    - eapply IH; [|exact E]. eapply reach_step; eauto.
    - injection E as <- <-. eapply reach_step; eauto.
    - injection E as <- <-. eapply reach_step; eauto.
  Qed.

  (** What a removal needs: the lines are those of an anonymous claim inside of a block which is not the last claim of any block; every goal that may use its fact
      was proved without it; the new source loads and verifies. *)
  Definition justified (t : text) (r : nat * nat * nat) (t' : text) : Prop :=
    let '(first, last, n) := r in
    exists l g p k, load t = Some l /\ below (SClaim g p first last) (ld_items l) /\ ld_anon_goal l g = true /\ ld_anon_fact l p = true /\
      (forall is e, within (SBlock is e) (ld_items l) -> ~ ends_with is p) /\
      (forall g' V, g' < ld_goals l -> visible_fact_ids_for g' (map erase (ld_items l)) = Some V -> In p V -> prove k t g' (filter (fun f => negb (f =? p)) V) = Some true) /\
      (exists gs, NoDup gs /\ length gs = n /\ forall g', In g' gs <-> g' < ld_goals l /\ exists V, visible_fact_ids_for g' (map erase (ld_items l)) = Some V /\ In p V) /\
      (exists A M B, split_inclusive t = A ++ M ++ B /\ length A = first /\ length A + length M = S last /\ M <> [] /\ split_inclusive t' = A ++ B) /\
      load t' <> None /\ verify k t' = true.
  Inductive chain (s : text) : list (nat * nat * nat) -> text -> Prop :=
  | chain_nil : chain s [] s
  | chain_snoc rs r t t' : chain s rs t -> justified t r t' -> chain s (rs ++ [r]) t'.

  Lemma can_remove_all k s l p gs : can_remove prove k s l p gs = Some true -> forall g V, In g gs -> visible l g = Some V -> prove k s g (filter (fun f => negb (f =? p)) V) = Some true.
  Proof.
    induction gs as [|g gs IH]; intros E x V []; simpl in E.
    - subst x. intros Hv. unfold prove_without_fact in E. rewrite Hv in E. destruct (prove k s g _) as [[]|]; auto; discriminate.
    - destruct (prove_without_fact prove k s l p g) as [[]|]; try discriminate. eauto.
  Qed.
  Lemma can_remove_not k s l p gs : can_remove prove k s l p gs = Some false -> exists g V, In g gs /\ visible l g = Some V /\ prove k s g (filter (fun f => negb (f =? p)) V) = Some false.
  Proof.
    induction gs as [|g gs IH]; intros E; [discriminate|]. simpl in E. unfold prove_without_fact in E at 1. destruct (visible l g) as [V|] eqn:Ev; [|discriminate].
    destruct (prove k s g _) as [[]|] eqn:Ep; [|exists g, V; split; [left|]; auto|discriminate]. destruct (IH E) as (x & U & H & R). exists x, U. split; [right|]; auto.
  Qed.
  Lemma remove_lines s f l t : remove_line_range s f l = Some t -> f <= l /\
    exists A M B, split_inclusive s = A ++ M ++ B /\ length A = f /\ length A + length M = S l /\ M <> [] /\ split_inclusive t = A ++ B.
  Proof.
    unfold remove_line_range. destruct (Nat.ltb_spec l f); [discriminate|]. destruct (Nat.leb_spec (length (split_inclusive s)) f); [discriminate|].
    destruct (Nat.leb_spec (length (split_inclusive s)) l); [discriminate|]. intros [= <-]. split; auto.
    set (ls := split_inclusive s) in *.
    assert (E : ls = firstn f ls ++ firstn (S l - f) (skipn f ls) ++ skipn (S l) ls).
    { replace (skipn (S l) ls) with (skipn (S l - f) (skipn f ls)); [rewrite !firstn_skipn; auto|]. rewrite skipn_add. f_equal. lia. }
    assert (LA : length (firstn f ls) = f) by (rewrite firstn_length; lia).
    assert (LM : length (firstn (S l - f) (skipn f ls)) = S l - f) by (rewrite firstn_length, skipn_length; lia).
    exists (firstn f ls), (firstn (S l - f) (skipn f ls)), (skipn (S l) ls). split; [exact E|]. split; [auto|]. split; [rewrite LA, LM; lia|].
    assert (N : firstn (S l - f) (skipn f ls) <> []) by (intros X; apply (f_equal (@length _)) in X; rewrite LM in X; cbn [length] in X; lia). split; auto.
    apply ok_split. eapply ok_remove; [exact N|]. rewrite <- E. apply split_ok.
  Qed.

  Lemma step_cases dry st st' : step load prove verify dry st = Next st' ->
    exists l c, load (source st) = Some l /\ In c (collect_candidates l (st_cursor st)) /\ st_considered st' = S (st_considered st) /\
      (st_file st' = st_file st /\ st_work st' = st_work st /\ st_removed st' = st_removed st /\ st_cursor st' = S (c_last c) \/
       exists t n, remove_line_range (source st) (c_first c) (c_last c) = Some t /\ st_removed st' = st_removed st ++ [(c_first c, c_last c, n)] /\ justified (source st) (c_first c, c_last c, n) t /\
         source st' = t /\ st_cursor st' = c_first c /\ (if dry then st_file st' = st_file st else st_file st' = t)).
  Proof.
    unfold step. destruct (load (source st)) as [l|] eqn:El; [|discriminate].
    destruct (first_candidate _) as [c|] eqn:Ec; [|discriminate]. apply first_in in Ec. cbn zeta.
    destruct (can_remove _ _ _ _ _ _) as [[]|] eqn:Er; [| |discriminate].
    - destruct (remove_line_range _ _ _) as [t|] eqn:Et; [|discriminate]. destruct (load t) as [lt|] eqn:Elt; [|discriminate].
      destruct (verify _ t) eqn:Ev; [|discriminate]. intros [= <-]. exists l, c. do 3 (split; [auto|]). right. exists t, (length (affected_goals l (c_post c))).
      split; auto. split; [auto|]. split.
      + destruct (collect_spec _ _ _ Ec) as (C1 & C2 & C3 & C4 & C5). exists l, (c_goal c), (c_post c), (S (st_considered st)). do 4 (split; [auto|]). split; [intros is e Hw He; apply (C3 is e Hw), ends_last, He|]. split; [|split].
        * intros g V Hg Hv Hp. eapply can_remove_all; eauto. apply affected_spec. eauto.
        * exists (affected_goals l (c_post c)). split; [apply NoDup_filter, seq_NoDup|]. split; auto. intros g. apply affected_spec.
        * split; [eapply remove_lines; eauto|]. split; [congruence|auto].
      + destruct dry; simpl; auto.
    - intros [= <-]. exists l, c. do 3 (split; [auto|]). left. auto.
  Qed.
  Lemma step_end dry st st' : step load prove verify dry st = Done st' \/ step load prove verify dry st = Failed st' ->
    st_file st' = st_file st /\ st_work st' = st_work st /\ st_removed st' = st_removed st /\ st_cursor st' = st_cursor st /\
    (st_considered st' = st_considered st \/ st_considered st' = S (st_considered st) /\ exists l c, load (source st) = Some l /\ In c (collect_candidates l (st_cursor st))).
  Proof.
    unfold step. destruct (load (source st)) as [l|] eqn:El; [|intros [[=]|[= <-]]; repeat split; simpl; eauto 10].
    destruct (first_candidate _) as [c|] eqn:Ec; [|intros [[= <-]|[=]]; repeat split; simpl; eauto 10]. apply first_in in Ec.
    cbn zeta. destruct (can_remove _ _ _ _ _ _) as [[]|] eqn:Er; [|intros [[=]|[=]]|intros [[=]|[= <-]]; repeat split; simpl; eauto 10].
    destruct (remove_line_range _ _ _) as [t|] eqn:Et; [|intros [[=]|[= <-]]; repeat split; simpl; eauto 10]. destruct (load t) as [lt|] eqn:Elt; [|intros [[=]|[= <-]]; repeat split; simpl; eauto 10].
    destruct (verify _ t) eqn:Ev; [intros [[=]|[=]]|intros [[=]|[= <-]]; repeat split; simpl; eauto 10].
  Qed.
  Lemma reach_ok dry s st : reach dry s st -> chain s (st_removed st) (source st) /\ (if dry then st_file st = s else st_file st = source st).
  Proof.
    induction 1 as [|st st' R [IH1 IH2] [H|H]]; [split; [apply chain_nil|destruct dry; auto]| |].
    - destruct (step_cases _ _ _ H) as (l & c & _ & _ & _ & [(E1 & E2 & E3 & _)|(t & n & _ & E1 & J & E2 & _ & E3)]).
      + unfold source in *. rewrite E1, E2, E3. auto.
      + rewrite E1, E2. split; [econstructor; eauto|]. destruct dry; congruence.
    - apply step_end in H. destruct H as (E1 & E2 & E3 & _). unfold source in *. rewrite E1, E2, E3. auto.
  Qed.

  (** Termination *)
  Definition lines_left (st : state) : nat := length (split_inclusive (source st)) - st_cursor st.
  Lemma step_left dry st st' :
    (forall s l g p f la, load s = Some l -> below (SClaim g p f la) (ld_items l) -> f <= la < length (split_inclusive s)) ->
    step load prove verify dry st = Next st' -> lines_left st' < lines_left st /\ st_considered st' = S (st_considered st).
  Proof.
    intros HL H. destruct (step_cases _ _ _ H) as (l & c & El & Hc & Hk & Hr). split; auto. destruct (collect_spec _ _ _ Hc) as (C1 & C2 & _).
    pose proof (HL _ _ _ _ _ _ El C1) as HH. unfold lines_left. destruct Hr as [(E1 & E2 & E3 & E4)|(t & n & Et & _ & _ & E2 & E3 & _)].
    - unfold source in *. rewrite E1, E2, E4. lia.
    - rewrite E2, E3. destruct (remove_lines _ _ _ _ Et) as (X & A & M & B & S1 & S2 & S3 & S4 & S5). rewrite S5. rewrite S1 in *. rewrite !app_length in *. lia.
  Qed.
  Lemma run_ends dry :
    (forall s l g p f la, load s = Some l -> below (SClaim g p f la) (ld_items l) -> f <= la < length (split_inclusive s)) ->
    forall fuel st, lines_left st < fuel -> exists ok st', run load prove verify fuel dry st = Some (ok, st') /\ st_considered st' <= st_considered st + lines_left st.
  Proof.
    intros HL. induction fuel as [|fuel IH]; intros st Hf; [lia|]. simpl.
    assert (K : forall x, step load prove verify dry st = Done x \/ step load prove verify dry st = Failed x -> st_considered x <= st_considered st + lines_left st).
    { intros x Hx. destruct (step_end dry st x Hx) as (_ & _ & _ & _ & [H|(H & l & c & El & Hc)]); [lia|]. destruct (collect_spec _ _ _ Hc) as (C1 & C2 & _).
      pose proof (HL _ _ _ _ _ _ El C1) as HH. unfold lines_left. lia. }
    destruct (step load prove verify dry st) as [x|x|x] eqn:Es.
    - destruct (step_left dry _ _ HL Es) as [H1 H2]. destruct (IH x) as (ok & st' & E & J); [lia|]. exists ok, st'. split; auto. lia.
    - exists true, x. auto.
    - exists false, x. auto.
  Qed.

  (** A dry run against a run that writes *)
  Definition same (st st' : state) : Prop := st_work st' = None /\ st_file st' = source st /\ st_cursor st' = st_cursor st /\ st_considered st' = st_considered st /\ st_removed st' = st_removed st.
  Lemma same_run fuel : forall st st', same st st' -> match run load prove verify fuel true st, run load prove verify fuel false st' with
    | None, None => True | Some (ok, x), Some (ok', x') => ok = ok' /\ same x x' | _, _ => False end.
  Proof.
    induction fuel as [|fuel IH]; intros st st' S; simpl; auto. destruct st as [f w cu co re], st' as [f' w' cu' co' re']. unfold same, source in S. simpl in S. destruct S as (-> & -> & -> & -> & ->).
    unfold step, source. simpl. set (s := match w with Some x => x | None => f end).
    destruct (load s) as [l|]; [|split; auto; repeat split].
    destruct (first_candidate _) as [c|]; [|split; auto; repeat split].
    destruct (can_remove _ _ _ _ _ _) as [[]|]; [|apply IH; repeat split|split; auto; repeat split].
    destruct (remove_line_range _ _ _) as [t|]; [|split; auto; repeat split]. destruct (load t) as [lt|]; [|split; auto; repeat split].
    destruct (verify _ t); [apply IH; repeat split|split; auto; repeat split].
  Qed.
End Run.
