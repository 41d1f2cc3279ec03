(** Clause normalization never panics on well-scoped clauses, and renumbering forgets names. *)
From Coq Require Import List Arith NArith Bool Lia Permutation.
Import ListNotations.
From Verif Require Import Term LocalContext Semantics TermProofs SemFacts FlatTerm Kbo TermNorm TermNormProofs
  Literal Clause ClauseSem RenumberProofs ClauseProofs.

(** ** clause-form terms mention no new variables *)
Lemma args_vars t x : In x (args t) -> incl (vars x) (vars t).
Proof.
  induction t as [a|f IHf a IHa|k A IHA b IHb]; try (simpl; tauto).
  rewrite args_app, in_app_iff, vars_app. intros [H|[<-|[]]] v Hv; apply in_or_app; auto. left. apply IHf; auto.
Qed.
Lemma split_vars t s n l x : split_symbol_application t s n = Some l -> In x l -> incl (vars x) (vars t).
Proof. intros H. apply split_some in H. destruct H as (-> & _). apply args_vars. Qed.

Lemma vars_tnot x : vars (tnot x) = vars x. Proof. reflexivity. Qed.
Lemma vars_tand x y : vars (tand x y) = vars x ++ vars y. Proof. unfold tand. rewrite !vars_app. reflexivity. Qed.
Lemma vars_tor x y : vars (tor x y) = vars x ++ vars y. Proof. unfold tor. rewrite !vars_app. reflexivity. Qed.

Lemma eq_norm_vars t : incl (vars (unwrap_or (normalize_fully_applied_eq t) t)) (vars t).
Proof.
  unfold normalize_fully_applied_eq.
  destruct (split_symbol_application t SEq 3) as [[|T [|x [|y [|? ?]]]]|] eqn:E; simpl; try apply incl_refl.
  destruct (eq_ordered x y); simpl; [apply incl_refl|].
  unfold teq. rewrite !vars_app. simpl. 
  repeat apply incl_app; try (eapply split_vars; [exact E|simpl; auto]).
Qed.

Lemma clause_term_pol_vars n : forall t pos t', clause_term_pol n t pos = Some t' -> incl (vars t') (vars t).
Proof.
  induction n as [|n IH]; intros t pos t' H; cbn [clause_term_pol] in H; [discriminate|].
  destruct (split_symbol_application t SNot 1) as [[|x [|? ?]]|] eqn:S1;
    try (apply split_some in S1; destruct S1 as (_ & S1 & _); discriminate).
  { apply IH in H. eapply incl_tran; [exact H|]. eapply split_vars; [exact S1|simpl; auto]. }
  destruct (split_symbol_application t SAnd 2) as [[|x [|y [|? ?]]]|] eqn:S2;
    try (apply split_some in S2; destruct S2 as (_ & S2 & _); discriminate).
  { unfold obind in H. destruct (clause_term_pol n x pos) as [x'|] eqn:E1; [|discriminate].
    destruct (clause_term_pol n y pos) as [y'|] eqn:E2; [|discriminate]. injection H as <-.
    assert (incl (vars x' ++ vars y') (vars t)).
    { apply incl_app; eapply incl_tran; try (eapply IH; eassumption); eapply split_vars; try exact S2; simpl; auto. }
    destruct pos; rewrite ?vars_tand, ?vars_tor; auto. }
  destruct (split_symbol_application t SOr 2) as [[|x [|y [|? ?]]]|] eqn:S3;
    try (apply split_some in S3; destruct S3 as (_ & S3 & _); discriminate).
  { unfold obind in H. destruct (clause_term_pol n x pos) as [x'|] eqn:E1; [|discriminate].
    destruct (clause_term_pol n y pos) as [y'|] eqn:E2; [|discriminate]. injection H as <-.
    assert (incl (vars x' ++ vars y') (vars t)).
    { apply incl_app; eapply incl_tran; try (eapply IH; eassumption); eapply split_vars; try exact S3; simpl; auto. }
    destruct pos; rewrite ?vars_tand, ?vars_tor; auto. }
  clear S1 S2 S3. unfold obind in H. destruct t as [a|f a|k A b].
  - injection H as <-. destruct pos; [apply incl_refl|rewrite vars_tnot; apply incl_refl].
  - destruct (clause_term_pol n f true) as [f'|] eqn:E1; [|discriminate].
    destruct (clause_term_pol n a true) as [a'|] eqn:E2; [|discriminate]. injection H as <-.
    assert (incl (vars (unwrap_or (normalize_fully_applied_eq (TApp f' a')) (TApp f' a'))) (vars (TApp f a))).
    { eapply incl_tran; [apply eq_norm_vars|]. rewrite !vars_app. apply incl_app_app; eapply IH; eauto. }
    destruct pos; [auto|rewrite vars_tnot; auto].
  - destruct k;
    (match type of H with context [clause_term_pol n A ?p] => destruct (clause_term_pol n A p) as [A'|] eqn:E1; [|discriminate] end;
     match type of H with context [clause_term_pol n b ?p] => destruct (clause_term_pol n b p) as [b'|] eqn:E2; [|discriminate] end;
     injection H as <-;
     apply IH in E1; apply IH in E2;
     destruct pos; rewrite ?vars_tnot, !vars_bind; apply incl_app_app; auto).
Qed.

Lemma clause_polarity_vars t pos : incl (vars (normalize_clause_term_with_polarity t pos)) (vars t).
Proof.
  unfold normalize_clause_term_with_polarity.
  destruct (clause_term_pol (term_depth t) t pos) eqn:E; simpl; [|apply incl_refl].
  eapply clause_term_pol_vars; eauto.
Qed.
Lemma signed_vars n : forall t pos t' pos', signed_clause_term n t pos = Some (t', pos') -> incl (vars t') (vars t).
Proof.
  induction n as [|n IH]; intros t pos t' pos' H; cbn [signed_clause_term] in H; [discriminate|].
  destruct (split_symbol_application t SNot 1) as [[|x [|? ?]]|] eqn:S1;
    try (apply split_some in S1; destruct S1 as (_ & S1 & _); discriminate).
  { apply IH in H. eapply incl_tran; [exact H|]. eapply split_vars; [exact S1|simpl; auto]. }
  destruct (split_symbol_application t SOr 2) as [[|x [|y [|? ?]]]|] eqn:S3;
    try (apply split_some in S3; destruct S3 as (_ & S3 & _); discriminate).
  { injection H as <- _. rewrite vars_tand. apply incl_app;
      (eapply incl_tran; [apply clause_polarity_vars|]); eapply split_vars; try exact S3; simpl; auto. }
  injection H as <- _. apply clause_polarity_vars.
Qed.
Lemma normalize_signed_vars t pos : incl (vars (fst (normalize_signed_clause_term t pos))) (vars t).
Proof.
  unfold normalize_signed_clause_term.
  destruct (signed_clause_term (term_depth t) t pos) as [[t' p']|] eqn:E; simpl; [|apply incl_refl].
  eapply signed_vars; eauto.
Qed.

Lemma lit_new_vars pos a b : incl (lit_vars (lit_new pos a b)) (vars a ++ vars b).
Proof.
  unfold lit_new, lit_new_with_flip, lit_vars. destruct (needs_to_flip a b); simpl; [|apply incl_refl].
  intros v Hv. apply in_app_or in Hv. apply in_or_app. tauto.
Qed.
Lemma normalize_literal_vars l : incl (lit_vars (normalize_literal l)) (lit_vars l).
Proof.
  unfold normalize_literal, lit_vars at 2.
  destruct (is_true (normalize_clause_term (right l))).
  - pose proof (normalize_signed_vars (left l) (positive l)) as Hs.
    destruct (normalize_signed_clause_term (left l) (positive l)) as [a pos]. simpl in Hs.
    assert (K : incl (lit_vars (from_signed_term a pos)) (vars (left l) ++ vars (right l))).
    { unfold from_signed_term. eapply incl_tran; [apply lit_new_vars|]. apply incl_app; [apply incl_appl; auto|].
      intros v []. }
    destruct (clause_split a SEq 3) as [[|T [|x [|y [|? ?]]]]|] eqn:E; auto.
    eapply incl_tran; [apply lit_new_vars|]. apply incl_appl.
    apply clause_split_some in E. destruct E as [-> _]. simpl in Hs. rewrite !vars_app in Hs.
    eapply incl_tran; [|exact Hs]. intros v Hv. apply in_app_or in Hv. rewrite !in_app_iff. tauto.
  - eapply incl_tran; [apply lit_new_vars|]. apply incl_app_app; apply clause_polarity_vars.
Qed.
Lemma normalize_literals_vars ls l v : In l (normalize_literals ls) -> In v (lit_vars l) ->
  exists l0, In l0 ls /\ In v (lit_vars l0).
Proof.
  unfold normalize_literals. rewrite dedup_in. unfold sort_literals. rewrite sort_in, filter_In, in_map_iff.
  intros ((x & <- & Hx) & _) Hv. exists x. split; auto. apply normalize_literal_vars; auto.
Qed.

(** ** well-scoped clauses *)
Definition typed (c : lctx) (v : nat) : Prop := exists T, get_var_type c v = Some T.
Record scoped (c : clause) : Prop := {
  sc_lits : forall l v, In l (literals c) -> In v (lit_vars l) -> typed (context c) v;
  sc_types : forall v d, In d (deps (context c) v) -> typed (context c) d
}.

Lemma reach_typed c (S : nat -> Prop) : (forall v, S v -> typed c v) -> (forall v d, In d (deps c v) -> typed c d) ->
  forall v, reach c S v -> typed c v.
Proof. intros H1 H2 v R. induction R; eauto. Qed.

Lemma renumber_literals_total c ls : acyclic c -> forall ids, exists r, renumber_literals c ids ls = Some r.
Proof.
  intros Hc. induction ls as [|l ls IH]; intros ids; simpl; eauto. unfold lit_normalize_var_ids.
  destruct (normalize_var_ids_total c (left l) Hc ids) as [[a i1] ->].
  destruct (normalize_var_ids_total c (right l) Hc i1) as [[b i2] ->].
  destruct (lit_new_with_flip (positive l) a b) as [l' f].
  destruct (IH i2) as [[r' i3] ->]. eauto.
Qed.

Lemma deps_in_ids c ids v : deps_first c ids -> In v ids -> forall d, In d (deps c v) -> In d ids.
Proof.
  intros H Hv d Hd. apply In_nth_error in Hv. destruct Hv as [p Hp].
  destruct (H p v Hp d Hd) as (q & _ & Hq). eapply nth_error_In; eauto.
Qed.

Lemma ordered_deps c : validate_variable_ordering c = true -> forall v d, In d (deps c v) -> d < v.
Proof.
  intros H v d Hd. unfold deps in Hd. destruct (get_var_type c v) as [T|] eqn:E; [|destruct Hd].
  unfold get_var_type in E. destruct (nth_error c v) as [[U|]|] eqn:En; try discriminate. injection E as ->.
  assert (G : forall l i, ordering_from i l = true -> forall p T, nth_error l p = Some (Some T) -> least_unused T <= i + p).
  { clear. induction l as [|[U|] l IH]; simpl; intros i H [|p] T E; try discriminate.
    - injection E as ->. apply andb_true_iff in H. destruct H as [H _]. apply Nat.leb_le in H. lia.
    - apply andb_true_iff in H. destruct H as [_ H]. specialize (IH _ H _ _ E). lia.
    - specialize (IH _ H _ _ E). lia. }
  pose proof (G c 0 H v T En) as L. unfold least_unused in L.
  assert (K : forall l x, In x l -> S x <= list_max (map S l)).
  { clear. induction l as [|y l IH]; intros x; [intros []|]. intros Hx.
    change (list_max (map S (y :: l))) with (Nat.max (S y) (list_max (map S l))).
    destruct Hx as [<-|Hx]; [lia|]. specialize (IH x Hx). lia. }
  specialize (K _ _ Hd). lia.
Qed.
Lemma ordered_acyclic c : validate_variable_ordering c = true -> acyclic c.
Proof. intros H. exists (fun v => v). apply ordered_deps; auto. Qed.
Lemma ordered_pinned c pinned : validate_variable_ordering c = true -> deps_first c (seq 0 pinned).
Proof.
  intros H p v Hp d Hd.
  assert (L : p < length (seq 0 pinned)) by (apply nth_error_Some; congruence). rewrite seq_length in L.
  assert (v = p). { apply (nth_error_nth _ _ 0) in Hp. rewrite seq_nth in Hp by auto. lia. } subst v.
  exists d. apply (ordered_deps c H) in Hd. split; auto.
  rewrite (nth_error_nth' _ 0) by (rewrite seq_length; lia). rewrite seq_nth by lia. reflexivity.
Qed.

Lemma pass_total pinned c : acyclic (context c) -> deps_first (context c) (seq 0 pinned) ->
  (forall v, v < pinned -> typed (context c) v) -> scoped c ->
  exists c' ids, normalize_var_ids_with_pinned pinned c = Some (c', ids) /\
    validate_variable_ordering (context c') = true /\ scoped c' /\
    (forall v, v < pinned -> typed (context c') v) /\ (forall v, v < length (context c') -> typed (context c') v) /\
    (exists ext, ids = seq 0 pinned ++ ext /\
      forall x, In x ext -> reach (context c) (fun v => exists l, In l (literals c) /\ In v (lit_vars l)) x).
Proof.
  intros Ha Hd Hp [Hl Ht]. unfold normalize_var_ids_with_pinned.
  destruct (renumber_literals_total (context c) (literals c) Ha (seq 0 pinned)) as [[lits ids] E]. rewrite E.
  pose proof E as E'. apply renumber_literals_spec in E'. destruct E' as [((ext & Ee & R) & N & Dd) F].
  specialize (N (seq_NoDup pinned 0)). specialize (Dd Hd).
  assert (Hty : forall v, In v ids -> typed (context c) v).
  { intros v Hv. rewrite Ee in Hv. apply in_app_or in Hv. destruct Hv as [Hv|Hv].
    - apply in_seq in Hv. apply Hp. lia.
    - eapply reach_typed; [| |apply R, Hv]; auto. intros w (l & ? & ?). eauto. }
  destruct (remap_total (context c) ids) as [c' Er].
  { intros v Hv. destruct (Hty v Hv) as [T HT]. exists T. split; auto.
    intros d Hdd. apply (deps_in_ids _ _ v Dd Hv). unfold deps. rewrite HT. exact Hdd. }
  rewrite Er. simpl. exists (Clause lits c'), ids. destruct (remap_get _ _ _ Er) as [L G].
  assert (Hall : forall v, v < length c' -> typed c' v).
  { intros v Hv. rewrite L in Hv. apply nth_error_Some in Hv. destruct (nth_error ids v) as [w|] eqn:Ew; [|congruence].
    destruct (G v w Ew) as (T & T' & _ & _ & E3). exists T'; auto. }
  assert (Hord : validate_variable_ordering c' = true) by (eapply remap_ordered; eauto).
  cbn [context literals]. repeat split; auto; cbn [context literals].
  - intros l' v Hl' Hv.
    assert (exists l, In l (literals c) /\ renumbered ids l l') as (l & Hli & a & b & Ra & Rb & ->).
    { clear - F Hl'. induction F; simpl in *; [tauto|]. destruct Hl' as [<-|H']; [eauto|].
      destruct (IHF H') as (z & ? & ?). eauto. }
    apply lit_new_vars in Hv. apply in_app_or in Hv.
    destruct Hv as [Hv|Hv]; [apply (renumber_vars _ _ _ Ra) in Hv|apply (renumber_vars _ _ _ Rb) in Hv];
      destruct Hv as (w & Hw & _); apply Hall; rewrite L; apply nth_error_Some; congruence.
  - intros v d Hdd. apply Hall. pose proof (typed_lt _ _ _ Hdd). pose proof (ordered_deps c' Hord _ _ Hdd). lia.
  - intros v Hv. apply Hall. rewrite L, Ee, app_length, seq_length. lia.
  - exists ext. auto.
Qed.

Lemma normalize_total pinned c : acyclic (context c) -> deps_first (context c) (seq 0 pinned) ->
  (forall v, v < pinned -> typed (context c) v) -> scoped c ->
  exists c', normalize_with_pinned pinned c = Some c' /\ validate_variable_ordering (context c') = true /\ scoped c'.
Proof.
  intros Ha Hd Hp Hs. unfold normalize_with_pinned.
  destruct (pass_total pinned (Clause (normalize_literals (literals c)) (context c)) Ha Hd Hp) as (c1 & ids1 & E1 & O1 & S1 & P1 & _).
  { destruct Hs as [Hl Ht]. constructor; cbn [literals context]; auto.
    intros l v Hi Hv. destruct (normalize_literals_vars _ _ _ Hi Hv) as (l0 & ? & ?). eauto. }
  rewrite E1.
  destruct (pass_total pinned (Clause (normalize_literals (literals c1)) (context c1)) (ordered_acyclic _ O1)
    (ordered_pinned _ pinned O1) P1) as (c2 & ids2 & E2 & O2 & S2 & P2 & _).
  { destruct S1 as [Hl Ht]. constructor; cbn [literals context]; auto.
    intros l v Hi Hv. destruct (normalize_literals_vars _ _ _ Hi Hv) as (l0 & ? & ?). eauto. }
  rewrite E2. eexists. split; [reflexivity|]. cbn [context]. split; auto.
  destruct S2 as [Hl Ht]. constructor; cbn [literals context]; auto.
  intros l v Hi Hv. rewrite dedup_in in Hi. unfold sort_literals in Hi. rewrite sort_in in Hi. eauto.
Qed.

(** ** renaming *)
Fixpoint rename (f : nat -> nat) (t : term) : term :=
  match t with
  | TAtom (FreeVar i) => TVar (f i)
  | TAtom _ => t
  | TApp g a => TApp (rename f g) (rename f a)
  | TBind k A b => TBind k (rename f A) (rename f b)
  end.

Section Renaming.
Context (f : nat -> nat) (f_inj : forall i j, f i = f j -> i = j) (c1 c2 : lctx)
  (Hctx : forall v, get_var_type c2 (f v) = option_map (rename f) (get_var_type c1 v)).

Lemma rename_vars t : vars (rename f t) = map f (vars t).
Proof.
  induction t as [[i|i|s]|g IHg a IHa|k A IHA b IHb]; simpl; auto.
  - rewrite !vars_app, map_app, IHg, IHa. reflexivity.
  - rewrite !vars_bind, map_app, IHA, IHb. reflexivity.
Qed.
Lemma rename_deps v : deps c2 (f v) = map f (deps c1 v).
Proof. unfold deps. rewrite Hctx. destruct (get_var_type c1 v); simpl; auto. apply rename_vars. Qed.
Lemma rename_mem v l : existsb (Nat.eqb (f v)) (map f l) = existsb (Nat.eqb v) l.
Proof.
  induction l as [|x l IH]; simpl; auto. rewrite IH. f_equal.
  destruct (Nat.eqb_spec (f v) (f x)), (Nat.eqb_spec v x); auto; try congruence. exfalso; auto.
Qed.
Lemma rename_position v l : position (f v) (map f l) = position v l.
Proof.
  induction l as [|x l IH]; simpl; auto. rewrite IH.
  destruct (Nat.eqb_spec (f x) (f v)), (Nat.eqb_spec x v); auto; try congruence. exfalso; auto.
Qed.

Lemma rename_add_var n : forall prog ids v,
  add_var n c2 (map f prog) (map f ids) (f v) = option_map (map f) (add_var n c1 prog ids v).
Proof.
  induction n as [|n IH]; intros prog ids v; cbn [add_var]; auto.
  rewrite !rename_mem. destruct (existsb (Nat.eqb v) ids); auto.
  destruct (existsb (Nat.eqb v) prog); auto.
  fold (deps c2 (f v)) (deps c1 v). rewrite rename_deps.
  fold (add_fold n c2 (f v :: map f prog)) (add_fold n c1 (v :: prog)).
  assert (G : forall l o, add_fold n c2 (f v :: map f prog) (map f l) (option_map (map f) o) =
    option_map (map f) (add_fold n c1 (v :: prog) l o)).
  { induction l as [|d l IHl]; intros o; auto. cbn [map add_fold fold_left]. destruct o as [ids0|]; simpl option_map.
    - pose proof (IH (v :: prog) ids0 d) as H. cbn [map] in H. cbv iota. rewrite H. apply IHl.
    - apply (IHl None). }
  specialize (G (deps c1 v) (Some ids)). simpl option_map in G. rewrite G.
  destruct (add_fold n c1 (v :: prog) (deps c1 v) (Some ids)); simpl; auto. rewrite map_app. reflexivity.
Qed.
End Renaming.

Lemma add_var_fuel c n : forall m prog ids v r, n <= m -> add_var n c prog ids v = Some r -> add_var m c prog ids v = Some r.
Proof.
  induction n as [|n IH]; intros m prog ids v r Hm; cbn [add_var]; [discriminate|].
  destruct m as [|m]; [lia|]. cbn [add_var].
  destruct (existsb (Nat.eqb v) ids); auto. destruct (existsb (Nat.eqb v) prog); auto.
  fold (deps c v). fold (add_fold n c (v :: prog)) (add_fold m c (v :: prog)).
  assert (G : forall l o r, add_fold n c (v :: prog) l o = Some r -> add_fold m c (v :: prog) l o = Some r).
  { induction l as [|d l IHl]; intros o r0; auto. cbn [add_fold fold_left]. destruct o as [ids0|]; auto.
    destruct (add_var n c (v :: prog) ids0 d) as [i|] eqn:E.
    - rewrite (IH m _ _ _ _ ltac:(lia) E). apply IHl.
    - fold (add_fold n c (v :: prog)). rewrite add_fold_none. discriminate. }
  destruct (add_fold n c (v :: prog) (deps c v) (Some ids)) as [r0|] eqn:E; [|discriminate].
  rewrite (G _ _ _ E). auto.
Qed.

Section Renaming2.
Context (f : nat -> nat) (f_inj : forall i j, f i = f j -> i = j) (c1 c2 : lctx)
  (Hctx : forall v, get_var_type c2 (f v) = option_map (rename f) (get_var_type c1 v))
  (A1 : acyclic c1) (A2 : acyclic c2).

Lemma rename_add ids v :
  add_var (add_fuel c2) c2 [] (map f ids) (f v) = option_map (map f) (add_var (add_fuel c1) c1 [] ids v).
Proof.
  assert (T1 : exists r, add_var (add_fuel c1) c1 [] ids v = Some r).
  { apply (add_var_total c1 A1); [constructor|intros x []|intros rk _ x []|unfold add_fuel; simpl; lia]. }
  assert (T2 : exists r, add_var (add_fuel c2) c2 [] (map f ids) (f v) = Some r).
  { apply (add_var_total c2 A2); [constructor|intros x []|intros rk _ x []|unfold add_fuel; simpl; lia]. }
  destruct T1 as [r1 E1], T2 as [r2 E2]. rewrite E1, E2. simpl.
  pose proof (rename_add_var f f_inj c1 c2 Hctx (Nat.max (add_fuel c1) (add_fuel c2)) [] ids v) as H.
  simpl map in H. rewrite (add_var_fuel c1 _ _ _ _ _ _ (Nat.le_max_l _ _) E1) in H.
  rewrite (add_var_fuel c2 _ _ _ _ _ _ (Nat.le_max_r _ _) E2) in H. exact H.
Qed.

Lemma rename_normalize t : forall ids,
  normalize_var_ids c2 (map f ids) (rename f t) =
  option_map (fun r => (fst r, map f (snd r))) (normalize_var_ids c1 ids t).
Proof.
  induction t as [[i|i|s]|g IHg a IHa|k A IHA b IHb]; intros ids; cbn [rename normalize_var_ids]; auto.
  - rewrite rename_add. destruct (add_var (add_fuel c1) c1 [] ids i) as [r|]; simpl; auto.
    rewrite rename_position by auto. destruct (position i r); reflexivity.
  - rewrite IHg. destruct (normalize_var_ids c1 ids g) as [[g' i1]|]; simpl; auto.
    rewrite IHa. destruct (normalize_var_ids c1 i1 a) as [[a' i2]|]; simpl; auto.
  - rewrite IHA. destruct (normalize_var_ids c1 ids A) as [[g' i1]|]; simpl; auto.
    rewrite IHb. destruct (normalize_var_ids c1 i1 b) as [[a' i2]|]; simpl; auto.
Qed.

Definition rename_lit (l : literal) : literal := Lit (positive l) (rename f (left l)) (rename f (right l)).

Lemma rename_compact ls : forall ids,
  compact_literals c2 (map f ids) (map rename_lit ls) =
  option_map (fun r => (fst r, map f (snd r))) (compact_literals c1 ids ls).
Proof.
  induction ls as [|l ls IH]; intros ids; cbn [map compact_literals]; auto.
  cbn [rename_lit left right positive].
  rewrite rename_normalize. destruct (normalize_var_ids c1 ids (left l)) as [[a i1]|]; simpl; auto.
  rewrite rename_normalize. destruct (normalize_var_ids c1 i1 (right l)) as [[b i2]|]; simpl; auto.
  rewrite IH. destruct (compact_literals c1 i2 ls) as [[r i3]|]; simpl; auto.
Qed.

Lemma rename_renumber ids t : renumber_variables (map f ids) (rename f t) = renumber_variables ids t.
Proof.
  induction t as [[i|i|s]|g IHg a IHa|k A IHA b IHb]; cbn [rename renumber_variables]; auto.
  - rewrite rename_position by auto. reflexivity.
  - rewrite IHg, IHa. reflexivity.
  - rewrite IHA, IHb. reflexivity.
Qed.
Lemma rename_remap ids : remap c2 (map f ids) = remap c1 ids.
Proof.
  unfold remap. assert (G : forall all todo, remap_from c2 (map f all) (map f todo) = remap_from c1 all todo).
  { intros all. induction todo as [|v r IH]; cbn [map remap_from]; auto. rewrite Hctx.
    destruct (get_var_type c1 v) as [T|]; simpl; auto. rewrite rename_renumber, IH. reflexivity. }
  apply G.
Qed.
End Renaming2.

Lemma rename_compact_clause f c1 c2 ls : (forall i j, f i = f j -> i = j) ->
  (forall v, get_var_type c2 (f v) = option_map (rename f) (get_var_type c1 v)) -> acyclic c1 -> acyclic c2 ->
  compact_var_ids (Clause (map (rename_lit f) ls) c2) = compact_var_ids (Clause ls c1).
Proof.
  intros Hf Hc A1 A2. unfold compact_var_ids. cbn [context literals].
  pose proof (rename_compact f Hf c1 c2 Hc A1 A2 ls []) as H. simpl map in H. rewrite H.
  destruct (compact_literals c1 [] ls) as [[r ids]|]; simpl; auto.
  rewrite (rename_remap f Hf c1 c2 Hc). reflexivity.
Qed.

Lemma compact_spec c ls : forall ids ls' ids', compact_literals c ids ls = Some (ls', ids') ->
  grows c (fun v => exists l, In l ls /\ In v (lit_vars l)) ids ids' /\
  Forall2 (fun l l' => positive l' = positive l /\ renumber_variables ids' (left l) = Some (left l') /\
                       renumber_variables ids' (right l) = Some (right l')) ls ls'.
Proof.
  induction ls as [|l ls IH]; intros ids ls' ids'; simpl.
  - intros H; injection H as <- <-. split; [apply grows_refl|constructor].
  - destruct (normalize_var_ids c ids (left l)) as [[a ids1]|] eqn:E1; [|discriminate].
    destruct (normalize_var_ids c ids1 (right l)) as [[b ids2]|] eqn:E2; [|discriminate].
    destruct (compact_literals c ids2 ls) as [[r' ids3]|] eqn:E3; [|discriminate].
    intros H; injection H as <- <-.
    apply normalize_var_ids_spec in E1, E2. apply IH in E3.
    destruct E1 as [G1 R1], E2 as [G2 R2], E3 as [G3 R3]. split.
    + eapply grows_trans; [| |eapply grows_trans; [| |exact G1|exact G2]|exact G3];
        [intros v Hv; exact Hv| | |]; cbv beta.
      * intros v (l0 & ? & ?). exists l0. simpl; auto.
      * intros v Hv. exists l. split; [left; auto|]. unfold lit_vars. apply in_or_app; auto.
      * intros v Hv. exists l. split; [left; auto|]. unfold lit_vars. apply in_or_app; auto.
    + constructor; auto. simpl.
      destruct G2 as ((e2 & -> & _) & _), G3 as ((e3 & -> & _) & _).
      rewrite (renumber_app_l _ e3 _ _ R2). rewrite (renumber_app_l _ e3 _ _ (renumber_app_l _ e2 _ _ R1)).
      auto.
Qed.

(** ** completing assignments *)
(** In variable order, every type has an element as soon as the earlier variables have values. *)
Definition inhabited_in_order (M : Model) (c : lctx) : Prop :=
  forall rho i T, (forall j U, j < i -> get_var_type c j = Some U -> mem M (rho j) (ev M rho U)) ->
  get_var_type c i = Some T -> exists d, mem M d (ev M rho T).

Lemma ev_vars M rho1 rho2 t : (forall v, In v (vars t) -> rho1 v = rho2 v) -> ev M rho1 t = ev M rho2 t.
Proof. intros H. apply eval_ext; auto. Qed.

Lemma inhabited_completable M c (S : list nat) : validate_variable_ordering c = true -> inhabited_in_order M c ->
  (forall v d, In v S -> In d (deps c v) -> In d S) -> completable M c (fun v => In v S).
Proof.
  intros Ho Hi Hd rho H.
  assert (G : forall k, exists rho', (forall i, In i S -> rho' i = rho i) /\
    forall j U, j < k -> get_var_type c j = Some U -> mem M (rho' j) (ev M rho' U)).
  { induction k as [|k (rho' & A & B)]; [exists rho; split; [auto|lia]|].
    destruct (get_var_type c k) as [T|] eqn:ET.
    - destruct (in_dec Nat.eq_dec k S) as [Hk|Hk].
      + exists rho'. split; auto. intros j U Hj HU. destruct (Nat.eq_dec j k) as [->|Hn]; [|apply B; auto; lia].
        rewrite (A k Hk). rewrite (ev_vars M rho' rho); [apply H; auto|].
        intros v Hv. apply A. apply (Hd k); auto. unfold deps. rewrite HU. exact Hv.
      + destruct (Hi rho' k T B ET) as [d Hdd].
        exists (fun i => if Nat.eqb i k then d else rho' i). split.
        * intros i HiS. destruct (Nat.eqb_spec i k); [congruence|auto].
        * intros j U Hj HU.
          assert (E : ev M (fun i => if Nat.eqb i k then d else rho' i) U = ev M rho' U).
          { apply ev_vars. intros v Hv. destruct (Nat.eqb_spec v k); auto.
            assert (v < j); [|lia]. apply (ordered_deps c Ho). unfold deps. rewrite HU. exact Hv. }
          rewrite E. destruct (Nat.eqb_spec j k) as [->|Hn]; [congruence|]. apply B; auto. lia.
    - exists rho'. split; auto. intros j U Hj HU. apply B; auto.
      assert (j <> k) by congruence. lia. }
  destruct (G (length c)) as (rho' & A & B). exists rho'. split; auto.
  intros i T HT. apply B; auto. unfold get_var_type in HT. apply nth_error_Some. destruct (nth_error c i); congruence.
Qed.

Lemma faithful_closed c c' ids : faithful c c' ids -> forall v d, In v ids -> In d (deps (context c) v) -> In d ids.
Proof.
  intros F v d Hv Hd. destruct (f_typed _ _ _ F v Hv) as (T & HT & K). apply K.
  unfold deps in Hd. rewrite HT in Hd. exact Hd.
Qed.
