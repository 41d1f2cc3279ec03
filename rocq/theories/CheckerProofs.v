(** Invariants of the checker (Checker.v) for clauses that satisfy a predicate closed under its rules. *)
From Coq Require Import List Arith NArith Bool Lia Permutation.
Import ListNotations.
From Verif Require Import Term LocalContext Semantics TermProofs SemFacts TermNorm Literal Clause ClauseSem RenumberProofs ClauseProofs ClauseWf P_Clause
  Typing VariableMap Unifier Inference BoolReduction ClauseSet EqualityGraph EqualityGraphProofs P_EqualityGraph Checker.

Ltac dob H := match type of H with rbind ?x _ = _ => let E := fresh "E" in destruct x eqn:E; cbn [rbind] in H; try discriminate H end.

Lemma clause_eqb_true a b : clause_eqb a b = true <-> a = b.
Proof. unfold clause_eqb. destruct (clause_eq_dec a b); split; congruence. Qed.
Lemma clause_in_iff c l : clause_in c l = true <-> In c l.
Proof.
  unfold clause_in. rewrite existsb_exists. split.
  - intros (x & H & E). apply clause_eqb_true in E. subst; auto.
  - intros H. exists c. split; auto. apply clause_eqb_true; auto.
Qed.
Lemma key_in_iff k l : key_in k l = true <-> In k l.
Proof.
  unfold key_in. rewrite existsb_exists. split.
  - intros (x & H & E). destruct (key_eq_dec k x); [subst; auto|discriminate].
  - intros H. exists k. split; auto. destruct (key_eq_dec k k); congruence.
Qed.
Lemma unwrap_ok {A} (o : option A) a : unwrap o = Ok a -> o = Some a.
Proof. destruct o; simpl; congruence. Qed.
Lemma fueled_ok {A} (o : option A) a : fueled o = Ok a -> o = Some a.
Proof. destruct o; simpl; congruence. Qed.

Lemma ground_vars t : has_any_variable t = false -> vars t = [].
Proof.
  induction t as [[i|i|s]|f IHf a IHa|k A IHA b IHb]; simpl; try discriminate; try reflexivity; intros H;
    apply orb_false_iff in H; destruct H as [H1 H2]; rewrite ?vars_app, ?vars_bind; [rewrite IHf, IHa|rewrite IHA, IHb]; auto.
Qed.
Definition lit_ground (l : literal) : Prop := lit_has_any_variable l = false.
Lemma ground_holds M rho rho' l : lit_ground l -> lit_holds M rho l -> lit_holds M rho' l.
Proof.
  unfold lit_ground, lit_has_any_variable. rewrite orb_false_iff. intros [H1 H2]. apply ground_vars in H1, H2.
  unfold lit_holds, ev. rewrite !(eval_ext _ (left l) rho rho' (nobs M) (nobs M)), !(eval_ext _ (right l) rho rho' (nobs M) (nobs M)); auto;
    rewrite ?H1, ?H2; simpl; tauto.
Qed.

(** What the equality graph needs to know about the literals it is shown: ground ones are well-typed. *)
Definition ground_wt (M : Model) (ls : list literal) : Prop :=
  forall l, In l ls -> lit_ground l -> forall rho, lit_wt M rho l.
(** Under every assignment that respects the types of the variables of [T] (and of their types, ...) in
    the context [c], the type [T] has an element. *)
Definition inhabited_at (M : Model) (c : lctx) (T : term) : Prop :=
  forall rho, (forall v U, relevant c [Lit true T T] v -> get_var_type c v = Some U -> mem M (rho v) (ev M rho U)) ->
  exists d, mem M d (ev M rho T).
Definition key_inhabited (M : Model) (k : term * lctx) : Prop :=
  forall rho, valid_env M (snd k) rho -> exists d, mem M d (ev M rho (fst k)).

Lemma reach_relevant c T v : reach c (fun v => In v (vars T)) v -> relevant c [Lit true T T] v.
Proof.
  induction 1 as [v H|v d R IH Hd].
  - eapply rel_left; [left; reflexivity|exact H].
  - unfold deps in Hd. destruct (get_var_type c v) eqn:E; [|destruct Hd]. eapply rel_type; eauto.
Qed.
Lemma key_type M T c k : inhabited_type_key T c = Some k -> key_inhabited M k -> inhabited_at M c T.
Proof.
  unfold inhabited_type_key. destruct (normalize_var_ids c [] T) as [[T' ids]|] eqn:E; [|discriminate].
  destruct (LocalContext.remap c ids) as [c'|] eqn:R; [|discriminate]. intros H; injection H as <-. intros H rho Hr.
  destruct (normalize_var_ids_spec _ _ _ _ _ E) as [((ext & -> & Hx) & Hn & Hd) Rn]. simpl in *.
  pose proof (follows_nth M ext rho) as F.
  destruct (H (fun p => rho (nth p ext 0))) as (d & Hm).
  - apply (valid_remap M _ _ _ _ _ R F). intros v U Hv HU. apply Hr; auto. apply reach_relevant. auto.
  - exists d. revert Hm. unfold ev. rewrite (eval_renumber M _ _ _ _ F _ _ Rn). auto.
Qed.

(** The variables removed by a normalization have types with elements. *)
Definition erased_ok (M : Model) (pc : lctx) (ids : list nat) : Prop :=
  forall v T, ~ In v ids -> get_var_type pc v = Some T -> inhabited_at M pc T.
(** [c'] is the checker's normal form of a trace, where only variables of types with elements disappear. *)
Definition checked_trace (M : Model) (n : nat) (t : clause * list nat * lctx) (c' : clause) : Prop :=
  erased_ok M (snd t) (snd (fst t)) /\
  exists c1 t1 t2, normalize_clause_subterms n (fst (fst t)) = Some c1 /\
    normalize_with_trace (literals c1) (context c1) = Some t1 /\ erased_ok M (context c1) (snd t1) /\
    normalize_with_trace (literals (fst t1)) (context (fst t1)) = Some t2 /\ erased_ok M (context (fst t1)) (snd t2) /\
    c' = fst t2.
Definition checked_result (M : Model) (n : nat) (ls : list literal) (c : lctx) (c' : clause) : Prop :=
  exists t, normalize_with_trace ls c = Some t /\ checked_trace M n (fst t, snd t, c) c'.

(** [ls'] is what remains of [ls] when some ground literals that are false are dropped *)
Inductive kept (M : Model) : list literal -> list literal -> Prop :=
| kept_nil : kept M [] []
| kept_keep l ls' ls : kept M ls' ls -> kept M (l :: ls') (l :: ls)
| kept_drop l ls' ls : lit_ground l -> (forall rho, ~ lit_holds M rho l) -> kept M ls' ls -> kept M ls' (l :: ls).
Lemma kept_incl M ls' ls : kept M ls' ls -> incl ls' ls.
Proof. induction 1; intros x Hx; simpl in *; [auto|destruct Hx|]; auto. Qed.
(** What is required of the clauses in the checker *)
Record stored_ok (M : Model) (c : clause) : Prop := {
  so_valid : valid M c;
  so_true : clause_has_any_variable c = false -> forall rho, cholds M rho (literals c);
  so_wt : ground_wt M (literals c)
}.

Section Invariant.
Context (K : kctx) (ts : tstore) (inhab : term -> lctx -> bool) (avail : clause -> bool) (path : egraph -> literal -> bool).
Context (ordk : nat -> list nat -> list nat) (ordc : nat -> list clauseid -> list clauseid) (orde : list clause -> list clause).
Context (ordk_perm : forall n l, Permutation (ordk n l) l) (ordc_perm : forall n l, Permutation (ordc n l) l).
Context (orde_incl : forall l, incl (orde l) l).
Context (M : Model) (P : clause -> Prop).

(** What insertion without inferences needs: the clauses hold, a type marked as inhabited is, and a
    type a clause says is empty is. *)
Record basic : Prop := {
  bs_ok : forall c, P c -> stored_ok M c;
  bs_mark : forall c k, P c -> inhabited_type_from_clause K c = Ok (Some k) -> key_inhabited M k;
  bs_neg : forall c k, P c -> negated_exists_true_type c = Ok (Some k) -> ~ key_inhabited M k
}.

(** ** the graph *)
Definition gok (g : egraph) : Prop := exists A Q, reached ordk ordc A Q g /\ forall rho, satisfies M rho A Q.

Lemma gok_new : gok eg_new.
Proof. exists [], []. split; [constructor|]. intros rho. split; [intros ? []|intros ? ? []]. Qed.
Lemma some_env : exists rho : nat -> D M, True.
Proof. exists (fun _ => dsym M STrue). auto. Qed.
Lemma gok_contra g : gok g -> eg_contra g = false.
Proof.
  intros (A & Q & R & S). destruct some_env as [rho _]. destruct (eg_contra g) eqn:E; auto.
  exfalso. exact (graph_contradiction_sound ordk ordc ordk_perm ordc_perm _ _ _ R E M rho (S rho)).
Qed.
Lemma satisfies_query rho A Q c : satisfies M rho A Q -> (forall l, In l c -> lit_wt M rho l) -> satisfies M rho A (c :: Q).
Proof.
  intros [S1 S2] W. split; auto. intros c' l Hc Hl. apply in_app_iff in Hc. destruct Hc as [Hc|[<-|Hc]]; auto;
    apply (S2 c'); auto; apply in_app_iff; auto.
Qed.
Lemma gok_evaluate n g l g' o : gok g -> evaluate_literal ordk ordc n g l = Ok (g', o) -> (lit_ground l -> forall rho, lit_wt M rho l) ->
  gok g' /\ forall b, o = Some b -> lit_ground l /\ forall rho, b = true <-> lit_holds M rho l.
Proof.
  intros (A & Q & R & S) H W. destruct (lit_has_any_variable l) eqn:V.
  - unfold evaluate_literal in H. unfold lit_has_any_variable in V. rewrite V in H. injection H as <- <-.
    split; [exists A, Q; auto|discriminate].
  - assert (S' : forall rho, satisfies M rho A ([l] :: Q)).
    { intros rho. apply satisfies_query; auto. intros l' [<-|[]]. apply W; auto. }
    split; [exists A, ([l] :: Q); split; auto; eapply r_evaluate; eauto|].
    intros b ->. split; auto. intros rho. exact (evaluate_literal_sound ordk ordc ordk_perm ordc_perm _ _ _ R _ _ _ _ H M rho (S' rho)).
Qed.
Lemma gok_some_true n : forall ls g g' b, gok g -> some_literal_true ordk ordc n g ls = Ok (g', b) -> ground_wt M ls ->
  gok g' /\ (b = true -> forall rho, cholds M rho ls).
Proof.
  induction ls as [|l ls IH]; intros g g' b G H W; cbn [some_literal_true] in H.
  - injection H as <- <-. split; auto. discriminate.
  - dob H. destruct a as [g1 v]. destruct (gok_evaluate _ _ _ _ _ G E ltac:(intros; apply W; simpl; auto)) as [G1 V1].
    destruct v as [[|]|].
    + injection H as <- <-. split; auto. intros _ rho. exists l. split; [simpl; auto|]. apply (proj2 (V1 _ eq_refl)); auto.
    + destruct (IH _ _ _ G1 H ltac:(intros x Hx; apply W; simpl; auto)) as [G2 V2]. split; auto.
      intros Hb rho. destruct (V2 Hb rho) as (x & Hx & Hh). exists x; simpl; auto.
    + destruct (IH _ _ _ G1 H ltac:(intros x Hx; apply W; simpl; auto)) as [G2 V2]. split; auto.
      intros Hb rho. destruct (V2 Hb rho) as (x & Hx & Hh). exists x; simpl; auto.
Qed.
Lemma existsb_false_in {A} (f : A -> bool) l x : existsb f l = false -> In x l -> f x = false.
Proof. intros H Hx. destruct (f x) eqn:E; auto. rewrite <- H. symmetry. apply existsb_exists. eauto. Qed.
Lemma gok_check n g ls g' b : gok g -> check_clause ordk ordc n g ls = Ok (g', b) -> ground_wt M ls ->
  gok g' /\ (b = true -> forall rho, cholds M rho ls).
Proof.
  intros G H W. destruct (existsb lit_has_any_variable ls) eqn:V.
  - unfold check_clause in H. rewrite (gok_contra _ G) in H. dob H. destruct a as [g1 b1].
    destruct (gok_some_true _ _ _ _ _ G E W) as [G1 V1]. destruct b1; [injection H as <- <-; auto|].
    unfold clause_exists in H. destruct ls as [|l ls]; [injection H as <- <-; split; auto; discriminate|].
    change (existsb (fun l => has_any_variable (left l) || has_any_variable (right l)) (l :: ls)) with (existsb lit_has_any_variable (l :: ls)) in H.
    rewrite V in H. injection H as <- <-. split; auto; discriminate.
  - destruct G as (A & Q & R & S).
    assert (S' : forall rho, satisfies M rho A (ls :: Q)).
    { intros rho. apply satisfies_query; auto. intros l Hl. apply W; auto. eapply existsb_false_in; eauto. }
    split; [exists A, (ls :: Q); split; auto; eapply r_check; eauto|].
    intros -> rho. exact (graph_check_clause_sound ordk ordc ordk_perm ordc_perm _ _ _ R _ _ _ H M rho (S' rho)).
Qed.
Lemma gok_insert n g ls g' : gok g -> insert_clause ordk ordc n g ls = Ok g' -> ground_wt M ls ->
  existsb lit_has_any_variable ls = false -> (forall rho, cholds M rho ls) -> gok g'.
Proof.
  intros (A & Q & R & S) H W V T. exists (ls :: A), Q. split; [eapply r_clause; eauto|].
  intros rho. destruct (S rho) as [S1 S2]. split.
  - intros c [<-|Hc]; auto.
  - intros c l [<-|Hc] Hl; [apply W; auto; eapply existsb_false_in; eauto|apply (S2 c); auto].
Qed.
Lemma gok_evaluate_all n : forall ls g g' x, gok g -> evaluate_all path ordk ordc n g ls = Ok (g', x) -> ground_wt M ls ->
  gok g' /\ match x with
            | None => forall rho, cholds M rho ls
            | Some (_, ls') => kept M ls' ls
            end.
Proof.
  induction ls as [|l ls IH]; intros g g' x G H W; cbn [evaluate_all] in H.
  - injection H as <- <-. split; [exact G|]. constructor.
  - unfold evaluate in H. dob H. dob E. destruct a0 as [g1 v]. injection E as <-.
    destruct (gok_evaluate _ _ _ _ _ G E0 ltac:(intros; apply W; simpl; auto)) as [G1 V1].
    assert (W' : ground_wt M ls) by (intros y Hy; apply W; simpl; auto).
    assert (T : forall o, match o with
                | Some true => Ok (g1, None)
                | _ => do (g, x) <- evaluate_all path ordk ordc n g1 ls;
                       Ok (g, option_map (fun '(b, ls) => match o with Some _ => (true, ls) | None => (b, l :: ls) end) x)
                end = Ok (g', x) -> (forall b, o = Some b -> lit_ground l /\ forall rho, b = true <-> lit_holds M rho l) ->
                gok g' /\ match x with
                  | None => forall rho, cholds M rho (l :: ls)
                  | Some (_, ls') => kept M ls' (l :: ls)
                  end).
    { intros o Ho V. destruct o as [[|]|].
      - injection Ho as <- <-. split; auto. intros rho. exists l. split; [simpl; auto|]. apply (proj2 (V _ eq_refl)); auto.
      - dob Ho. destruct a as [g2 y]. injection Ho as <- <-. destruct (IH _ _ _ G1 E W') as [G2 R2]. split; auto.
        destruct y as [[b ls']|]; simpl.
        + destruct (V _ eq_refl) as [V2 V3]. constructor; auto. intros rho Hh. apply V3 in Hh. discriminate.
        + intros rho. destruct (R2 rho) as (z & Hz & Hh). exists z; simpl; auto.
      - dob Ho. destruct a as [g2 y]. injection Ho as <- <-. destruct (IH _ _ _ G1 E W') as [G2 R2]. split; auto.
        destruct y as [[b ls']|]; simpl.
        + constructor; auto.
        + intros rho. destruct (R2 rho) as (z & Hz & Hh). exists z; simpl; auto. }
    apply (T _ H). intros b Hb. destruct v as [b'|]; [|discriminate]. destruct (path g1 l); [|discriminate]. auto.
Qed.

(** ** the checker *)
Record ok (s : checker) : Prop := {
  ok_graph : gok (ck_graph s);
  ok_exact : forall c, In c (ck_exact s) -> P c;
  ok_keys : forall k, In k (ck_inhab s) -> key_inhabited M k;
  ok_contra : ck_contra s = false
}.
Lemma ok_new : ok ck_new.
Proof. constructor; simpl; [apply gok_new|intros c []|intros k []|reflexivity]. Qed.
Lemma ok_no_contradiction s : ok s -> has_contradiction s = false.
Proof. intros H. unfold has_contradiction. rewrite (ok_contra _ H), (gok_contra _ (ok_graph _ H)). auto. Qed.
Lemma ok_with_graph s g : ok s -> gok g -> ok (with_graph s g).
Proof. intros [H1 H2 H3 H4] G. constructor; simpl; auto. Qed.
Lemma ok_with_past s c : ok s -> ok (with_past s c).
Proof. intros [H1 H2 H3 H4]. constructor; simpl; auto. Qed.
Lemma ok_with_eager s b : ok s -> ok (with_eager s b).
Proof. intros [H1 H2 H3 H4]. constructor; simpl; auto. Qed.
Lemma ok_with_key s k : ok s -> key_inhabited M k -> ok (with_key s k).
Proof. intros [H1 H2 H3 H4] Hk. constructor; simpl; auto. intros k' [<-|H]; auto. Qed.
Lemma ok_record s c gens : ok s -> P c -> ok (record_clause s c gens).
Proof.
  intros [H1 H2 H3 H4] Hc. constructor; simpl; auto. intros c' H. destruct (clause_in c (ck_exact s)); auto.
  apply in_app_iff in H. destruct H as [H|[<-|[]]]; auto.
Qed.

Section Basic.
Context (BS : basic).

Lemma possible c : P c -> clause_is_impossible c = false.
Proof.
  intros Hc. unfold clause_is_impossible. destruct (literals c) eqn:E; auto. exfalso.
  destruct some_env as [rho _]. pose proof (so_true _ _ (bs_ok BS c Hc)) as T. unfold clause_has_any_variable in T. rewrite E in T.
  destruct (T eq_refl rho) as (l & [] & _).
Qed.
Lemma ok_admit s c s' : ok s -> P c -> admit_clause s c = Some s' -> ok s'.
Proof.
  intros H Hc. unfold admit_clause.
  destruct (clause_has_any_variable c).
  - destruct (gens_get c (ck_gens s)); [destruct (Nat.eqb _ _)|]; intros E; try discriminate; injection E as <-; apply ok_record; auto.
  - destruct (clause_in c (ck_exact s)); intros E; [discriminate|]. injection E as <-. apply ok_record; auto.
Qed.
Lemma negated_for l k b : (forall c, In c l -> P c) -> key_inhabited M k -> has_negated_exists_true_for l k = Ok b -> b = false.
Proof.
  induction l as [|c l IH]; simpl; intros Hl Hk H; [congruence|]. dob H. destruct a as [k'|]; auto.
  destruct (key_eq_dec k' k) as [->|N]; [|apply IH; auto]. exfalso. exact (bs_neg BS c k (Hl c (or_introl eq_refl)) E Hk).
Qed.
Lemma ok_note s c s' b : ok s -> P c -> note_inhabited K s c = Ok (s', b) -> ok s'.
Proof.
  intros H Hc. unfold note_inhabited. intros E. dob E.
  assert (N : match a with Some k => if key_in k (ck_inhab s) then with_contra s else s | None => s end = s).
  { destruct a as [k|]; auto. destruct (key_in k (ck_inhab s)) eqn:Ek; auto. apply key_in_iff in Ek.
    exfalso. exact (bs_neg BS c k Hc E0 (ok_keys _ H _ Ek)). }
  rewrite N in E. dob E. destruct a0 as [k|]; [|injection E as <- <-; auto].
  destruct (key_in k (ck_inhab s)); [injection E as <- <-; auto|]. dob E. pose proof (bs_mark BS c k Hc E1) as Hk.
  assert (a0 = false) by (eapply negated_for; eauto; apply (ok_exact _ H)). subst a0. injection E as <- <-. apply ok_with_key; auto.
Qed.
Lemma ok_concrete n s c s' : ok s -> P c -> clause_has_any_variable c = false -> insert_concrete ordk ordc n s c = Ok s' -> ok s'.
Proof.
  intros [H1 H2 H3 H4] Hc V E. unfold insert_concrete in E. dob E. injection E as <-.
  constructor; simpl; auto. pose proof (bs_ok BS c Hc) as S. eapply gok_insert; [exact H1|exact E0|apply S|exact V|apply S; exact V].
Qed.

Lemma ok_shallow n s c s' : ok s -> P c -> insert_shallow K ordk ordc n s c = Ok s' -> ok s'.
Proof.
  intros H Hc. unfold insert_shallow. rewrite (possible _ Hc). destruct (admit_clause s c) as [s1|] eqn:E; [|intros X; injection X as <-; auto].
  pose proof (ok_admit _ _ _ H Hc E) as H1. intros X. dob X. destruct a as [s2 b]. pose proof (ok_note _ _ _ _ H1 Hc E0) as H2.
  destruct (clause_has_any_variable c) eqn:V; [injection X as <-; auto|]. eapply ok_concrete; eauto.
Qed.

(** ** checks *)
Lemma direct_sound n s c s' b : ok s -> ground_wt M (literals c) -> check_direct ordk ordc n s c = Ok (s', b) ->
  ok s' /\ (b = true -> valid M c).
Proof.
  intros H W E. unfold check_direct in E. rewrite (ok_no_contradiction _ H) in E. dob E. destruct a as [g b1].
  destruct (gok_check _ _ _ _ _ (ok_graph _ H) E0 W) as [G V]. injection E as <- <-. split; [apply ok_with_graph; auto|].
  rewrite orb_true_iff. intros [Hb|Hb]; [intros rho _; auto|]. apply clause_in_iff in Hb. simpl in Hb.
  apply (bs_ok BS), (ok_exact _ H), Hb.
Qed.

(** What a question about a clause needs: well-typed literals, also after dropping some. *)
Record query (c : clause) : Prop := {
  q_wt : clause_wt M c;
  q_ground : ground_wt M (literals c);
  q_sub : forall ls c', kept M ls (literals c) -> clause_new ls (context c) = Some c' -> ground_wt M (literals c')
}.
Lemma simplified_sound n s c s' b : ok s -> query c -> check_simplified path ordk ordc n s c = Ok (s', b) ->
  ok s' /\ (b = true -> valid M c).
Proof.
  intros H [Q1 Q2 Q3] E. unfold check_simplified in E. dob E. destruct a as [g x].
  destruct (gok_evaluate_all _ _ _ _ _ (ok_graph _ H) E0 Q2) as [G V]. pose proof (ok_with_graph _ _ H G) as H1.
  destruct x as [[[|] ls]|]; [|injection E as <- <-; split; [auto|discriminate]|injection E as <- <-; split; auto; intros _ rho _; apply V].
  pose proof (kept_incl _ _ _ V) as I. destruct ls as [|l ls]; [injection E as <- <-; split; [auto|discriminate]|].
  dob E. apply unwrap_ok in E1. destruct (direct_sound _ _ _ _ _ H1 (Q3 _ _ V E1) E) as [H2 V2]. split; auto. intros Hb rho He.
  assert (W : clause_wt M (Clause (l :: ls) (context c))) by (intros r Hr x Hx; apply Q1; auto).
  assert (N : normal_form_of (Clause (l :: ls) (context c)) a) by (left; exists 0; exact E1).
  destruct (normalization_reflects_validity _ _ N M W (V2 Hb) rho He) as (x & Hx & Hh). exists x. auto.
Qed.
Lemma for_trace_sound n s c0 c s' b : ok s -> checker_normal n c0 = Ok c -> query c -> check_for_trace path ordk ordc n s c0 = Ok (s', b) ->
  ok s' /\ (b = true -> valid M c).
Proof.
  intros H N Q E. unfold check_for_trace in E. rewrite N in E. cbn [rbind] in E.
  destruct (is_tautology c) eqn:T.
  { injection E as <- <-. split; auto. intros _ rho _. unfold checker_normal in N. dob N. apply unwrap_ok in N.
    exact (tautologies_hold _ _ _ N T M rho). }
  unfold or_check in E. dob E. destruct a as [s1 b1]. destruct (direct_sound _ _ _ _ _ H (q_ground _ Q) E0) as [H1 V1].
  destruct b1; [injection E as <- <-; auto|]. eapply simplified_sound; eauto.
Qed.

(** ** the rules *)
Context (inhab_sound : forall T c, inhab T c = true -> inhabited_at M c T).

Lemma eliminated_sound s pc ids : ok s -> eliminated_vars_inhabited inhab s pc ids = Ok true -> erased_ok M pc ids.
Proof.
  intros H E v T Hv HT. unfold eliminated_vars_inhabited in E.
  assert (L : In v (seq 0 (length pc))).
  { apply in_seq. split; [lia|]. apply nth_error_Some. unfold get_var_type in HT. destruct (nth_error pc v); simpl; congruence. }
  revert E L. induction (seq 0 (length pc)) as [|w l IH]; cbn [eliminated_from]; intros E L; [destruct L|].
  destruct L as [->|L].
  - rewrite (proj2 (existsb_notin v ids) Hv), HT in E. dob E. apply unwrap_ok in E0.
    destruct (key_in a (ck_inhab s)) eqn:Ek; simpl in E.
    + apply key_in_iff in Ek. eapply key_type; eauto. apply (ok_keys _ H); auto.
    + destruct (inhab T pc) eqn:Ei; [apply inhab_sound; auto|discriminate].
  - destruct (existsb (Nat.eqb w) ids); auto. destruct (get_var_type pc w); auto. dob E.
    destruct (key_in a (ck_inhab s) || inhab t pc); [auto|discriminate].
Qed.
Lemma trace_checked n s t c' : ok s -> normalize_checker_trace inhab n s t = Ok (Some c') -> checked_trace M n t c'.
Proof.
  intros H E. destruct t as [[c ids] pc]. unfold normalize_checker_trace in E. dob E. destruct a; simpl in E; [|discriminate].
  dob E. dob E. dob E. destruct a1; simpl in E; [|discriminate]. dob E. dob E. destruct a2; simpl in E; [|discriminate]. injection E as <-.
  apply fueled_ok in E1. apply unwrap_ok in E2, E4. split; [simpl; eapply eliminated_sound; eauto|].
  exists a, a0, a1. repeat (split; [solve [auto | eapply eliminated_sound; eauto]|]). auto.
Qed.
Lemma result_checked n s ls c c' : ok s -> canonical inhab n s ls c = Ok (Some c') -> checked_result M n ls c c'.
Proof. intros H E. unfold canonical in E. dob E. apply unwrap_ok in E0. exists a. split; auto. eapply trace_checked; eauto. Qed.

(** the inferences lead from clauses in [P] to clauses in [P] *)
Context (n : nat).
Record closed : Prop := {
  cl_simplify : forall c ls c', P c -> kept M ls (literals c) -> clause_new ls (context c) = Some c' -> P c';
  cl_resolution : forall c rs ls out c', P c -> find_equality_resolutions K ts n c = Some rs -> In (ls, out) (result_pairs rs) ->
    checked_result M n ls out c' -> is_tautology c' = false -> P c';
  cl_factoring : forall c rs ls out c', P c -> find_equality_factorings K ts n c = Some rs -> In (ls, out) (result_pairs rs) ->
    checked_result M n ls out c' -> is_tautology c' = false -> P c';
  cl_injectivity : forall c rs ls c', P c -> find_injectivities c = Some rs -> In ls rs ->
    checked_result M n ls (context c) c' -> is_tautology c' = false -> P c';
  cl_extensionality : forall c ls c', P c -> find_extensionality K c = Some (Some ls) -> clause_new ls (context c) = Some c' -> P c';
  cl_reduction : forall c l k i t c', P c -> find_boolean_reductions n K c = Some l -> In (k, i, t) l -> checked_trace M n t c' -> P c'
}.
Context (CL : closed).

Lemma reductions_closed s c cs : ok s -> P c -> checker_boolean_reductions K inhab n s c = Ok cs -> forall c', In c' cs -> P c'.
Proof.
  intros H Hc E. unfold checker_boolean_reductions in E. dob E. apply unwrap_ok in E0.
  assert (G : forall l cs, (forall x, In x l -> In x a) -> reductions_from inhab n s l = Ok cs -> forall c', In c' cs -> P c').
  { clear E cs. induction l as [|[[k i] t] l IH]; intros cs Hl E c' Hc'; cbn [reductions_from] in E; [injection E as <-; destruct Hc'|].
    dob E. dob E. injection E as <-. assert (X : In c' a1 -> P c') by (apply (IH a1); simpl in *; auto).
    destruct a0 as [c1|]; auto. destruct Hc' as [<-|Hc']; auto.
    destruct (clause_in (fst (fst t)) (ck_past s)); [discriminate|]. eapply cl_reduction; eauto; [apply Hl; left; reflexivity|eapply trace_checked; eauto]. }
  exact (G a cs (fun _ h => h) E).
Qed.
Lemma insert_reductions_ok ins s c s' : (forall s c s', ok s -> P c -> ins s c = Ok s' -> ok s') -> ok s -> P c ->
  insert_reductions K inhab avail ins n s c = Ok s' -> ok s'.
Proof.
  intros I H Hc E. unfold insert_reductions in E. destruct (avail c); simpl in E; [|injection E as <-; auto]. dob E.
  pose proof (reductions_closed _ _ _ H Hc E0) as R. clear E0. revert s H E. induction a as [|r a IH]; intros s H E; cbn [foldm] in E; [injection E as <-; auto|].
  dob E. apply (IH ltac:(intros; apply R; simpl; auto) a0); auto.
  destruct (clause_in r (ck_past s)); [injection E0 as <-; auto|]. eapply I; [|apply R; left; reflexivity|exact E0]. apply ok_with_past; auto.
Qed.
Lemma reprocess_ok ins s s' : (forall s c s', ok s -> P c -> ins s c = Ok s' -> ok s') -> ok s ->
  reprocess K inhab avail orde ins n s = Ok s' -> ok s'.
Proof.
  intros I H E. unfold reprocess in E. assert (L : forall c, In c (orde (ck_exact s)) -> P c) by (intros c Hc; apply (ok_exact _ H), orde_incl, Hc).
  revert s H E L. generalize (ck_exact) as f. intros f s. generalize (orde (f s)). intros l. clear f. revert s.
  induction l as [|c l IH]; intros s H E L; cbn [foldm] in E; [injection E as <-; auto|]. dob E. apply (IH a); auto.
  - eapply insert_reductions_ok; eauto. apply L; left; auto.
  - intros; apply L; right; auto.
Qed.
Lemma insert_results_ok ins s rs s' : (forall s c s', ok s -> P c -> ins s c = Ok s' -> ok s') -> ok s ->
  (forall ls out c', In (ls, out) rs -> checked_result M n ls out c' -> is_tautology c' = false -> P c') ->
  insert_results inhab ins n s rs = Ok s' -> ok s'.
Proof.
  intros I H R. unfold insert_results. revert s H. induction rs as [|[ls out] rs IH]; intros s H E; cbn [foldm] in E; [injection E as <-; auto|].
  dob E. apply (IH ltac:(intros; eapply R; simpl; eauto) a); auto. dob E0. cbn [fst snd] in E1.
  destruct a0 as [c|]; [|injection E0 as <-; auto]. destruct (is_tautology c) eqn:T; [injection E0 as <-; auto|].
  eapply I; [exact H| |exact E0]. eapply R; [left; reflexivity|eapply result_checked; eauto|auto].
Qed.
Lemma simplify_ok s c s' o : ok s -> P c -> simplify_variable_clause path ordk ordc n s c = Ok (s', o) ->
  ok s' /\ forall c', o = Some c' -> P c'.
Proof.
  intros H Hc E. unfold simplify_variable_clause in E. dob E. destruct a as [g x].
  destruct (gok_evaluate_all _ _ _ _ _ (ok_graph _ H) E0 (so_wt _ _ (bs_ok BS c Hc))) as [G V]. pose proof (ok_with_graph _ _ H G) as H1.
  destruct x as [[[|] ls]|]; [|injection E as <- <-; split; [auto|discriminate]|injection E as <- <-; split; [auto|discriminate]].
  dob E. apply unwrap_ok in E1. injection E as <- <-. split; auto. intros c' X; injection X as <-. eapply cl_simplify; eauto.
Qed.

Lemma ok_internal : forall k s re c s', ok s -> P c ->
  insert_internal K ts inhab avail path ordk ordc orde k n s re c = Ok s' -> ok s'.
Proof.
  induction k as [|k IH]; intros s re c s' H Hc E; cbn [insert_internal] in E; [discriminate|].
  rewrite (possible _ Hc) in E. destruct (admit_clause s c) as [s1|] eqn:Ea; [|injection E as <-; auto].
  pose proof (ok_admit _ _ _ H Hc Ea) as H1. dob E. destruct a as [s2 marked]. pose proof (ok_note _ _ _ _ H1 Hc E0) as H2.
  assert (I : forall s c s', ok s -> P c -> insert_internal K ts inhab avail path ordk ordc orde k n s false c = Ok s' -> ok s') by (intros; eapply IH; eauto).
  dob E. rename a into s3. assert (H3 : ok s3).
  { destruct (marked && re && ck_eager s2); [|injection E1 as <-; auto]. eapply reprocess_ok; [exact I|exact H2|exact E1]. }
  dob E. rename a into s4. assert (H4 : ok s4).
  { destruct (clause_has_any_variable c) eqn:V; [|eapply ok_concrete; eauto]. dob E2. destruct a as [s5 o].
    destruct (simplify_ok _ _ _ _ H3 Hc E3) as [H5 So]. dob E2. rename a into s6.
    assert (H6 : ok s6) by (destruct o as [c1|]; [exact (I _ _ _ H5 (So c1 eq_refl) E4)|injection E4 as <-; auto]).
    dob E2. apply unwrap_ok in E5. dob E2. rename a0 into s7.
    assert (H7 : ok s7) by (eapply insert_results_ok; [exact I|exact H6| |exact E6]; intros; eapply cl_resolution; eauto).
    dob E2. apply unwrap_ok in E7. destruct a0 as [ls|]; [|injection E2 as <-; auto]. dob E2. apply unwrap_ok in E8.
    eapply I; [exact H7| |exact E2]. eapply cl_extensionality; eauto. }
  dob E. apply unwrap_ok in E3. dob E. rename a0 into s5.
  assert (H5 : ok s5) by (eapply insert_results_ok; [exact I|exact H4| |exact E4]; intros; eapply cl_factoring; eauto).
  dob E. apply unwrap_ok in E5. dob E. rename a1 into s6.
  assert (H6 : ok s6).
  { eapply insert_results_ok; [exact I|exact H5| |exact E6]. intros ls out c' Hi. apply in_map_iff in Hi. destruct Hi as (x & Hx & Hi).
    injection Hx as -> <-. intros. eapply cl_injectivity; eauto. }
  destruct (ck_eager s6); [|injection E as <-; auto]. eapply insert_reductions_ok; [exact I|exact H6|exact Hc|exact E].
Qed.

(** ** checking through reductions *)
Record queries (Q : clause -> Prop) : Prop := {
  qs_query : forall c, Q c -> ground_wt M (literals c);
  qs_member : forall c l k i t c', Q c -> find_boolean_reductions n K c = Some l -> In (k, i, t) l -> checked_trace M n t c' -> Q c';
  qs_set : forall s c sets cs, ok s -> Q c -> checker_boolean_reduction_sets K inhab n s c = Ok sets -> In cs sets ->
    (forall c', In c' cs -> valid M c') -> valid M c
}.
Context (Q : clause -> Prop) (QS : queries Q).

Lemma sets_members s l sets : sets_from inhab n s l = Ok sets -> forall cs c', In cs sets -> In c' cs ->
  exists k i t, In (k, i, t) l /\ normalize_checker_trace inhab n s t = Ok (Some c').
Proof.
  assert (G : forall m l sets, length l <= m -> sets_from inhab n s l = Ok sets -> forall cs c', In cs sets -> In c' cs ->
    exists k i t, In (k, i, t) l /\ normalize_checker_trace inhab n s t = Ok (Some c')).
  2:{ intros; eapply G; eauto. }
  clear l sets. induction m as [|m IH]; intros [|[[k i] t] l] sets L E cs c' Hcs Hc'; cbn [sets_from] in E; simpl in L; try lia.
  - injection E as <-. destruct Hcs.
  - injection E as <-. destruct Hcs.
  - assert (S : (do o <- if is_second_half k then Ok None else normalize_checker_trace inhab n s t;
                 do cs <- sets_from inhab n s l; Ok (match o with Some c => [c] :: cs | None => cs end)) = Ok sets ->
                exists k0 i0 t0, In (k0, i0, t0) ((k, i, t) :: l) /\ normalize_checker_trace inhab n s t0 = Ok (Some c')).
    { clear E. intros E. dob E. dob E. injection E as <-.
      assert (R : In cs a0 -> exists k0 i0 t0, In (k0, i0, t0) ((k, i, t) :: l) /\ normalize_checker_trace inhab n s t0 = Ok (Some c')).
      { intros Ha. destruct (IH l a0 ltac:(lia) E1 cs c' Ha Hc') as (k0 & i0 & t0 & I & N). exists k0, i0, t0. split; [right|]; auto. }
      destruct a as [c|]; auto. destruct Hcs as [<-|Hcs]; auto. destruct Hc' as [<-|[]].
      destruct (is_second_half k); [discriminate|]. exists k, i, t. split; [left|]; auto. }
    destruct l as [|[[k' i'] t'] l]; auto. destruct (paired k k'); auto. clear S.
    dob E. dob E. dob E. injection E as <-. simpl in L.
    assert (R : In cs a1 -> exists k0 i0 t0, In (k0, i0, t0) ((k, i, t) :: (k', i', t') :: l) /\ normalize_checker_trace inhab n s t0 = Ok (Some c')).
    { intros Ha. destruct (IH l a1 ltac:(lia) E2 cs c' Ha Hc') as (k0 & i0 & t0 & I & N). exists k0, i0, t0. split; [right; right|]; auto. }
    destruct a as [c|]; auto. destruct a0 as [c0|]; auto. destruct Hcs as [<-|Hcs]; auto. destruct Hc' as [<-|[<-|[]]].
    + exists k, i, t. split; [left|]; auto.
    + exists k', i', t'. split; [right; left|]; auto.
Qed.
Lemma ok_keeps_sets s c sets : ok s -> Q c -> checker_boolean_reduction_sets K inhab n s c = Ok sets -> forall cs c', In cs sets -> In c' cs -> Q c'.
Proof.
  intros H Hc E cs c' Hcs Hc'. unfold checker_boolean_reduction_sets in E. dob E. apply unwrap_ok in E0.
  destruct (sets_members _ _ _ E cs c' Hcs Hc') as (k & i & t & Hi & N). eapply (qs_member _ QS); eauto. eapply trace_checked; eauto.
Qed.
Lemma reductions_sound : forall k s seen c s' seen' b, ok s -> Q c -> check_reductions K inhab ordk ordc k n s seen c = Ok (s', seen', b) ->
  ok s' /\ (b = true -> valid M c).
Proof.
  induction k as [|k IH]; intros s seen c s' seen' b H Hc E; cbn [check_reductions] in E; [discriminate|].
  destruct (clause_has_any_variable c); [injection E as <- <- <-; split; [auto|discriminate]|].
  destruct (clause_in c seen); [injection E as <- <- <-; split; [auto|discriminate]|].
  dob E. dob E. destruct a0 as [s1 b1]. injection E as <- <- <-.
  assert (A : forall cs s seen s' b, (forall c', In c' cs -> Q c') -> ok s ->
     all_known ordk ordc (check_reductions K inhab ordk ordc k n) n s seen cs = Ok (s', b) -> ok s' /\ (b = true -> forall c', In c' cs -> valid M c')).
  { clear - IH BS QS ordk_perm ordc_perm. induction cs as [|c cs IHcs]; intros s seen s' b Hq H E; cbn [all_known] in E.
    - injection E as <- <-. split; auto. intros _ c' [].
    - dob E. destruct a as [s1 b1]. destruct (direct_sound _ _ _ _ _ H (qs_query _ QS _ (Hq c (or_introl eq_refl))) E0) as [H1 V1].
      destruct b1.
      + destruct (IHcs _ _ _ _ ltac:(intros; apply Hq; right; auto) H1 E) as [H2 V2]. split; auto.
        intros Hb c' [<-|Hc']; auto.
      + dob E. destruct a as [[s2 seen2] b2]. destruct (IH _ _ _ _ _ _ H1 (Hq c (or_introl eq_refl)) E1) as [H2 V2].
        destruct b2; [|injection E as <- <-; split; [auto|discriminate]].
        destruct (IHcs _ _ _ _ ltac:(intros; apply Hq; right; auto) H2 E) as [H3 V3]. split; auto.
        intros Hb c' [<-|Hc']; auto. }
  assert (T : forall sets s2 s' b, (forall cs c', In cs sets -> In c' cs -> Q c') -> ok s2 ->
     some_set_known ordk ordc (check_reductions K inhab ordk ordc k n) n s2 (c :: seen) sets = Ok (s', b) ->
     ok s' /\ (b = true -> exists cs, In cs sets /\ forall c', In c' cs -> valid M c')).
  { clear - A. induction sets as [|cs sets IHs]; intros s2 s' b Hq H E; cbn [some_set_known] in E.
    - injection E as <- <-. split; [auto|discriminate].
    - dob E. destruct a as [s3 b3]. destruct (A _ _ _ _ _ (fun c' h => Hq cs c' (or_introl eq_refl) h) H E0) as [H3 V3].
      destruct b3.
      + injection E as <- <-. split; auto. intros _. exists cs. split; [left; auto|auto].
      + destruct (IHs _ _ _ (fun cs' c' h => Hq cs' c' (or_intror h)) H3 E) as [H4 V4]. split; auto.
        intros Hb. destruct (V4 Hb) as (cs' & I & X). exists cs'. split; [right|]; auto. }
  destruct (T a s s1 b1 (ok_keeps_sets _ _ _ H Hc E0) H E1) as [H1 V1]. split; auto.
  intros Hb. destruct (V1 Hb) as (cs & I & X). exact (qs_set _ QS _ _ _ _ H Hc E0 I X).
Qed.
End Basic.
End Invariant.
