(** The sets of reductions the checker looks for: if all clauses of a set hold, the clause holds. *)
From Coq Require Import List Arith NArith Bool Lia.
Import ListNotations.
From Verif Require Import Term LocalContext Semantics TermProofs SemFacts TermNorm TermNormProofs P_TermNorm
  Literal Clause ClauseSem RenumberProofs ClauseProofs ClauseWf Typing TypingProofs InferenceProofs BoolReduction BoolReductionProofs
  ClauseSet EqualityGraph Checker CheckerProofs CheckerSem BoolReductionConverse.

(** ** single reductions and pairs *)
Inductive grouped {A} (f : A -> kind) (same : A -> A -> Prop) : list A -> Prop :=
| gr_nil : grouped f same []
| gr_one x l : first_half (f x) = false -> is_second_half (f x) = false -> grouped f same l -> grouped f same (x :: l)
| gr_two x y l : paired (f x) (f y) = true -> same x y -> grouped f same l -> grouped f same (x :: y :: l).
Lemma grouped_app {A} (f : A -> kind) same l1 l2 : grouped f same l1 -> grouped f same l2 -> grouped f same (l1 ++ l2).
Proof. induction 1; simpl; intros; [auto|apply gr_one; auto|apply gr_two; auto]. Qed.
Lemma app_res_grouped {A} (f : A -> kind) same a b l : app_res a b = Some l ->
  (forall x, a = Some x -> grouped f same x) -> (forall x, b = Some x -> grouped f same x) -> grouped f same l.
Proof. destruct a, b; simpl; try discriminate. intros H Ha Hb. injection H as <-. apply grouped_app; auto. Qed.

Ltac grp := repeat match goal with
  | |- grouped _ _ [] => apply gr_nil
  | |- grouped _ _ [_] => apply gr_one; [reflexivity|reflexivity|]
  | |- grouped _ _ [_; _] => apply gr_two; [reflexivity|exact Logic.I|]
  end.
Ltac done H := first [discriminate H | injection H as <-; grp].
Lemma found_grouped fuel K cl l found : find_for_literal fuel K cl l = Some found -> grouped fst (fun _ _ => True) found.
Proof.
  unfold find_for_literal.
  destruct (is_signed_term l && (is_true (left l) || term_eqb (left l) tfalse)).
  { intros H; injection H as <-. destruct (if is_true (left l) then positive l else negb (positive l)); grp. }
  intros H. apply (app_res_grouped _ _ _ _ _ H); clear H found.
  { intros x H. destruct (simplify_ite fuel (left l)); [|discriminate]. injection H as <-. destruct (term_eqb t (left l)); grp. }
  intros x H. apply (app_res_grouped _ _ _ _ _ H); clear H x.
  { intros x H. destruct (simplify_ite fuel (right l)); [|discriminate]. injection H as <-. destruct (term_eqb t (right l)); grp. }
  intros x H. apply (app_res_grouped _ _ _ _ _ H); clear H x.
  { intros x H. injection H as <-. destruct (clause_split (left l) SIte 4) as [[|? [|? [|? [|? [|]]]]]|]; cbn [app]; grp. }
  intros x H. apply (app_res_grouped _ _ _ _ _ H); clear H x.
  { intros x H. injection H as <-. destruct (clause_split (right l) SIte 4) as [[|? [|? [|? [|? [|]]]]]|]; cbn [app]; grp. }
  intros x H. apply (app_res_grouped _ _ _ _ _ H); clear H x.
  { intros x H. destruct (reduce_function_inequality K (context cl) l) as [[t|]|]; done H. }
  intros x H. destruct (bool_left K (context cl) l) as [[|]|]; [|done H|done H].
  destruct (is_true (right l)); [|destruct (positive l); cbn [app] in H; done H].
  assert (G : forall o, o = match clause_split (left l) SAnd 2 with
        | Some [x; y] =>
          Some (if positive l then [(PositiveAndLeft, ([lit_positive x], context cl))] ++ [(PositiveAndRight, ([lit_positive y], context cl))]
                else [(NegativeAnd, ([lit_negative x; lit_negative y], context cl))])
        | _ =>
        match clause_split (left l) SOr 2 with
        | Some [x; y] =>
          Some (if positive l then [(PositiveOr, ([lit_positive x; lit_positive y], context cl))]
                else [(NegativeOrLeft, ([lit_negative x], context cl))] ++ [(NegativeOrRight, ([lit_negative y], context cl))])
        | _ => Some []
        end end -> o = Some x -> grouped fst (fun _ _ => True) x).
  { clear H. intros o -> H.
    destruct (clause_split (left l) SAnd 2) as [[|? [|? [|]]]|]; destruct (positive l);
      destruct (clause_split (left l) SOr 2) as [[|? [|? [|]]]|]; cbn [app] in H; done H. }
  repeat match type of H with
  | Some _ = Some _ => done H
  | None = Some _ => discriminate H
  | _ => exact (G _ eq_refl H)
  | match ?e with _ => _ end = Some _ => destruct e eqn:?
  end.
Qed.

Definition of_kind (x : kind * nat * (clause * list nat * lctx)) : kind := fst (fst x).
Definition same_literal (x y : kind * nat * (clause * list nat * lctx)) : Prop := snd (fst x) = snd (fst y).
Lemma normalize_found_grouped cl i l : grouped fst (fun _ _ => True) l -> forall out, normalize_found cl i l = Some out ->
  grouped of_kind same_literal out.
Proof.
  induction 1 as [|[k [r c]] l F1 F2 _ IH|[k [r c]] [k' [r' c']] l Hp _ _ IH]; cbn [normalize_found]; intros out H.
  - injection H as <-. constructor.
  - destruct (normalize_boolean_reduction (with_replaced_literal (literals cl) i r) c (length (context cl))) as [t|]; [|discriminate].
    destruct (normalize_found cl i l) as [o|]; [|discriminate]. injection H as <-. apply gr_one; auto.
  - destruct (normalize_boolean_reduction (with_replaced_literal (literals cl) i r) c (length (context cl))) as [t|]; [|discriminate].
    destruct (normalize_boolean_reduction (with_replaced_literal (literals cl) i r') c' (length (context cl))) as [t'|]; [|discriminate].
    destruct (normalize_found cl i l) as [o|]; [|discriminate]. injection H as <-. apply gr_two; auto. reflexivity.
Qed.
Lemma reductions_grouped fuel K cl found : find_boolean_reductions fuel K cl = Some found -> grouped of_kind same_literal found.
Proof.
  unfold find_boolean_reductions. generalize 0 (literals cl). intros i ls. revert i found.
  induction ls as [|l ls IH]; intros i found H; cbn [find_from] in H; [injection H as <-; constructor|].
  destruct (find_for_literal fuel K cl l) as [f|] eqn:Ef; [|discriminate].
  apply (app_res_grouped _ _ _ _ _ H).
  - apply normalize_found_grouped. eapply found_grouped; eauto.
  - intros x Hx. eapply IH; eauto.
Qed.

Lemma not_first k k' : first_half k = false -> paired k k' = false.
Proof. destruct k; simpl; auto; discriminate. Qed.
(** what a set consists of *)
Definition set_of (inhab : term -> lctx -> bool) n s (l : list (kind * nat * (clause * list nat * lctx))) (cs : list clause) : Prop :=
  (exists k i t c, In (k, i, t) l /\ first_half k = false /\ is_second_half k = false /\
     normalize_checker_trace inhab n s t = Ok (Some c) /\ cs = [c]) \/
  (exists k k' i t t' c c', In (k, i, t) l /\ In (k', i, t') l /\ paired k k' = true /\
     normalize_checker_trace inhab n s t = Ok (Some c) /\ normalize_checker_trace inhab n s t' = Ok (Some c') /\ cs = [c; c']).
Lemma set_of_incl inhab n s l l' cs : incl l l' -> set_of inhab n s l cs -> set_of inhab n s l' cs.
Proof.
  intros I [(k & i & t & c & H1 & H2)|(k & k' & i & t & t' & c & c' & H1 & H2 & H3)]; [left|right].
  - exists k, i, t, c. split; [apply I; auto|auto].
  - exists k, k', i, t, t', c, c'. split; [apply I; auto|]. split; [apply I; auto|auto].
Qed.
Lemma sets_shape inhab n s l : grouped of_kind same_literal l -> forall sets cs, sets_from inhab n s l = Ok sets -> In cs sets ->
  set_of inhab n s l cs.
Proof.
  induction 1 as [|[[k i] t] l F1 F2 _ IH|[[k i] t] [[k' i'] t'] l Hp Hs _ IH]; intros sets cs E Hi.
  - injection E as <-. destruct Hi.
  - assert (E' : (do o <- (if is_second_half k then Ok None else normalize_checker_trace inhab n s t);
                 do cs <- sets_from inhab n s l; Ok (match o with Some c => [c] :: cs | None => cs end)) = Ok sets).
    { cbn [sets_from] in E. destruct l as [|[[k' i'] t'] l]; auto. unfold of_kind in F1; simpl in F1. rewrite (not_first k k' F1) in E. exact E. }
    clear E. unfold of_kind in F1, F2; cbn [fst] in F1, F2. rewrite F2 in E'. dob E'. dob E'. injection E' as <-.
    assert (T : In cs a0 -> set_of inhab n s ((k, i, t) :: l) cs) by (intros Hc; apply (set_of_incl _ _ _ l); [apply incl_tl, incl_refl|eauto]).
    destruct a as [c|]; auto. destruct Hi as [<-|Hi]; auto. left. exists k, i, t, c. simpl. auto 6.
  - unfold of_kind in Hp; unfold same_literal in Hs; cbn [fst snd] in Hp, Hs. subst i'.
    cbn [sets_from] in E. rewrite Hp in E. dob E. dob E. dob E. injection E as <-.
    assert (T : In cs a1 -> set_of inhab n s ((k, i, t) :: (k', i, t') :: l) cs) by (intros Hc; apply (set_of_incl _ _ _ l); [do 2 apply incl_tl; apply incl_refl|eauto]).
    destruct a as [c|]; auto. destruct a0 as [c'|]; auto. destruct Hi as [<-|Hi]; auto. right. exists k, k', i, t, t', c, c'. simpl. auto 8.
Qed.

(** ** the clause follows from a set *)
Section Sets.
Context (M : Model) (K : kctx) (R : respects M K).

Lemma replacement_context fuel cl k l r c' : replacement fuel K cl k l = Some (Some (r, c')) ->
  c' = context cl \/ exists q A b, left l = TBind q A b /\ c' = push_type (context cl) A.
Proof.
  intros H. assert (O : forall q t c, open_quantifier q (left l) (context cl) = Some (Some (t, c)) ->
    exists q A b, left l = TBind q A b /\ c = push_type (context cl) A).
  { intros q t c E. unfold open_quantifier in E. destruct (left l) as [|?|kk A body] eqn:EL; try discriminate.
    destruct (bkind_eq_dec kk q); [|discriminate]. rewrite open_bound_spec in E. cbn [option_map] in E. assert (c = push_type (context cl) A) by congruence. subst c. eauto. }
  destruct k; cbn [replacement] in H;
  repeat match type of H with
  | Some (Some (_, ?c)) = Some (Some (_, c')) => assert (c' = c) by congruence; subst c'; clear H; auto
  | Some None = _ => discriminate H
  | None = _ => discriminate H
  | match ?e with _ => _ end = Some _ => destruct e eqn:?
  end; right; eapply O; eauto.
Qed.
Lemma nth_split_lits {A} (ls : list A) i l : nth_error ls i = Some l -> ls = firstn i ls ++ l :: skipn (S i) ls.
Proof.
  revert i. induction ls as [|x ls IH]; intros [|i] El; simpl in *; try discriminate.
  - injection El as ->; auto.
  - rewrite <- IH; auto.
Qed.
Lemma push_acyclic c A : acyclic c -> ctx_closed c -> (forall v, In v (vars A) -> v < length c) -> acyclic (push_type c A).
Proof.
  intros [rank H] Hc HA. set (N := S (list_max (map rank (seq 0 (length c))))).
  assert (B : forall v, v < length c -> rank v < N).
  { intros v Hv. unfold N. apply Nat.lt_succ_r.
    pose proof (proj1 (List.list_max_le (map rank (seq 0 (length c))) _) (le_n _)) as F. rewrite Forall_forall in F. apply F.
    apply in_map, in_seq. lia. }
  exists (fun v => if Nat.ltb v (length c) then rank v else N). intros v d Hd. unfold deps in Hd. rewrite get_push in Hd.
  destruct (Nat.eqb_spec v (length c)) as [->|Nv].
  - rewrite Nat.ltb_irrefl, (proj2 (Nat.ltb_lt _ _) (HA d Hd)). apply B; auto.
  - destruct (get_var_type c v) as [T|] eqn:ET; [|destruct Hd].
    assert (Hv : v < length c) by (apply nth_error_Some; unfold get_var_type in ET; destruct (nth_error c v); congruence).
    pose proof (Hc v T d ET Hd) as Hd'. rewrite (proj2 (Nat.ltb_lt _ _) Hd'), (proj2 (Nat.ltb_lt _ _) Hv). apply H. unfold deps. rewrite ET. auto.
Qed.
Lemma reduced_acyclic fuel cl k i ls c' : reduced_literals fuel K cl k i = Some (Some (ls, c')) -> scoped cl -> acyclic (context cl) -> acyclic c'.
Proof.
  unfold reduced_literals. destruct (nth_error (literals cl) i) as [l|] eqn:El; [|discriminate].
  destruct (replacement fuel K cl k l) as [[[r c1]|]|] eqn:Er; simpl; try discriminate. intros H Sc A. injection H as _ <-.
  destruct (scoped_ctx _ Sc) as [Hc Hl]. destruct (replacement_context _ _ _ _ _ _ Er) as [->|(q & T & b & E & ->)]; auto.
  apply push_acyclic; auto. intros v Hv. apply (Hl l v (nth_error_In _ _ El)). unfold lit_vars. rewrite E, vars_bind. apply in_or_app; left; apply in_or_app; auto.
Qed.

Lemma rest_holds (rho rho' : nat -> D M) l n : (forall v, In v (lit_vars l) -> v < n) -> (forall v, v < n -> rho' v = rho v) ->
  lit_holds M rho' l -> lit_holds M rho l.
Proof.
  intros Hl Ha. unfold lit_holds, lit_vars in *. rewrite (ev_vars M rho' rho (left l)), (ev_vars M rho' rho (right l)); auto;
    intros v Hv; apply Ha, Hl, in_or_app; auto.
Qed.
Lemma one_complete fuel cl k i ls c' : reduced_literals fuel K cl k i = Some (Some (ls, c')) ->
  first_half k = false -> is_second_half k = false -> reducible M K cl -> (forall l, In l (literals cl) -> witness_typed l) ->
  clause_wt M (Clause ls c') -> valid M (Clause ls c') -> valid M cl.
Proof.
  unfold reduced_literals. destruct (nth_error (literals cl) i) as [l|] eqn:El; [|discriminate].
  destruct (replacement fuel K cl k l) as [[[r c1]|]|] eqn:Er; simpl; try discriminate. intros H F1 F2 RD Wi W V. injection H as <- <-.
  pose proof (nth_error_In _ _ El) as Hin. destruct (scoped_ctx _ (rd_scoped _ _ _ RD)) as [Hc Hlen].
  pose proof (nth_split_lits _ _ _ El) as Sp. set (rest := firstn i (literals cl) ++ skipn (S i) (literals cl)).
  assert (Hr : forall x, In x rest -> In x (literals cl)).
  { intros x Hx. rewrite Sp. apply in_app_or in Hx. apply in_or_app. simpl. tauto. }
  intros rho Hv. destruct (cholds_dec M rho rest) as [(x & Hx & Hh)|N]; [exists x; auto|].
  exists l. split; auto. refine (complete_one M _ _ _ _ _ _ _ rho Er F1 F2 R Hc (fun v => Hlen l v Hin) (rd_typed _ _ _ RD l Hin) (fun _ => Wi l Hin) Hv (rd_types _ _ _ RD rho Hv) (rd_wt _ _ _ RD rho Hv l Hin) _).
  intros rho' Hv' Ha. split.
  - intros x Hx. apply (W rho' Hv'). unfold with_replaced_literal. cbn [literals]. apply in_or_app. right. apply in_or_app. auto.
  - destruct (V rho' Hv') as (x & Hx & Hh). unfold with_replaced_literal in Hx. cbn [literals] in Hx. 
    apply in_app_or in Hx. rewrite in_app_iff in Hx.
    assert (X : In x rest \/ In x r) by (unfold rest; rewrite in_app_iff; tauto). destruct X as [X|X]; [|exists x; auto].
    exfalso. apply N. exists x. split; auto. eapply rest_holds; [|exact Ha|exact Hh]. intros v. apply Hlen; auto.
Qed.
Lemma two_complete fuel cl k k' i ls ls' c1 c2 : reduced_literals fuel K cl k i = Some (Some (ls, c1)) ->
  reduced_literals fuel K cl k' i = Some (Some (ls', c2)) -> paired k k' = true -> reducible M K cl ->
  valid M (Clause ls c1) -> valid M (Clause ls' c2) -> valid M cl.
Proof.
  unfold reduced_literals. destruct (nth_error (literals cl) i) as [l|] eqn:El; [|discriminate].
  destruct (replacement fuel K cl k l) as [[[r d1]|]|] eqn:Er; simpl; try discriminate. intros H. injection H as <- <-.
  destruct (replacement fuel K cl k' l) as [[[r' d2]|]|] eqn:Er'; simpl; try discriminate. intros H Pr RD V V'. injection H as <- <-.
  pose proof (nth_error_In _ _ El) as Hin. destruct (scoped_ctx _ (rd_scoped _ _ _ RD)) as [Hc Hlen].
  pose proof (nth_split_lits _ _ _ El) as Sp. set (rest := firstn i (literals cl) ++ skipn (S i) (literals cl)).
  assert (Hr : forall x, In x rest -> In x (literals cl)).
  { intros x Hx. rewrite Sp. apply in_app_or in Hx. apply in_or_app. simpl. tauto. }
  intros rho Hv. destruct (cholds_dec M rho rest) as [(x & Hx & Hh)|N]; [exists x; auto|].
  exists l. split; auto.
  destruct (complete_two M _ _ _ _ _ _ _ _ _ _ rho Er Er' Pr R Hc (fun v => Hlen l v Hin) (rd_typed _ _ _ RD l Hin) Hv (rd_wt _ _ _ RD rho Hv l Hin)) as (-> & -> & G).
  assert (X : forall r0, valid M (Clause (with_replaced_literal (literals cl) i r0) (context cl)) -> cholds M rho r0).
  { intros r0 V0. destruct (V0 rho Hv) as (x & Hx & Hh). unfold with_replaced_literal in Hx. cbn [literals] in Hx.
    apply in_app_or in Hx. rewrite in_app_iff in Hx.
    assert (X : In x rest \/ In x r0) by (unfold rest; rewrite in_app_iff; tauto). destruct X as [X|X]; [|exists x; auto].
    exfalso. apply N. exists x. auto. }
  apply G; auto.
Qed.

(** Clauses that may be asked: what the kernel keeps true of clauses, and the same for what they reduce to. *)
Record answerable (n : nat) (Q : clause -> Prop) : Prop := {
  an_ground : forall c, Q c -> ground_wt M (literals c);
  an_reducible : forall c, Q c -> reducible M K c;
  an_acyclic : forall c, Q c -> acyclic (context c);
  an_witness : forall c l, Q c -> In l (literals c) -> witness_typed l;
  an_reduced : forall c k i ls c', Q c -> reduced_literals n K c k i = Some (Some (ls, c')) -> clause_pwt M (Clause ls c');
  an_member : forall c l k i t c', Q c -> find_boolean_reductions n K c = Some l -> In (k, i, t) l -> checked_trace M n t c' -> Q c'
}.
Context (He : eta_model M) (n : nat) (Q : clause -> Prop) (AN : answerable n Q).

Lemma member_reflects cl l k i t c' : Q cl -> find_boolean_reductions n K cl = Some l -> In (k, i, t) l -> checked_trace M n t c' ->
  exists ls c, reduced_literals n K cl k i = Some (Some (ls, c)) /\ clause_pwt M (Clause ls c) /\ (valid M (Clause ls c) <-> valid M c').
Proof.
  intros Hq E Hi Hc. pose proof (find_reductions_at _ _ _ _ _ _ _ E Hi) as H. unfold boolean_reduction_at in H.
  destruct (reduced_literals n K cl k i) as [[[ls c]|]|] eqn:Er; try discriminate. exists ls, c. split; auto.
  pose proof (an_reduced _ _ AN _ _ _ _ _ Hq Er) as W. split; auto.
  destruct (normalize_boolean_reduction ls c (length (context cl))) as [t0|] eqn:En; [|discriminate]. injection H as ->.
  unfold normalize_boolean_reduction in En. destruct (normalize_with_trace ls c) as [[d ids]|] eqn:E1; [|discriminate].
  destruct (normalize_with_var_ids_prefilled ls c (filter (fun v => Nat.ltb v (length (context cl))) ids)) as [[d' ids']|] eqn:E2; [|discriminate].
  injection En as <-.
  refine (proj2 (proj2 (checked_trace_sound M n ls c _ (d', ids') c' He _ _ W E2 Hc))).
  - eapply reduced_acyclic; [exact Er|apply (rd_scoped _ _ _ (an_reducible _ _ AN _ Hq))|apply (an_acyclic _ _ AN); auto].
  - apply NoDup_filter. refine (f_nodup _ _ _ (prefilled_faithful _ _ _ _ _ (NoDup_nil _) E1)).
Qed.
Lemma set_complete inhab ordk ordc P s c sets cs : (forall T c, inhab T c = true -> inhabited_at M c T) -> ok ordk ordc M P s -> Q c ->
  checker_boolean_reduction_sets K inhab n s c = Ok sets -> In cs sets -> (forall c', In c' cs -> valid M c') -> valid M c.
Proof.
  intros Hs O Hq E Hi V. unfold checker_boolean_reduction_sets in E. dob E. apply unwrap_ok in E0.
  destruct (sets_shape inhab n s a (reductions_grouped _ _ _ _ E0) sets cs E Hi)
    as [(k & i & t & c1 & H1 & F1 & F2 & N1 & ->)|(k & k' & i & t & t' & c1 & c2 & H1 & H2 & Pr & N1 & N2 & ->)].
  - destruct (member_reflects _ _ _ _ _ c1 Hq E0 H1) as (ls & d & Er & W & Vi); [eapply trace_checked; eauto|].
    eapply one_complete; [exact Er|auto|auto|apply (an_reducible _ _ AN); auto|intros l; apply (an_witness _ _ AN); auto|apply pwt_wt; auto|].
    apply Vi, V. left; auto.
  - destruct (member_reflects _ _ _ _ _ c1 Hq E0 H1) as (ls & d & Er & W & Vi); [eapply trace_checked; eauto|].
    destruct (member_reflects _ _ _ _ _ c2 Hq E0 H2) as (ls' & d' & Er' & W' & Vi'); [eapply trace_checked; eauto|].
    eapply two_complete; [exact Er|exact Er'|exact Pr|apply (an_reducible _ _ AN); auto|apply Vi, V; left; auto|apply Vi', V; right; left; auto].
Qed.
Lemma answerable_queries inhab ordk ordc P : (forall T c, inhab T c = true -> inhabited_at M c T) -> queries K inhab ordk ordc M P n Q.
Proof.
  intros Hs. constructor.
  - apply (an_ground _ _ AN).
  - apply (an_member _ _ AN).
  - intros s c sets cs O Hq E Hi. exact (set_complete inhab ordk ordc P s c sets cs Hs O Hq E Hi).
Qed.
End Sets.
