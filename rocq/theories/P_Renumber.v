(** Property C20: variable renumbering is a consistent renaming. *)
From Coq Require Import List Arith NArith Bool Lia.
Import ListNotations.
From Verif Require Import Term LocalContext Semantics TermProofs SemFacts FlatTerm Kbo TermNorm
  Literal Clause ClauseSem RenumberProofs ClauseProofs ClauseWf.

(** [f] renames [l] to [l'] up to the direction of the equation. *)
Definition renames_lit (f : nat -> nat) (l l' : literal) : Prop :=
  positive l' = positive l /\
  ((left l' = rename f (left l) /\ right l' = rename f (right l)) \/
   (left l' = rename f (right l) /\ right l' = rename f (left l))).

Definition position_in (ids : list nat) (v : nat) : nat :=
  match position v ids with Some p => p | None => 0 end.

Lemma renumber_rename ids t : forall t', renumber_variables ids t = Some t' -> t' = rename (position_in ids) t.
Proof.
  induction t as [[i|i|s]|g IHg a IHa|k A IHA b IHb]; simpl; intros t' H.
  - unfold position_in. destruct (position i ids); simpl in H; congruence.
  - congruence.
  - congruence.
  - destruct (renumber_variables ids g); [|discriminate]. destruct (renumber_variables ids a); [|discriminate].
    injection H as <-. f_equal; auto.
  - destruct (renumber_variables ids A); [|discriminate]. destruct (renumber_variables ids b); [|discriminate].
    injection H as <-. f_equal; auto.
Qed.

Lemma position_in_inj ids i j : In i ids -> In j ids -> position_in ids i = position_in ids j -> i = j.
Proof.
  intros Hi Hj. unfold position_in. destruct (position_in_ex ids i Hi) as [p Hp].
  destruct (position_in_ex ids j Hj) as [q Hq]. rewrite Hp, Hq. intros ->.
  apply position_some in Hp, Hq. destruct Hp, Hq. congruence.
Qed.

(** Renumbering a clause with acyclic, complete variable types succeeds.  The result is the clause
    with its variables renamed by [f]; [f] is injective on the variables that occur in the clause or
    in the types of such variables; the new context lists exactly their images, 0, 1, 2, ... without
    gaps, each with its renamed type; and every type mentions only earlier variables. *)
Theorem renumbering_is_renaming :
  forall c, scoped c -> acyclic (context c) ->
  exists c' ids f, normalize_var_ids_with_pinned 0 c = Some (c', ids) /\
    (forall i j, relevant (context c) (literals c) i -> relevant (context c) (literals c) j -> f i = f j -> i = j) /\
    Forall2 (renames_lit f) (literals c) (literals c') /\
    (forall p, p < length (context c') <-> exists v, relevant (context c) (literals c) v /\ f v = p) /\
    (forall v, relevant (context c) (literals c) v ->
       get_var_type (context c') (f v) = option_map (rename f) (get_var_type (context c) v) /\
       get_var_type (context c) v <> None) /\
    validate_variable_ordering (context c') = true.
Proof.
  intros c S A.
  destruct (pass_total 0 c A) as (c' & ids & E & O & _ & _ & _ & ext & Ee & R); auto.
  { intros p v H. destruct p; discriminate. }
  { lia. }
  simpl in Ee. subst ids. exists c', ext, (position_in ext). split; [exact E|].
  pose proof E as E'. unfold normalize_var_ids_with_pinned in E'.
  destruct (renumber_literals (context c) (seq 0 0) (literals c)) as [[lits i]|] eqn:El; [|discriminate].
  destruct (remap (context c) i) as [cx|] eqn:Er; simpl in E'; [|discriminate].
  injection E' as <- ->. apply renumber_literals_spec in El. destruct El as [((e & Ee & _) & N & Dd) F].
  simpl in Ee. subst e. specialize (N (NoDup_nil _)).
  destruct (remap_get _ _ _ Er) as [L G]. cbn [context literals] in *.
  assert (K : forall v, In v ext <-> relevant (context c) (literals c) v).
  { intros v. split.
    - intros Hv. apply R in Hv. induction Hv as [v (l & Hl & Hv)|v w Hv IH Hw].
      + unfold lit_vars in Hv. apply in_app_or in Hv. destruct Hv; [eapply rel_left|eapply rel_right]; eauto.
      + unfold deps in Hw. destruct (get_var_type (context c) v) eqn:Eg; [|destruct Hw]. eapply rel_type; eauto.
    - assert (B : forall l, In l (literals c) -> (forall w, In w (lit_vars l) -> In w ext)).
      { intros l Hl. clear - F Hl. induction F as [|x y xs ys Hx H IH]; [destruct Hl|].
        destruct Hl as [<-|Hl]; [|auto]. destruct Hx as (a & b & Ha & Hb & _).
        intros w Hw. apply in_app_or in Hw. destruct Hw; [eapply (renumber_vars _ _ _ Ha)|eapply (renumber_vars _ _ _ Hb)]; auto. }
      induction 1 as [l v Hl Hv|l v Hl Hv|v T w Hv IH HT Hw].
      + apply (B l Hl). apply in_or_app; auto.
      + apply (B l Hl). apply in_or_app; auto.
      + assert (D0 : deps_first (context c) []) by (intros p x Hx; destruct p; discriminate).
        apply (deps_in_ids _ _ v (Dd D0) IH). unfold deps. rewrite HT. exact Hw. }
  split; [|split; [|split; [|split]]]; auto.
  - intros i j Hi Hj. apply position_in_inj; apply K; auto.
  - clear - F. induction F as [|x y xs ys Hx H IH]; constructor; auto.
    destruct Hx as (a & b & Ha & Hb & ->). apply renumber_rename in Ha, Hb. subst.
    unfold renames_lit, lit_new, lit_new_with_flip. destruct (needs_to_flip _ _); simpl; auto.
  - intros p. rewrite L. split.
    + intros Hp. apply nth_error_Some in Hp. destruct (nth_error ext p) as [v|] eqn:Ev; [|congruence].
      exists v. split; [apply K; eapply nth_error_In; eauto|]. unfold position_in. rewrite (position_nth _ N _ _ Ev). auto.
    + intros (v & Hv & <-). apply K in Hv. unfold position_in. destruct (position_in_ex _ _ Hv) as [p Hp]. rewrite Hp.
      apply position_some in Hp. tauto.
  - intros v Hv. apply K in Hv. destruct (position_in_ex _ _ Hv) as [p Hp].
    pose proof (proj1 (position_some _ _ _ Hp)) as Hn. destruct (G p v Hn) as (T & T' & E1 & E2 & E3).
    unfold position_in at 1. rewrite Hp, E1, E3. simpl. apply renumber_rename in E2. subst. split; congruence.
Qed.
Print Assumptions renumbering_is_renaming.

(** The shape-preserving variant gives the same result on renamed inputs: renaming the variables of
    a clause, in literals and types, by any injective map and listing the types in the renamed
    places, in any order, makes no difference. *)
Theorem compaction_ignores_names :
  forall f ls c1 c2, (forall i j, f i = f j -> i = j) ->
  (forall v, get_var_type c2 (f v) = option_map (rename f) (get_var_type c1 v)) -> acyclic c1 -> acyclic c2 ->
  compact_var_ids (Clause (map (rename_lit f) ls) c2) = compact_var_ids (Clause ls c1).
Proof. intros f ls c1 c2. exact (rename_compact_clause f c1 c2 ls). Qed.
Print Assumptions compaction_ignores_names.

(** Full normalization sorts the literals before it renumbers them, and the order depends on the
    names: renaming-equivalent clauses can have different normal forms. *)
Definition rn_A := TSym (SType 0 0).
Definition rn_p := TSym (SGlobal 0 0).
Definition rn_clause (i j : nat) : clause :=
  Clause [Lit true (TApp (TApp rn_p (TVar i)) (TVar j)) ttrue; Lit true (TApp (TApp rn_p (TVar j)) (TVar j)) ttrue]
    [Some rn_A; Some rn_A].
Theorem normal_form_depends_on_names_refuted :
  exists c1 c2 f, (forall i j, f i = f j -> i = j) /\ literals c2 = map (rename_lit f) (literals c1) /\
    (forall v, get_var_type (context c2) (f v) = option_map (rename f) (get_var_type (context c1) v)) /\
    scoped c1 /\ validate_variable_ordering (context c1) = true /\
    exists n1 n2, normalized c1 = Some n1 /\ normalized c2 = Some n2 /\ n1 <> n2.
Proof.
  exists (rn_clause 0 1), (rn_clause 1 0), (fun i => match i with 0 => 1 | 1 => 0 | _ => i end).
  split; [intros [|[|i]] [|[|j]]; congruence|]. split; [reflexivity|].
  split; [intros [|[|[|v]]]; reflexivity|].
  split.
  { constructor.
    - intros l v [<-|[<-|[]]] H; simpl in H; vm_compute in H; intuition; subst; eexists; reflexivity.
    - intros [|[|[|v]]] d H; simpl in H; tauto. }
  split; [reflexivity|].
  do 2 eexists. split; [vm_compute; reflexivity|]. split; [vm_compute; reflexivity|]. discriminate.
Qed.
Print Assumptions normal_form_depends_on_names_refuted.

(** Case: [g(x5) = x2 or x5 = x2] where x5 has type [F(x1)] and x1 is a type. *)
Definition rn_F := TSym (SType 0 1).
Definition rn_c : clause :=
  Clause [Lit true (TApp rn_p (TVar 5)) (TVar 2); Lit false (TVar 5) (TVar 2)]
    [None; Some (TSym SType0); Some rn_A; None; None; Some (TApp rn_F (TVar 1))].
Example renumbering_case :
  option_map fst (normalize_var_ids_with_pinned 0 rn_c) =
    Some (Clause [Lit true (TApp rn_p (TVar 1)) (TVar 2); Lit false (TVar 1) (TVar 2)]
                 [Some (TSym SType0); Some (TApp rn_F (TVar 0)); Some rn_A]) /\
  acyclic (context rn_c) /\ scoped rn_c.
Proof.
  split; [vm_compute; reflexivity|]. split.
  - apply ordered_acyclic. reflexivity.
  - constructor.
    + intros l v [<-|[<-|[]]] H; vm_compute in H; intuition; subst; eexists; reflexivity.
    + intros v d H. do 6 (destruct v as [|v]; [vm_compute in H; try tauto; intuition; subst; eexists; reflexivity|]).
      unfold deps, get_var_type in H. simpl in H. destruct v; simpl in H; tauto.
Qed.

Example compaction_case :
  let f := fun i => match i with 2 => 5 | 5 => 2 | _ => i end in
  let c2 := [None; Some (TSym SType0); Some (TApp rn_F (TVar 1)); None; None; Some rn_A] in
  (forall i j, f i = f j -> i = j) /\
  (forall v, get_var_type c2 (f v) = option_map (rename f) (get_var_type (context rn_c) v)) /\
  map (rename_lit f) (literals rn_c) <> literals rn_c /\ acyclic c2.
Proof.
  split; [|split; [|split]].
  - intros i j. do 7 (destruct i as [|i]; [do 7 (destruct j as [|j]; [congruence|]); congruence|]).
    do 7 (destruct j as [|j]; [congruence|]). congruence.
  - intros v. do 6 (destruct v as [|v]; [reflexivity|]). destruct v; reflexivity.
  - discriminate.
  - apply ordered_acyclic. reflexivity.
Qed.
