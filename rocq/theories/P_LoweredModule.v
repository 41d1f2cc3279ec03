(** C66: the facts that goals of a module are proved from.  The walk of the builder and [visible_fact_ids_for] agree on the facts of each goal, no
    goal uses its own fact or later ones, and if every goal follows from its facts then what the module exports holds. *)
From Coq Require Import List Arith Bool Lia.
Import ListNotations.
From Verif Require Import LoweredModule LoweredModuleProofs.

Section Property.
  Context {F G : Type}.

(** The builder visits every goal of the module once, in the order of their ids, with exactly the facts that [visible_fact_ids_for] lists; for other
    ids there is no list. *)
Theorem builder_uses_visible_facts (ns : list (lnode F G)) items m : lower_nodes true ns empty_module = (items, m) ->
  let log := snd (verify_items true items ([], [])) in
  map fst log = seq 0 (length (l_goals m)) /\
  (forall g V, In (g, V) log <-> visible_fact_ids_for g items = Some V) /\
  (forall g, length (l_goals m) <= g -> visible_fact_ids_for g items = None).
Proof.
  intros E log. destruct (nodes_all ns true empty_module items m E []) as (p & L & V & k & j & A1 & _ & A3 & A4 & A5 & _).
  assert (log = L) as -> by (unfold log; rewrite V; auto). simpl in A1, A3. subst k. split; [auto|].
  assert (K : forall g, ~ In g (map fst L) -> visible_fact_ids_for g items = None) by (intros g Hg; unfold visible_fact_ids_for; rewrite A5; auto).
  split; [|intros g Hg; apply K; rewrite A3, in_seq; lia].
  intros g U. split; [intros Hi; unfold visible_fact_ids_for; rewrite (A4 g U Hi); auto|]. intros Hv.
  destruct (in_dec Nat.eq_dec g (map fst L)) as [Hi|Hi]; [|rewrite K in Hv by auto; discriminate].
  apply in_map_iff in Hi. destruct Hi as ([g' U'] & X & Hi). simpl in X. subst g'. unfold visible_fact_ids_for in Hv. rewrite (A4 g U' Hi) in Hv. congruence.
Qed.

(** The goals are those of the claims of the items; a goal is verified only with facts that come before the fact of its claim. *)
Theorem claims_not_circular (ns : list (lnode F G)) items m : lower_nodes true ns empty_module = (items, m) ->
  Forall2 (fun e c => fst e = fst c /\ forall v, In v (snd e) -> v < snd c) (snd (verify_items true items ([], []))) (flat_map claims items).
Proof.
  intros E. destruct (nodes_all ns true empty_module items m E []) as (p & L & V & k & j & _ & _ & _ & _ & _ & A6).
  rewrite V. apply A6. intros v [].
Qed.

(** If the nodes are as elaboration makes them and every goal follows from the facts it was verified with, then in all worlds of the module every
    fact of the top level holds, and so does everything that other modules import from it. *)
Theorem verified_exports_hold {W} (holdsF : F -> W -> Prop) (holdsG : G -> W -> Prop) inner (D : W -> Prop) (ns : list (lnode F G)) items m :
  scoped holdsF holdsG inner D [] [] ns ->
  lower_nodes true ns empty_module = (items, m) ->
  (forall g V, In (g, V) (snd (verify_items true items ([], []))) -> follows holdsF holdsG m g V) ->
  forall w, D w -> Forall (fun f => holdsF f w) (top_facts ns) /\
    forall id, In id (l_exports m) -> exists f, nth_error (l_facts m) id = Some f /\ In f (top_facts ns) /\ holdsF f w.
Proof.
  intros Hs E Hlog w Dw.
  assert (A : Forall (fun f => holdsF f w) (top_facts ns)).
  { eapply (scoped_sound holdsF holdsG inner D [] [] ns Hs true _ _ _ m [] E); eauto. apply grows_refl. intros b x x' []. }
  split; auto. intros id Hi. destruct (exports_top ns _ _ _ E id Hi) as [[]|(f & H1 & H2)]. exists f. split; [auto|]. split; auto.
  rewrite Forall_forall in A. auto.
Qed.
End Property.

Print Assumptions builder_uses_visible_facts.
Print Assumptions claims_not_circular.
Print Assumptions verified_exports_hold.

(** A module with the axiom that 2 is even, a theorem [forall x, even x -> even (x + 2)] with a block, and a claim that uses both.  The world is the
    value of [x]. *)
Definition case_block : list (lnode (nat -> Prop) (nat -> Prop)) :=
  [NStruct (fun x => Nat.Even x) false; NClaim (fun x => Nat.Even (x + 2)) (fun x => Nat.Even (x + 2)) false].
Definition case_nodes : list (lnode (nat -> Prop) (nat -> Prop)) :=
  [NStruct (fun _ => Nat.Even 2) true;
   NBlock case_block (Some (fun _ => forall x, Nat.Even x -> Nat.Even (x + 2), true));
   NClaim (fun _ => Nat.Even 4) (fun _ => Nat.Even 4) false].
Definition case_items := fst (lower_nodes true case_nodes empty_module).
Definition case_module := snd (lower_nodes true case_nodes empty_module).

Example builder_uses_visible_facts_case :
  lower_nodes true case_nodes empty_module = (case_items, case_module) /\
  snd (verify_items true case_items ([], [])) = [(0, [0; 1]); (1, [0; 3])] /\ l_exports case_module = [0; 3].
Proof. repeat split. Qed.

Example claims_not_circular_case : flat_map claims case_items = [(0, 2); (1, 4)].
Proof. reflexivity. Qed.

Example verified_exports_hold_case :
  let holds := fun (f : nat -> Prop) w => f w in
  scoped holds holds (fun _ _ x' => Nat.Even x') (fun _ => True) [] [] case_nodes /\
  forall g V, In (g, V) (snd (verify_items true case_items ([], []))) -> follows holds holds case_module g V.
Proof.
  split.
  - unfold case_nodes. apply sc_struct; [intros _ _ _; exists 1; auto|]. simpl. apply sc_block.
    + intros w w' _ H _. inversion_clear H as [|? ? H0]. constructor; [exact H0|constructor].
    + unfold case_block. apply sc_struct; [intros w (x & _ & _ & H) _; exact H|]. apply sc_claim; [intros w _ X; exact X|]. apply sc_nil.
    + intros f imp [= <- <-] w _ _ H x Hx. specialize (H case_block x (or_introl eq_refl) Hx). inversion_clear H as [|? ? _ H0]. inversion_clear H0. auto.
    + apply sc_claim; [intros w _ X; exact X|]. apply sc_nil.
  - intros g V [[= <- <-]|[[= <- <-]|[]]]; intros gg [= <-] w H.
    + specialize (H 1 _ (or_intror (or_introl eq_refl)) eq_refl). simpl in H. destruct H as [k ->]. exists (k + 1). lia.
    + pose proof (H 0 _ (or_introl eq_refl) eq_refl) as H2. specialize (H 3 _ (or_intror (or_introl eq_refl)) eq_refl). simpl in H, H2. apply (H 2 H2).
Qed.
