(** C58: inductive types that pass the positivity check. *)
From Coq Require Import List Arith Bool FunctionalExtensionality.
Import ListNotations.
From Verif Require Import Positivity PositivitySem PositivitySpec Containers PositivityProofs PositivityPoly.

(** An accepted declaration has a model: whatever the other datatypes are, there is an interpretation of the new type, for all types that its parameters
    stand for, in which all facts about its constructors hold.  The new type has to occur at its own parameters only and outside of families, and a
    datatype that is applied to the new type has to be given by shapes and places at the positions that the table calls positive. *)
Theorem accepted_inductive_types_exist : forall m tb n ps ctors tb',
  add_inductive m tb n ps ctors = Some tb' ->
  forallb (forallb (closed ps)) ctors = true ->
  forallb (forallb (regular (own_type m n ps))) ctors = true ->
  forallb (forallb (outside_families (m, n))) ctors = true ->
  forallb (forallb (arities tb')) ctors = true ->
  forall I : interpretation,
  (forall e, existsb (existsb (nests (own_type m n ps) e)) ctors = true -> filled (data I e) (positions tb' e)) ->
  exists J, (forall e, e <> (m, n) -> data J e = data I e) /\ family J = family I /\ item_holds J m (Inductive_ n ps ctors).
Proof.
  intros m tb n ps ctors tb' H C R O A I N. unfold add_inductive in H. destruct (has_base _ _ && _) eqn:B in H; [|discriminate]. injection H as H. rewrite H in B.
  apply andb_prop in B. destruct B as [_ SP].
  assert (F : forallb (forallb (fine tb' m n ps)) ctors = true).
  { apply forallb_forall. intros ts I1. apply forallb_forall. intros t I2. rewrite forallb_forall in R, O, A. apply R in I1 as R1. apply O in I1 as O1. apply A in I1 as A1.
    rewrite forallb_forall in R1, O1, A1. unfold fine. rewrite R1, O1, A1 by auto. reflexivity. }
  exists (with_inductive tb' m n ps I ctors N F SP). split; [|split].
  - intros e NE. cbn [with_inductive data]. destruct (datatype_eq_dec e (m, n)); [contradiction|reflexivity].
  - reflexivity.
  - intros E. apply poly_exists. exact C.
Qed.

(** without datatypes around the new type no condition on the other datatypes is left *)
Theorem accepted_plain_types_exist : forall m tb n ps ctors tb',
  add_inductive m tb n ps ctors = Some tb' ->
  forallb (forallb (closed ps)) ctors = true ->
  forallb (forallb (regular (own_type m n ps))) ctors = true ->
  forallb (forallb (outside_families (m, n))) ctors = true ->
  forallb (forallb (arities tb')) ctors = true ->
  (forall e, existsb (existsb (nests (own_type m n ps) e)) ctors = false) ->
  forall I : interpretation,
  exists J, (forall e, e <> (m, n) -> data J e = data I e) /\ family J = family I /\ item_holds J m (Inductive_ n ps ctors).
Proof.
  intros m tb n ps ctors tb' H C R O A N I. eapply accepted_inductive_types_exist; eauto. intros e He. rewrite N in He. discriminate.
Qed.

(** [inductive Ord { zero   suc(Ord)   limit(Nat -> Ord) }] *)
Definition ord_ctors : list (list atype) := [[]; [AData (0, 1) []]; [AFunction [AData (0, 0) []] (AData (0, 1) [])]].
Example accepted_plain_types_exist_case : forall I, exists J, data J (0, 0) = data I (0, 0) /\ item_holds J 0 (Inductive_ 1 [] ord_ctors).
Proof.
  intros I. destruct (accepted_plain_types_exist 0 [] 1 [] ord_ctors _ eq_refl eq_refl eq_refl eq_refl eq_refl) with (I := I) as (J & HJ & _ & H).
  - intros e. unfold ord_ctors. cbn [existsb nests]. rewrite !andb_false_r. reflexivity.
  - exists J. split; auto. apply HJ. discriminate.
Qed.

(** [inductive Tree[T] { leaf(T)   node(Nat -> Option[Tree[T]], Tree[T], Nat) }] after [inductive Option[T] { none   some(T) }] and [type Nat: axiom] *)
Definition option_nat : interpretation :=
  {| data := fun e L => if datatype_eq_dec e (0, 0) then option (nth 0 L unit) else nat; family := fun _ _ => unit |}.
Definition option_table : table := [((0, 0), Some [VPositive])].
Definition tree_ctors : list (list atype) :=
  [[AArbitrary 0]; [AFunction [AData (0, 2) []] (AData (0, 0) [AData (0, 1) [AArbitrary 0]]); AData (0, 1) [AArbitrary 0]; AData (0, 2) []]].
Lemma option_argument pos L : pos 0 = true -> nth 0 (keep pos 0 L) unit = nth 0 L unit.
Proof. intros P. rewrite keep_nth. simpl. rewrite P. reflexivity. Qed.
Definition option_place (b : bool) (i : nat) : Type := if b then match i with 0 => unit | S _ => Empty_set end else Empty_set.
Definition option_none (G : nat -> Type) (ip : {i : nat & option_place false i}) : G (projT1 ip) := match projT2 ip with end.
Definition option_some (G : nat -> Type) (x : G 0) (ip : {i : nat & option_place true i}) : G (projT1 ip) :=
  match ip with existT _ i p => match i as j return option_place true j -> G j with 0 => fun _ => x | S _ => fun q => match q with end end p end.
Definition option_filled pos (P : pos 0 = true) : filled (data option_nat (0, 0)) pos.
Proof.
  refine {| dshape := fun _ => bool; dplace := fun _ b i => option_place b i;
    dto := fun L (v : option (nth 0 L unit)) => match v with
      | None => existT (fun b : bool => forall ip : {i : nat & option_place b i}, nth (projT1 ip) (keep pos 0 L) unit) false (option_none (fun i => nth i (keep pos 0 L) unit))
      | Some x => existT _ true (option_some (fun i => nth i (keep pos 0 L) unit) (uncast (option_argument pos L P) x)) end;
    dfrom := fun L v => match v with
      | existT _ true f => Some (cast (option_argument pos L P) (f (existT _ 0 tt)))
      | existT _ false _ => None end |}.
  - intros L [x|]; [|reflexivity]. cbn [option_some]. rewrite cast_uncast. reflexivity.
  - intros L [[] f]; f_equal; apply functional_extensionality_dep; intros [i p]; [|destruct p].
    destruct i; [|destruct p]. destruct p. cbn [option_some]. apply uncast_cast.
Defined.
Lemma tree_nests e : existsb (existsb (nests (own_type 0 1 [0]) e)) tree_ctors = true -> e = (0, 0).
Proof.
  destruct (datatype_eqb (0, 0) e) eqn:Q; [apply datatype_eqb_eq in Q; auto|]. unfold tree_ctors, own_type. cbn [existsb nests map]. rewrite Q.
  change (contains (AData (0, 1) [AArbitrary 0]) (AArbitrary 0)) with false. cbn [orb andb]. rewrite !andb_false_r. discriminate.
Qed.
Example accepted_inductive_types_exist_case : exists J, data J (0, 0) = data option_nat (0, 0) /\ item_holds J 0 (Inductive_ 1 [0] tree_ctors).
Proof.
  destruct (accepted_inductive_types_exist 0 option_table 1 [0] tree_ctors _ eq_refl eq_refl eq_refl eq_refl eq_refl option_nat) as (J & HJ & _ & H).
  - intros e He. rewrite (tree_nests e He). apply option_filled. reflexivity.
  - exists J. split; auto. apply HJ. discriminate.
Qed.
Example accepted_inductive_types_exist_case_accepted : exists tb', add_inductive 0 option_table 1 [0] tree_ctors = Some tb' /\ look tb' (0, 1) = Some [VPositive].
Proof. eexists. split; reflexivity. Qed.

(** a type cannot contain a different element for every predicate on it *)
Lemma no_predicates_inside (D : Type) (i : (D -> Prop) -> D) : (forall A B, i A = i B -> A = B) -> False.
Proof.
  intros H. set (R := fun d => exists A, i A = d /\ ~ A d).
  assert (N : ~ R (i R)). { intros (A & E & N). apply N. rewrite (H A R E). exists A. auto. }
  apply N. exists R. auto.
Qed.

(** A structure with a negative parameter, defined in another module:
    module 0: [structure Set[T] { contains: T -> Bool }]; module 1: [from set import Set   inductive Bad { base   rec(Set[Bad]) }]. *)
Definition imported_set : list (list item) :=
  [[Structure 0 [0] 0 [AFunction [AArbitrary 0] ABool]];
   [Import 0; Inductive_ 0 [] [[]; [AData (0, 0) [AData (1, 0) []]]]]].
(** the same in one module is refused *)
Definition local_set : list (list item) :=
  [[Structure 0 [0] 0 [AFunction [AArbitrary 0] ABool]; Inductive_ 1 [] [[]; [AData (0, 0) [AData (0, 1) []]]]]].
Example local_set_refused : accepted local_set = false. Proof. reflexivity. Qed.

(** Two negative positions make a positive one, but not a strictly positive one:
    [structure Search[T] { find: (T -> Bool) -> Bool }   inductive Bad { base   rec(Search[Bad]) }]. *)
Definition double_negation : list (list item) :=
  [[Structure 0 [0] 0 [AFunction [AFunction [AArbitrary 0] ABool] ABool]; Inductive_ 1 [] [[]; [AData (0, 0) [AData (0, 1) []]]]]].
(** the type written out is refused *)
Example double_negation_refused : accepted [[Inductive_ 1 [] [[]; [AFunction [AFunction [AData (0, 1) []] ABool] ABool]]]] = false. Proof. reflexivity. Qed.

(** The arguments of a family are not checked:
    [structure Pred[T, b: Bool] { holds: T -> Bool }   inductive Bad { base   rec(Pred[Bad, true]) }]. *)
Definition family_argument : list (list item) :=
  [[Structure 0 [0] 1 [AFunction [AArbitrary 0] ABool]; Inductive_ 1 [] [[]; [AFamily (0, 0) [TyArg (AData (0, 1) []); ValArg 0]]]]].

Theorem imported_variance_refuted : accepted imported_set = true /\ forall J, ~ modules_hold J 0 imported_set.
Proof.
  split; [reflexivity|]. intros J (H1 & H2 & _). inversion H1 as [|? ? ST _]; subst. inversion H2 as [|? ? _ H3]; subst. inversion H3 as [|? ? IN _]; subst.
  destruct (IN (fun _ => unit)) as [con F]. set (D := data J (1, 0) []). destruct (ST (fun _ => D) [] eq_refl) as (new & parts & PN & _).
  refine (no_predicates_inside D (fun A => con 1 [AData (0, 0) [AData (1, 0) []]] eq_refl (new (A, tt), tt)) _). intros A B E.
  apply (facts_injective _ _ _ _ _ F) in E. assert (E' : new (A, tt) = new (B, tt)) by (change (fst (new (A, tt), tt) = fst (new (B, tt), tt)); rewrite E; reflexivity).
  apply (f_equal parts) in E'. rewrite !PN in E'. injection E' as ->. reflexivity.
Qed.

Theorem double_negation_refuted : accepted double_negation = true /\ forall J, ~ modules_hold J 0 double_negation.
Proof.
  split; [reflexivity|]. intros J (H1 & _). inversion H1 as [|? ? ST H3]; subst. inversion H3 as [|? ? IN _]; subst.
  destruct (IN (fun _ => unit)) as [con F]. set (D := data J (0, 1) []). destruct (ST (fun _ => D) [] eq_refl) as (new & parts & PN & _).
  refine (no_predicates_inside D (fun A => con 1 [AData (0, 0) [AData (0, 1) []]] eq_refl (new (fun B => B = A, tt), tt)) _). intros A B E.
  apply (facts_injective _ _ _ _ _ F) in E. assert (E' : new (fun C => C = A, tt) = new (fun C => C = B, tt)) by (change (fst (new (fun C => C = A, tt), tt) = fst (new (fun C => C = B, tt), tt)); rewrite E; reflexivity).
  apply (f_equal parts) in E'. rewrite !PN in E'. apply (f_equal fst) in E'. apply (f_equal (fun f => f A)) in E'. cbn in E'. rewrite <- E'. reflexivity.
Qed.

Theorem family_argument_refuted : accepted family_argument = true /\ forall J, ~ modules_hold J 0 family_argument.
Proof.
  split; [reflexivity|]. intros J (H1 & _). inversion H1 as [|? ? ST H3]; subst. inversion H3 as [|? ? IN _]; subst.
  destruct (IN (fun _ => unit)) as [con F]. set (D := data J (0, 1) []). destruct (ST (fun _ => D) [0] eq_refl) as (new & parts & PN & _).
  refine (no_predicates_inside D (fun A => con 1 [AFamily (0, 0) [TyArg (AData (0, 1) []); ValArg 0]] eq_refl (new (A, tt), tt)) _). intros A B E.
  apply (facts_injective _ _ _ _ _ F) in E. assert (E' : new (A, tt) = new (B, tt)) by (change (fst (new (A, tt), tt) = fst (new (B, tt), tt)); rewrite E; reflexivity).
  apply (f_equal parts) in E'. rewrite !PN in E'. injection E' as ->. reflexivity.
Qed.

Print Assumptions accepted_inductive_types_exist.
Print Assumptions accepted_plain_types_exist.
Print Assumptions imported_variance_refuted.
Print Assumptions double_negation_refuted.
Print Assumptions family_argument_refuted.
