(** C58: the declarations of whole projects. *)
From Coq Require Import List Arith Bool.
Import ListNotations.
From Verif Require Import Positivity PositivitySem PositivitySpec P_Positivity ProjectProofs.

(** The types of an accepted project have a common interpretation in which all facts of all declarations hold, whatever the imports are, if no inductive type is within the
    arguments of other datatypes in its own declaration (and the declarations are well formed).  See [imported_variance_refuted] and the others for what can happen otherwise. *)
Theorem accepted_projects_exist : forall ms, accepted ms = true -> plain_modules 0 [] ms = true -> exists J, modules_hold J 0 ms.
Proof.
  intros ms A P. unfold accepted in A. destruct (run_modules [] ms) as [tables|] eqn:RM; [|discriminate].
  destruct (modules_exist ms [] tables [] [] {| data := fun _ _ => unit; family := fun _ _ => unit |} RM P) as (J & _ & H); [constructor|constructor|]. exists J. exact H.
Qed.

(** [inductive Nat { 0   suc(Nat) }   structure Set[T] { contains: T -> Bool }]
    [from nat import Nat, Set   inductive Ord[T] { zero(T)   suc(Ord[T], Set[T])   limit(Nat -> Ord[T]) }   structure Pair[A, B] { first: A   second: Set[Ord[B]] }] *)
Definition ordinals : list (list item) :=
  [[Inductive_ 0 [] [[]; [AData (0, 0) []]]; Structure 1 [0] 0 [AFunction [AArbitrary 0] ABool]];
   [Import 0;
    Inductive_ 0 [7] [[AArbitrary 7]; [AData (1, 0) [AArbitrary 7]; AData (0, 1) [AArbitrary 7]]; [AFunction [AData (0, 0) []] (AData (1, 0) [AArbitrary 7])]];
    Structure 1 [7; 8] 0 [AArbitrary 7; AData (0, 1) [AData (1, 0) [AArbitrary 8]]]]].
Example accepted_projects_exist_case : exists J, modules_hold J 0 ordinals.
Proof. apply accepted_projects_exist; reflexivity. Qed.
(** the inconsistent projects are accepted and not covered, one that is refused satisfies the other condition *)
Example not_covered : plain_modules 0 [] imported_set = false /\ plain_modules 0 [] double_negation = false /\ plain_modules 0 [] family_argument = false.
Proof. repeat split. Qed.
Definition refused : list (list item) := [[Inductive_ 0 [] [[]; [AFunction [AData (0, 0) []] ABool]]]].
Example refused_plain : plain_modules 0 [] refused = true /\ accepted refused = false /\ forall J, ~ modules_hold J 0 refused.
Proof.
  split; [reflexivity|]. split; [reflexivity|]. intros J (H1 & _). inversion H1 as [|? ? IN _]; subst. destruct (IN (fun _ => unit)) as [con F].
  refine (no_predicates_inside (data J (0, 0) []) (fun A => con 1 [AFunction [AData (0, 0) []] ABool] eq_refl (A, tt)) _). intros A B E.
  apply (facts_injective _ _ _ _ _ F) in E. apply (f_equal fst) in E. exact E.
Qed.

Print Assumptions accepted_projects_exist.
