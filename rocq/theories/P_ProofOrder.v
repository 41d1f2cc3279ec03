(** Property C23: the order suggested by [unit_support_order]. *)
From Coq Require Import List Arith Lia Bool Permutation.
Import ListNotations.
From Verif Require Import ProofOrder ProofOrderProofs.

(** The loop always terminates within one iteration per clause. *)
Theorem support_order_terminates :
  forall (A : Type) (eqb : A -> A -> bool), (forall x y, eqb x y = true <-> x = y) ->
  forall cs, unit_support_order eqb cs <> OutOfFuel.
Proof. intros A eqb H cs. exact (unit_support_order_fuel eqb H cs). Qed.
Print Assumptions support_order_terminates.

(** Nothing is returned exactly when no clause is listed after a clause it supports. *)
Theorem support_order_none_iff_already_ordered :
  forall (A : Type) (eqb : A -> A -> bool), (forall x y, eqb x y = true <-> x = y) ->
  forall cs, unit_support_order eqb cs = NoOrder <-> (forall s d, ~ late_support cs s d).
Proof. intros A eqb H cs. exact (unit_support_order_none eqb H cs). Qed.
Print Assumptions support_order_none_iff_already_ordered.

(** A returned order lists every clause once, every late support of a clause precedes it, and
    apart from that the original order is kept: a clause is overtaken by a later one only
    while one of its own supports is still missing. *)
Theorem support_order_is_correct :
  forall (A : Type) (eqb : A -> A -> bool), (forall x y, eqb x y = true <-> x = y) ->
  forall cs out, unit_support_order eqb cs = Order out ->
  Permutation out (seq 0 (length cs)) /\
  (forall k i, nth_error out k = Some i ->
    (forall s, late_support cs s i -> In s (firstn k out)) /\
    (forall j, j < i -> ~ In j (firstn k out) ->
       exists s, late_support cs s j /\ ~ In s (firstn k out))).
Proof. intros A eqb H cs out. exact (unit_support_order_some eqb H cs out). Qed.
Print Assumptions support_order_is_correct.

(** ¬a ∨ b;  c;  a : the unit a moves ahead of the implication it feeds, and c, which waits
    for nothing, also comes first.  The second list is already ordered. *)
Example support_order_is_correct_case :
  unit_support_order Nat.eqb [[Lit false 0; Lit true 1]; [Lit true 2]; [Lit true 0]] = Order [1; 2; 0]
  /\ unit_support_order Nat.eqb [[Lit true 0]; [Lit false 0; Lit true 1]] = NoOrder
  /\ late_support [[Lit false 0; Lit true 1]; [Lit true 2]; [Lit true 0]] 2 0.
Proof.
  split; [reflexivity|]. split; [reflexivity|]. split; [lia|].
  exists [Lit false 0; Lit true 1], [Lit true 0]. split; [reflexivity|]. split; [reflexivity|].
  left. split; [simpl; lia|]. exists (Lit false 0). simpl. auto.
Qed.
