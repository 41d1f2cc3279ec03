(** C61: the search for instances of typeclasses, and inheritance. *)
From Coq Require Import List Arith Bool Lia.
From Verif Require Import TypeMatch TypeMatchSpec TypeMatchProofs InstanceProofs.
Import ListNotations.

(** After any accepted list of declarations, the search finds exactly the instances that follow from the declarations. *)
Theorem instance_search_right : forall l r t c,
  declare_all empty_registry l = Some r ->
  normal t -> (forall q, ~ occurs_variable q t) -> (exists d args, t = EData d args) ->
  (instance_in r t c = true <-> of_class (extends_by l) (declared_by l) t c).
Proof.
  intros l r t c H N G (d & args & ->).
  pose proof (declare_all_fine l _ _ empty_fine H) as F.
  pose proof (declare_all_reflects l _ _ [] empty_fine empty_reflects H) as R. cbn in R.
  rewrite <- (reflects_belongs r l R). split.
  - intros S. eapply search_sound; eassumption.
  - intros B. assert (HG : has_generic (EData d args) = false).
    { destruct (has_generic (EData d args)) eqn:E; [|reflexivity]. apply has_generic_spec in E. destruct E as (q & E). exfalso. exact (G q E). }
    exact (search_complete r F _ _ B N HG (size (EData d args)) (le_n _)).
Qed.

(** A type that belongs to a typeclass belongs to every typeclass that this one extends.  The code checks this only once, for the declared instance
    with arbitrary types for its parameters. *)
Theorem instances_inherit : forall l r t b c,
  declare_all empty_registry l = Some r ->
  of_class (extends_by l) (declared_by l) t c -> extends_by l c b ->
  of_class (extends_by l) (declared_by l) t b.
Proof.
  intros l r t b c H B E.
  pose proof (declare_all_fine l _ _ empty_fine H) as F.
  pose proof (declare_all_reflects l _ _ [] empty_fine empty_reflects H) as R. cbn in R.
  apply (reflects_belongs r l R). apply (reflects_belongs r l R) in B. eapply inherits; [exact F|exact B|]. apply R. exact E.
Qed.

(** The same for the search of the code *)
Theorem search_inherits : forall l r t b c,
  declare_all empty_registry l = Some r ->
  normal t -> (forall q, ~ occurs_variable q t) ->
  instance_in r t c = true -> extends_by l c b -> instance_in r t b = true.
Proof.
  intros l r t b c H N G S E.
  assert (D : exists d args, t = EData d args).
  { unfold instance_in in S. destruct (size t) eqn:Z; [discriminate|]. destruct t; try discriminate. eexists. eexists. reflexivity. }
  apply (instance_search_right l r t b H N G D). eapply instances_inherit; [exact H| |exact E].
  apply (instance_search_right l r t c H N G D). exact S.
Qed.

Print Assumptions instance_search_right.
Print Assumptions instances_inherit.
Print Assumptions search_inherits.

(** * Cases *)

(** Typeclass 1 extends 0, and 2 extends 1.  Datatype 0 (Nat) is an instance of all, and datatype 1 (List) of 0 and 1 if its elements belong to 2.
    [Pair[T: 1, U]] is an instance of 0. *)
Definition T2 := Param 0 (Some 2).
Definition some_declarations :=
  [DClass 0 []; DClass 1 [0]; DClass 2 [1];
   DInstance [] 0 0; DInstance [] 0 1; DInstance [] 0 2;
   DInstance [T2] 1 0; DInstance [T2] 1 1;
   DInstance [Param 0 (Some 1); Param 1 None] 2 0].
Definition some_registry :=
  match declare_all empty_registry some_declarations with Some r => r | None => empty_registry end.

Example declarations_case :
  declare_all empty_registry some_declarations = Some some_registry /\
  instance_in some_registry (EData 1 [EData 0 []]) 1 = true /\
  instance_in some_registry (EData 1 [EData 1 [EData 0 []]]) 0 = false /\
  instance_in some_registry (EData 2 [EData 1 [EData 0 []]; EBool]) 0 = true /\
  instance_in some_registry (EData 2 [EArb (Param 3 (Some 2)); EBool]) 0 = true /\
  instance_in some_registry (EData 2 [EArb (Param 3 (Some 0)); EBool]) 0 = false /\
  extends_by some_declarations 2 0.
Proof.
  split; [vm_compute; reflexivity|]. repeat (split; [vm_compute; reflexivity|]).
  eapply eb_step; [eapply (eb_direct _ 2 [1] 1); cbn; auto 8|eapply (eb_direct _ 1 [0] 0); cbn; auto 8].
Qed.

(** An instance without the instance of an extended typeclass is refused, also if it is only there for other parameters. *)
Example refused_case :
  declare_all empty_registry [DClass 0 []; DClass 1 [0]; DInstance [] 0 1] = None /\
  declare_all empty_registry [DClass 0 []; DClass 1 [0]; DClass 2 []; DInstance [Param 0 (Some 2)] 1 0; DInstance [Param 0 None] 1 1] = None.
Proof. split; vm_compute; reflexivity. Qed.

(** * What does not hold *)

(** The condition on type variables is needed: whether a list of a type variable is an instance depends on the name of the variable. *)
Theorem variable_name_refuted :
  exists l r p q c, declare_all empty_registry l = Some r /\ pclass p = pclass q /\
    of_class (extends_by l) (declared_by l) (EData 1 [EVar p]) c /\
    instance_in r (EData 1 [EVar p]) c = false /\ instance_in r (EData 1 [EVar q]) c = true.
Proof.
  exists some_declarations, some_registry, T2, (Param 7 (Some 2)), 0.
  split; [vm_compute; reflexivity|]. split; [reflexivity|]. split; [|split; vm_compute; reflexivity].
  apply (oc_instance _ _ (EData 1 [EVar T2]) 0 (fun _ => EVar T2)).
  - exists [T2], 1. split; [cbn; auto 10|reflexivity].
  - constructor. constructor; [exact (b_var _ T2)|constructor].
  - intros p a O PC. apply occurs_data in O. destruct O as (x & [<-|[]] & O). inversion O; subst. cbn in PC. injection PC as <-.
    eapply oc_var; [reflexivity|left; reflexivity].
Qed.

Print Assumptions variable_name_refuted.
