(** C60: matching of types and inference of type arguments. *)
From Coq Require Import List Arith Bool Lia.
From Verif Require Import TypeMatch TypeMatchSpec TypeMatchProofs TypeInferProofs.
Import ListNotations.

(** A successful match extends the mapping, maps every parameter of the generic type, and the mapping turns the generic type into the instance.
    This holds for every registry of instances. *)
Theorem matching_right : forall is_instance extends g i m m',
  normal g -> normal i -> match_types is_instance extends g i m = Some m' ->
  (forall k t, look m k = Some t -> look m' k = Some t) /\
  exists s,
    (forall p, occurs p g -> look m' (pname p) = Some (s (pname p))) /\
    becomes s g i /\
    instantiate m' g = i.
Proof.
  intros is_instance extends g i m m' Ng Ni H.
  destruct (match_types_sound _ _ _ _ _ _ Ng Ni H) as ((A1 & A2 & A3) & B).
  split; [exact A1|]. exists (value_of m').
  assert (L : forall p, occurs p g -> look m' (pname p) = Some (value_of m' (pname p))).
  { intros p O. specialize (A2 p g eq_refl O). unfold value_of. destruct (look m' (pname p)); [reflexivity|contradiction]. }
  specialize (B m' (within_refl m')).
  split; [exact L|]. split; [|exact B].
  apply becomes_rep; [exact Ng|]. rewrite <- B. symmetry. apply instantiate_rep. exact L.
Qed.

(** What a parameter is mapped to belongs to its typeclass. *)
Theorem matching_respects_classes : forall is_instance extends g i m,
  normal g -> normal i -> (forall p q, occurs p g -> occurs q g -> pname p = pname q -> p = q) ->
  match_types is_instance extends g i [] = Some m ->
  forall p, occurs p g -> exists t, look m (pname p) = Some t /\ allowed is_instance extends p t.
Proof.
  intros is_instance extends g i m Ng Ni U H p O.
  destruct (match_types_sound _ _ _ _ _ _ Ng Ni H) as ((A1 & A2 & A3) & B).
  specialize (A2 p g eq_refl O). destruct (look m (pname p)) as [t|] eqn:E; [|contradiction].
  exists t. split; [reflexivity|]. apply A3 in E. destruct E as [E|(q & h & <- & O' & Q & F & _)]; [discriminate|].
  rewrite (U q p O' O Q) in F. apply fits_spec in F. exact F.
Qed.

(** Whenever types for the parameters exist, with the typeclasses respected, the match finds them.  The types must not contain the parameter
    they are given for. *)
Theorem matching_finds : forall is_instance extends g i s,
  normal g -> becomes s g i ->
  (forall p, occurs p g -> normal (s (pname p)) /\ allowed is_instance extends p (s (pname p))) ->
  (forall p q, occurs_variable p g -> occurs_variable q (s (pname p)) -> pname q <> pname p) ->
  (forall p, occurs_arbitrary p g -> occurs_arbitrary p (s (pname p)) -> s (pname p) = EArb p) ->
  exists m, match_types is_instance extends g i [] = Some m /\ forall p, occurs p g -> look m (pname p) = Some (s (pname p)).
Proof.
  intros is_instance extends g i s Ng HB HP HV HAr.
  apply (becomes_rep s g Ng) in HB. subst i.
  destruct (match_types_complete is_instance extends s g []) as (m & E & A).
  - exact Ng.
  - split; [|split].
    + intros p O. destruct (HP p O) as (X & Y). split; [exact X|apply fits_spec; exact Y].
    + intros p O. destruct (has_variable (pname p) (s (pname p))) eqn:V; [|reflexivity].
      apply has_variable_spec in V. destruct V as (q & V1 & V2). exfalso. exact (HV p q O V2 V1).
    + intros p O. destruct (has_arbitrary_param p (s (pname p))) eqn:V; [|right; reflexivity].
      apply has_arbitrary_spec in V. left. exact (HAr p O V).
  - intros k t [=].
  - exists m. split; [exact E|]. intros p O.
    assert (NI : normal (rep s g)) by (apply normal_rep; [exact Ng|intros q Hq; apply HP; exact Hq]).
    destruct (match_types_sound _ _ _ _ _ _ Ng NI E) as ((_ & M & _) & _).
    specialize (M p g eq_refl O). destruct (look m (pname p)) as [t|] eqn:L; [|contradiction].
    rewrite (A _ _ L). reflexivity.
Qed.

(** The value that inference builds is well typed, although the arguments are not checked again: the type arguments respect the typeclasses,
    the arguments have the types that the function takes, and the result has the type that was expected.  [get_type] does not panic. *)
Theorem inference_well_typed : forall is_instance extends u args expected,
  normal (ugeneric u) -> Forall normal (uargs u ++ args) -> (forall e, expected = Some e -> normal e) ->
  (forall p, occurs p (ugeneric u) -> In (pname p) (map pname (uparams u))) ->
  infer is_instance extends u args expected <> Panicked /\
  forall ts t, infer is_instance extends u args expected = Resolved ts t ->
    length ts = length (uparams u) /\
    (forall p a, In (p, a) (combine (uparams u) ts) -> allowed is_instance extends p a) /\
    (forall a q, In a ts -> ~ occurs_variable q a) /\
    (exists f, becomes (given (uparams u) ts) (ugeneric u) f /\ applies f (uargs u ++ args) t) /\
    (forall e, expected = Some e -> t = e).
Proof.
  intros is_instance extends u args expected N NA NE C.
  destruct (infer_sound is_instance extends u args expected N NA NE C) as (P & R). split; [exact P|].
  intros ts t H. destruct (R ts t H) as (R1 & R2 & R3 & R4 & R5).
  split; [exact R1|]. split; [|split; [|split]].
  - intros p a HI. apply fits_spec. apply R2. exact HI.
  - intros a q HI O. rewrite Forall_forall in R3. specialize (R3 a HI).
    assert (has_generic a = true) by (apply has_generic_spec; exists q; exact O). congruence.
  - exists (rep (given (uparams u) ts) (ugeneric u)). split; [apply becomes_rep; [exact N|reflexivity]|exact R4].
  - exact R5.
Qed.

(** If there are type arguments for which the application is well typed, inference does not fail: it finds them, or it waits for more arguments.
    It finds them if every parameter occurs in the types of the arguments that are given, or anywhere when the type of the result is expected. *)
Theorem inference_finds : forall is_instance extends u args expected ts f t,
  normal (ugeneric u) -> NoDup (map pname (uparams u)) ->
  (forall p, occurs p (ugeneric u) -> In p (uparams u)) ->
  (forall p, ~ occurs_arbitrary p (ugeneric u)) ->
  length (uargs u ++ args) <= arity (ugeneric u) ->
  length ts = length (uparams u) ->
  (forall a, In a ts -> normal a /\ forall q, ~ occurs_variable q a) ->
  (forall p a, In (p, a) (combine (uparams u) ts) -> allowed is_instance extends p a) ->
  becomes (given (uparams u) ts) (ugeneric u) f -> applies f (uargs u ++ args) t ->
  expected = None \/ expected = Some t ->
  (infer is_instance extends u args expected = Resolved ts t \/
   infer is_instance extends u args expected = StillUnresolved (Unresolved (uparams u) (ugeneric u) (uargs u ++ args))) /\
  ((forall p, In p (uparams u) ->
      (exists h, In h (first_args (ugeneric u) (length (uargs u ++ args))) /\ occurs p h) \/
      (expected <> None /\ occurs p (ugeneric u))) ->
   infer is_instance extends u args expected = Resolved ts t).
Proof.
  intros is_instance extends u args expected ts f t N ND C NoArb HL L HT HF HB HA HE.
  apply (becomes_rep _ _ N) in HB. subst f.
  apply infer_complete; try assumption.
  - rewrite Forall_forall. intros a Ha. destruct (HT a Ha) as (X & Y). split; [exact X|].
    destruct (has_generic a) eqn:G; [|reflexivity]. apply has_generic_spec in G. destruct G as (q & G). exfalso. exact (Y q G).
  - intros p a HI. apply fits_spec. exact (HF p a HI).
  - intros e ->. destruct HE as [HE|HE]; congruence.
Qed.

Print Assumptions matching_right.
Print Assumptions matching_respects_classes.
Print Assumptions matching_finds.
Print Assumptions inference_well_typed.
Print Assumptions inference_finds.

(** * Cases *)

(** Datatypes: 0 is Nat, 1 is List.  Typeclass 0 has the instance Nat. *)
Definition nat_t := EData 0 [].
Definition list_t t := EData 1 [t].
Definition some_instances (t : ety) (c : nat) : bool := ety_eqb t nat_t && (c =? 0).
Definition no_extends (a b : nat) : bool := false.
Definition T := Param 0 None.
Definition U := Param 1 None.
Definition TC := Param 0 (Some 0).

(** The generic type [(T, List[T]) -> U] and the instance [(Nat, List[Nat], Bool) -> Nat]: [U] becomes [Bool -> Nat]. *)
Example matching_case :
  let g := EFun [EVar T; list_t (EVar T)] (EVar U) in
  let i := EFun [nat_t; list_t nat_t; EBool] nat_t in
  normal g /\ normal i /\
  match_types some_instances no_extends g i [] = Some [(1, EFun [EBool] nat_t); (0, nat_t)] /\
  becomes (given [T; U] [nat_t; EFun [EBool] nat_t]) g i.
Proof.
  cbn -[nat_t list_t]. split; [|split; [|split; [vm_compute; reflexivity|]]].
  - repeat (constructor || discriminate).
  - repeat (constructor || discriminate).
  - apply (b_curried _ _ [nat_t; list_t nat_t] _ [EBool] nat_t).
    + constructor; [exact (b_var _ T)|]. constructor; [|constructor]. constructor. constructor; [exact (b_var _ T)|constructor].
    + exact (b_var _ U).
Qed.

(** A type without the instance is refused, one with it is accepted. *)
Example class_case :
  match_types some_instances no_extends (list_t (EVar TC)) (list_t nat_t) [] = Some [(0, nat_t)] /\
  match_types some_instances no_extends (list_t (EVar TC)) (list_t (list_t nat_t)) [] = None /\
  match_types some_instances no_extends (list_t (EVar TC)) (list_t (EArb (Param 5 None))) [] = None /\
  match_types some_instances no_extends (list_t (EVar TC)) (list_t (EArb (Param 5 (Some 0)))) [] = Some [(0, EArb (Param 5 (Some 0)))].
Proof. repeat split; vm_compute; reflexivity. Qed.

(** [map : (List[T], T -> U) -> List[U]], applied to a list of numbers and a predicate, then to the list alone *)
Definition map_u := Unresolved [T; U] (EFun [list_t (EVar T); EFun [EVar T] (EVar U)] (list_t (EVar U))) [].
Example inference_case :
  infer some_instances no_extends map_u [list_t nat_t; EFun [nat_t] EBool] None = Resolved [nat_t; EBool] (list_t EBool) /\
  infer some_instances no_extends map_u [list_t nat_t] None = StillUnresolved (Unresolved (uparams map_u) (ugeneric map_u) [list_t nat_t]) /\
  infer some_instances no_extends map_u [list_t nat_t] (Some (EFun [EFun [nat_t] EBool] (list_t EBool))) =
    Resolved [nat_t; EBool] (EFun [EFun [nat_t] EBool] (list_t EBool)) /\
  infer some_instances no_extends map_u [list_t nat_t; EFun [EBool] EBool] None = Failed.
Proof. repeat split; vm_compute; reflexivity. Qed.

Example inference_case_hypotheses :
  normal (ugeneric map_u) /\ NoDup (map pname (uparams map_u)) /\
  (forall p, occurs p (ugeneric map_u) -> In p (uparams map_u)) /\
  (forall p, ~ occurs_arbitrary p (ugeneric map_u)).
Proof.
  split; [|split; [|split]].
  - repeat (constructor || discriminate).
  - repeat constructor; cbn; intuition discriminate.
  - intros p O. cbn. repeat match goal with
      | H : False |- _ => destruct H
      | H : _ \/ _ |- _ => destruct H; subst
      | H : occurs _ _ |- _ => inversion H; subst; clear H; cbn in *
      end; auto.
  - intros p O. cbn in *. repeat match goal with
      | H : False |- _ => destruct H
      | H : _ \/ _ |- _ => destruct H; subst
      | H : occurs_arbitrary _ _ |- _ => inversion H; subst; clear H; cbn in *
      end.
Qed.

(** * What does not hold *)

(** Inference counts the arguments that the generic type shows: the identity, applied to a function and an argument for that function, is refused,
    although the application is well typed. *)
Theorem more_arguments_refuted :
  exists u args ts f t,
    normal (ugeneric u) /\ length ts = length (uparams u) /\
    becomes (given (uparams u) ts) (ugeneric u) f /\ applies f (uargs u ++ args) t /\
    infer some_instances no_extends u args None = Failed.
Proof.
  exists (Unresolved [T] (EFun [EVar T] (EVar T)) []), [EFun [nat_t] EBool; nat_t], [EFun [nat_t] EBool].
  exists (EFun [EFun [nat_t] EBool; nat_t] EBool), EBool.
  split; [repeat (constructor || discriminate)|]. split; [reflexivity|]. split; [|split; [|vm_compute; reflexivity]].
  - apply (b_curried _ _ [EFun [nat_t] EBool] _ [nat_t] EBool).
    + constructor; [exact (b_var _ T)|constructor].
    + exact (b_var _ T).
  - cbn. apply ap_more. apply ap_last. apply ap_none.
Qed.

(** The condition on the parameters of [inference_well_typed] is needed: an arbitrary type of the generic type that is not among the parameters is
    matched with anything, but it is not replaced, and the arguments do not fit.  (No such constant is declared: definitions with type
    parameters are refused inside of blocks.) *)
Theorem foreign_arbitrary_refuted :
  exists u args ts t,
    normal (ugeneric u) /\ Forall normal (uargs u ++ args) /\
    infer some_instances no_extends u args None = Resolved ts t /\
    ~ applies (instantiate (named (uparams u) ts) (ugeneric u)) (uargs u ++ args) t.
Proof.
  exists (Unresolved [T] (EFun [EVar T; EArb U] EBool) []), [nat_t; nat_t], [nat_t], EBool.
  split; [repeat (constructor || discriminate)|]. split; [repeat constructor|]. split; [vm_compute; reflexivity|].
  vm_compute. intros HA. inversion HA as [| |? ? ? ? ? ? HA']; subst. inversion HA'.
Qed.

(** The condition on variables in [matching_finds] is needed: a type variable is not matched with a type that contains a variable of the same name,
    not even with itself. *)
Theorem own_variable_refuted :
  exists g i s, normal g /\ normal i /\ becomes s g i /\
    (forall p, occurs p g -> allowed some_instances no_extends p (s (pname p))) /\
    match_types some_instances no_extends g i [] = None.
Proof.
  exists (EVar T), (EVar T), (fun _ => EVar T). split; [constructor|]. split; [constructor|]. split; [exact (b_var _ T)|].
  split; [|vm_compute; reflexivity]. intros p O c Hc. inversion O; subst. discriminate.
Qed.

Print Assumptions more_arguments_refuted.
Print Assumptions foreign_arbitrary_refuted.
Print Assumptions own_variable_refuted.
