(** C21: a type taken to be inhabited has an element in every interpretation. *)
From Coq Require Import List Arith NArith Bool Lia.
Import ListNotations.
From Verif Require Import Term LocalContext Semantics TermProofs FiniteModel Typing TypingProofs FiniteTyping EqualityGraph Inhabited InhabitedProofs.
From Verif Require Import Literal Clause ClauseSem ClauseProofs TermNormProofs CheckerProofs.

(** What the type store says is so in the interpretation: classes with the instances, base classes and arbitrary
    types that are declared; no type is a function. *)
Record store_true (M : Model) (K : kctx) (ts : store) : Prop := {
  t_base : forall tc b A, In b (bases ts tc) -> mem M A (dsym M (tclass tc)) -> mem M A (dsym M (tclass b));
  t_extends : forall tc b A, k_extends K tc b = true -> mem M A (dsym M (tclass tc)) -> mem M A (dsym M (tclass b));
  t_instance : forall tc g, instance_of ts tc = Some g -> mem M (dsym M (tground g)) (dsym M (tclass tc));
  t_arbitrary : forall g tc, arbitrary_class ts g = Some tc -> mem M (dsym M (tground g)) (dsym M (tclass tc));
  t_nofun : forall s A x, is_type_param_kind (TSym s) = true -> mem M A (dsym M s) -> ~ appok M A x
}.
(** a base class with an instance has one for the class itself *)
Definition own_instances (ts : store) : Prop :=
  forall tc b g, In b (bases ts tc) -> instance_of ts b = Some g -> instance_of ts tc <> None.
Lemma store_true_right M K ts : store_true M K ts -> own_instances ts -> store_right M K ts.
Proof.
  intros [A B C D E] O. constructor; auto. intros tc g H. unfold class_instance in H. cbn [some_first fold_right] in H.
  destruct (instance_of ts tc) as [g'|] eqn:E1; [injection H as <-; auto|]. apply some_first_in in H. destruct H as (b & Hb & Hg).
  destruct (O tc b g Hb Hg E1).
Qed.

(** ** The element that is found is one
    for every interpretation of symbols and classes, context and assignment, however the tables were filled *)
Theorem found_inhabitant_is_element_partial : forall M K ts ss al n c T w rho,
  respects M K -> store_true M K ts -> own_instances ts -> Forall (regular K) ss ->
  lc T -> ty T = true \/ is_type_param_kind T = true -> wt M rho T ->
  match c with Some c => valid_env M c rho | None => True end ->
  find_inhabitant K (record_all K ss) ts al n c [] T = Ok (Some w) -> mem M (ev M rho w) (ev M rho T).
Proof.
  intros M K ts ss al n c T w rho R S O G L F W V E.
  refine (find_inhabitant_sound M K _ ts al R (record_all_right K ss G) (store_true_right M K ts S O) (fun _ => True) n c [] T w rho _ L _ W E).
  - destruct c; simpl; auto.
  - unfold covered, tv. destruct F; auto.
Qed.
Print Assumptions found_inhabitant_is_element_partial.

(** ** A type taken to be inhabited is
    Of the context only the variables of the type count: the erased variable itself is no witness.
    Missing: classes as types, type variables of a class without a provider, and irregular symbols; there it fails, see below. *)
Theorem provably_inhabited_sound_partial : forall M K ts ss al n c T,
  respects M K -> store_true M K ts -> own_instances ts -> Forall (regular K) ss ->
  lc T -> ty T = true -> (forall rho, wt M rho T) ->
  (forall i, T = TVar i -> get_var_type c i = Some type0 \/
     exists tc, get_var_type c i = Some (TSym (tclass tc)) /\ class_provider (record_all K ss) ts tc <> None) ->
  provably_inhabited K (record_all K ss) ts al n T (Some c) = Ok true -> inhabited_at M c T.
Proof.
  intros M K ts ss al n c T R S O G L F W NG E rho V.
  assert (Found : forall w, find_inhabitant K (record_all K ss) ts al n (Some c) [] T = Ok (Some w) -> exists d, mem M d (ev M rho T)).
  { intros w Ew. exists (ev M rho w).
    refine (find_inhabitant_sound M K _ ts al R (record_all_right K ss G) (store_true_right M K ts S O) (fun i => In i (vars T)) n (Some c) [] T w rho _ L _ (W rho) Ew).
    - intros i U Hi HU. apply V; auto. eapply rel_left; [left; reflexivity|exact Hi].
    - left. split; auto. intros i Hi; exact Hi. }
  unfold provably_inhabited in E.
  destruct (find_inhabitant K (record_all K ss) ts al n (Some c) [] T) as [[w|]| |] eqn:Ef; cbn [rbind] in E; try discriminate; [eauto|].
  exfalso. destruct n as [|n]; [discriminate|].
  destruct T as [[i|i|s]|f a|k A B]; cbn [class_of rbind] in E; try discriminate.
  - destruct (NG i eq_refl) as [Hi|(tc & Hi & Hp)].
    + rewrite Hi in E. destruct n; discriminate.
    + cbn [find_inhabitant existsb] in Ef. unfold find_other, constraint_of in Ef. cbn [head_atom] in Ef. rewrite Hi in Ef.
      destruct tc as [m j]. unfold tclass in Ef. cbn [fst snd] in Ef. destruct (class_provider (record_all K ss) ts (m, j)); [discriminate|congruence].
  - destruct s; cbn [rbind] in E; discriminate.
Qed.
Print Assumptions provably_inhabited_sound_partial.

(** ** Concrete case *)
Definition ih_U := TSym (SType 0 0).
Definition ih_Box (t : term) := TApp (TSym (SType 0 2)) t.
Definition ih_class (i : N) := TSym (STypeclass 0 i).
(** [u : U]; [f : (A: Pointed, B: C) -> A]; [pbox : (A: Pointed) -> Box(A)]; [Box.new : (A: Type, a: A) -> Box(A)];
    [point : (A: Pointed) -> A] *)
Definition ih_g (i : N) : term :=
  if N.eqb i 1 then TBind KPi (ih_class 1) (TBind KPi (ih_class 2) (TBound 1)) else
  if N.eqb i 2 then TBind KPi (ih_class 1) (ih_Box (TBound 0)) else
  if N.eqb i 3 then TBind KPi type0 (TBind KPi (TBound 0) (ih_Box (TBound 1))) else
  if N.eqb i 4 then TBind KPi (ih_class 1) (TBound 0) else ih_U.
Definition ih_K : kctx :=
  {| k_type := fun m i => if N.eqb i 2 then TBind KPi type0 type0 else type0;
     k_global := fun _ i => ih_g i; k_scoped := fun _ => tbool;
     k_instance := fun _ _ _ => false; k_extends := fun a b => tid_eqb a (0, 3)%N && tid_eqb b (0, 2)%N; k_value_params := fun _ => false |}.
(** a type with one element and an empty one; [Box(A)] is empty just when [A] is;
    class 1 (Pointed) has the first type, class 2 (C) both, every other class none *)
Definition ih_vU := VBase 0 0 1.
Definition ih_vE := VBase 0 1 0.
Definition ih_u := VElt 0 0 1 0.
Definition ih_I (s : symbol) : V :=
  match s with
  | SType _ i => if N.eqb i 1 then ih_vE else if N.eqb i 2 then VFun (VSort 0) [ih_vU; ih_vU; ih_vE] else ih_vU
  | SGlobal _ i =>
    if N.eqb i 1 then VFun (VSort 1) [VFun (VSort 2) [ih_u; ih_u]] else
    if N.eqb i 2 then VFun (VSort 1) [ih_u] else
    if N.eqb i 3 then VFun (VSort 0) [VFun VBool [ih_u; ih_u]; VFun ih_vU [ih_u]; VFun ih_vE []] else
    if N.eqb i 4 then VFun (VSort 1) [ih_u] else ih_u
  | STypeclass _ i => VSort (if N.eqb i 1 then 1 else if N.eqb i 2 then 2 else 3)
  | _ => VTrue
  end.
Definition ih_sorts (k : N) : list V :=
  if N.eqb k 0 then [VBool; ih_vU; ih_vE] else if N.eqb k 1 then [ih_vU] else if N.eqb k 2 then [ih_vU; ih_vE] else [].
Definition ih_M : Model := fin_model ih_sorts ih_I.
Lemma ih_respects : respects ih_M ih_K.
Proof.
  apply fin_respects.
  - left; reflexivity.
  - intros x Hx. vm_compute in Hx. repeat (destruct Hx as [<-|Hx]; [exact Logic.I|]). contradiction.
  - intros m i rho. cbn [ih_K k_type]. destruct (N.eqb i 2); vm_compute; tauto.
  - intros m i rho. cbn [ih_K k_global]. unfold ih_g. destruct (N.eqb i 1); [vm_compute; intuition subst; vm_compute; intuition|].
    destruct (N.eqb i 2); [vm_compute; intuition subst; vm_compute; intuition|].
    destruct (N.eqb i 3); [vm_compute; intuition subst; vm_compute; intuition|].
    destruct (N.eqb i 4); vm_compute; intuition subst; vm_compute; intuition.
  - intros; exact Logic.I.
  - intros m i rho. cbn [ih_K k_type ih_I]. destruct (N.eqb_spec i 1) as [->|H1]; [vm_compute; tauto|]. destruct (N.eqb i 2); vm_compute; tauto.
  - intros m i rho. cbn [ih_K k_global ih_I]. unfold ih_g. destruct (N.eqb i 1); [vm_compute; tauto|].
    destruct (N.eqb i 2); [vm_compute; tauto|]. destruct (N.eqb i 3); [vm_compute; tauto|]. destruct (N.eqb i 4); vm_compute; tauto.
  - intros i rho. vm_compute; tauto.
Qed.

(** the second class extends nothing, the third extends it; [U] is an instance of the first two *)
Definition ih_ts : store :=
  Store (fun tc => if tid_eqb tc (0, 1)%N || tid_eqb tc (0, 2)%N then Some (0, 0)%N else None)
        (fun tc => if tid_eqb tc (0, 3)%N then [(0, 2)%N] else []) (fun _ => None).
Lemma ih_class_mem tc A : vmem ih_sorts A (ih_I (tclass tc)) -> A = ih_vU \/ A = ih_vE.
Proof.
  unfold tclass. cbn [ih_I]. destruct (N.eqb (snd tc) 1); [|destruct (N.eqb (snd tc) 2)]; intros H; vm_compute in H; intuition.
Qed.
Lemma ih_ts_true : store_true ih_M ih_K ih_ts.
Proof.
  assert (B : forall tc b A, tid_eqb tc (0, 3)%N = true -> mem ih_M A (dsym ih_M (tclass tc)) -> mem ih_M A (dsym ih_M (tclass b))).
  { intros tc b A H HA. apply tid_eqb_eq in H. subst. vm_compute in HA. contradiction. }
  constructor.
  - intros tc b A Hb HA. cbn [ih_ts bases] in Hb. destruct (tid_eqb tc (0, 3)%N) eqn:E; [|destruct Hb]. eapply B; eauto.
  - intros tc b A Hb HA. cbn [ih_K k_extends] in Hb. apply andb_true_iff in Hb. destruct Hb. eapply B; eauto.
  - intros tc g H. cbn [ih_ts instance_of] in H. destruct (tid_eqb tc (0, 1)%N || tid_eqb tc (0, 2)%N) eqn:E; [|discriminate]. injection H as <-.
    apply orb_true_iff in E. destruct E as [E|E]; apply tid_eqb_eq in E; subst tc; vm_compute; auto.
  - discriminate.
  - intros s A x Hs HA. assert (X : A = VBool \/ (A = ih_vU \/ A = ih_vE)).
    { destruct s; try discriminate Hs; [vm_compute in HA; intuition|]. right. apply (ih_class_mem (m, i)). exact HA. }
    destruct X as [H|[H|H]]; subst A; intro Ap; exact Ap.
Qed.
Lemma ih_regular : Forall (regular ih_K) [SGlobal 0 0; SGlobal 0 3; SGlobal 0 4].
Proof.
  assert (G : forall i, In i [0; 3; 4]%N -> regular ih_K (SGlobal 0 i)).
  { intros i H. simpl in H. destruct H as [<-|[<-|[<-|[]]]]; (split; [exact Logic.I|]; repeat (split; [reflexivity|]); cbn -[fits]).
    - lia.
    - intros _ m i H. injection H as <- <-. reflexivity.
    - discriminate. }
  repeat constructor; apply G; simpl; auto.
Qed.
(** [Box(U)] gets [Box.new(U, u)], and [Box(P)] for a pointed type [P] gets [Box.new(P, point(P))] *)
Example found_inhabitant_case :
  let tb := record_all ih_K [SGlobal 0 0; SGlobal 0 3; SGlobal 0 4] in
  find_inhabitant ih_K tb ih_ts true 5 None [] (ih_Box ih_U) = Ok (Some (TApp (TApp (TSym (SGlobal 0 3)) ih_U) (TSym (SGlobal 0 0)))) /\
  find_inhabitant ih_K tb ih_ts true 5 (Some [Some (ih_class 1)]) [] (ih_Box (TVar 0)) =
    Ok (Some (TApp (TApp (TSym (SGlobal 0 3)) (TVar 0)) (TApp (TSym (SGlobal 0 4)) (TVar 0)))) /\
  provably_inhabited ih_K tb ih_ts true 5 (TVar 0) (Some [Some (ih_class 1)]) = Ok true /\
  provably_inhabited ih_K tb ih_ts true 5 (ih_Box (TVar 0)) (Some [Some type0]) = Ok false /\
  respects ih_M ih_K /\ store_true ih_M ih_K ih_ts /\ Forall (regular ih_K) [SGlobal 0 0; SGlobal 0 3; SGlobal 0 4] /\
  ty (ih_Box ih_U) = true /\ (forall rho, wt ih_M rho (ih_Box ih_U)).
Proof.
  cbv zeta. do 4 (split; [vm_compute; reflexivity|]). split; [exact ih_respects|]. split; [exact ih_ts_true|]. split; [exact ih_regular|].
  split; [reflexivity|]. intros rho. vm_compute. tauto.
Qed.

(** ** Where the claim fails *)
(** (a) With no provider for a class, one instance that has elements stands for all of them. *)
Theorem inhabited_by_other_instance_refuted : exists M K ts ss n c T,
  respects M K /\ store_true M K ts /\ own_instances ts /\ Forall (regular K) ss /\ T = TVar 0 /\
  provably_inhabited K (record_all K ss) ts false n T (Some c) = Ok true /\ ~ inhabited_at M c T.
Proof.
  exists ih_M, ih_K, (Store (instance_of ih_ts) (fun _ => []) (fun _ => None)), [SGlobal 0 0], 5, [Some (ih_class 2)], (TVar 0).
  split; [exact ih_respects|]. split; [|split; [|split; [|split; [reflexivity|split; [vm_compute; reflexivity|]]]]].
  - destruct ih_ts_true as [A B C D E]. constructor; auto; try discriminate; intros tc b A0 [].
  - intros tc b g [].
  - pose proof ih_regular as H. inversion H; auto.
  - intros H. destruct (H (fun _ => ih_vE)) as [d Hd].
    + intros v U Hr HU. destruct v as [|[|v]]; try discriminate. injection HU as <-. vm_compute. auto.
    + vm_compute in Hd. exact Hd.
Qed.
Print Assumptions inhabited_by_other_instance_refuted.

(** (b) A provider that asks for a class is used at every type. *)
Theorem constructor_witness_refuted : exists M K ts ss n c T w,
  respects M K /\ store_true M K ts /\ own_instances ts /\
  find_inhabitant K (record_all K ss) ts false n (Some c) [] T = Ok (Some w) /\
  provably_inhabited K (record_all K ss) ts false n T (Some c) = Ok true /\ ~ inhabited_at M c T.
Proof.
  exists ih_M, ih_K, (Store (instance_of ih_ts) (fun _ => []) (fun _ => None)), [SGlobal 0 3; SGlobal 0 2], 5, [Some type0], (ih_Box (TVar 0)). eexists.
  split; [exact ih_respects|]. split; [|split; [|split; [vm_compute; reflexivity|split; [vm_compute; reflexivity|]]]].
  - destruct ih_ts_true as [A B C D E]. constructor; auto; try discriminate; intros tc b A0 [].
  - intros tc b g [].
  - intros H. destruct (H (fun _ => ih_vE)) as [d Hd].
    + intros v U Hr HU. destruct v as [|[|v]]; try discriminate. injection HU as <-. vm_compute. auto.
    + vm_compute in Hd. exact Hd.
Qed.
Print Assumptions constructor_witness_refuted.

(** (c) The returned parameter is compared with the depth instead of its distance: a function that returns a member
    of its first class is recorded for the second. *)
Theorem class_witness_refuted : exists M K ts ss n c T w,
  respects M K /\ store_true M K ts /\ own_instances ts /\
  find_inhabitant K (record_all K ss) ts false n (Some c) [] T = Ok (Some w) /\
  provably_inhabited K (record_all K ss) ts false n T (Some c) = Ok true /\ ~ inhabited_at M c T.
Proof.
  exists ih_M, ih_K, (Store (instance_of ih_ts) (fun _ => []) (fun _ => None)), [SGlobal 0 1], 5, [Some (ih_class 2)], (TVar 0). eexists.
  split; [exact ih_respects|]. split; [|split; [|split; [vm_compute; reflexivity|split; [vm_compute; reflexivity|]]]].
  - destruct ih_ts_true as [A B C D E]. constructor; auto; try discriminate; intros tc b A0 [].
  - intros tc b g [].
  - intros H. destruct (H (fun _ => ih_vE)) as [d Hd].
    + intros v U Hr HU. destruct v as [|[|v]]; try discriminate. injection HU as <-. vm_compute. auto.
    + vm_compute in Hd. exact Hd.
Qed.
Print Assumptions class_witness_refuted.

(** (d) An instance of a base class is given for the class that extends it. *)
Theorem base_instance_refuted : exists M K ts ss n T w,
  respects M K /\ store_true M K ts /\ Forall (regular K) ss /\
  find_inhabitant K (record_all K ss) ts false n (Some []) [] T = Ok (Some w) /\
  provably_inhabited K (record_all K ss) ts false n T (Some []) = Ok true /\ ~ inhabited_at M [] T.
Proof.
  exists ih_M, ih_K, ih_ts, [], 5, (ih_class 3). eexists.
  split; [exact ih_respects|]. split; [exact ih_ts_true|]. split; [constructor|]. split; [vm_compute; reflexivity|]. split; [vm_compute; reflexivity|].
  intros H. destruct (H (fun _ => VTrue)) as [d Hd]; [intros v U Hr HU; destruct v; discriminate|]. vm_compute in Hd. exact Hd.
Qed.
Print Assumptions base_instance_refuted.

(** (e) The erased variable itself is given as the member of its class. *)
Theorem erased_class_variable_refuted : exists M K ts ss n c T,
  respects M K /\ store_true M K ts /\ own_instances ts /\ Forall (regular K) ss /\ c = [Some T] /\
  provably_inhabited K (record_all K ss) ts false n T (Some c) = Ok true /\ ~ inhabited_at M c T.
Proof.
  exists ih_M, ih_K, (Store (fun _ => None) (fun _ => []) (fun _ => None)), [], 5, [Some (ih_class 3)], (ih_class 3).
  split; [exact ih_respects|]. split; [|split; [|split; [constructor|split; [reflexivity|split; [vm_compute; reflexivity|]]]]].
  - destruct ih_ts_true as [A B C D E]. constructor; auto; try discriminate; intros tc b A0 [].
  - intros tc b g [].
  - intros H. destruct (H (fun _ => VTrue)) as [d Hd]; [|vm_compute in Hd; exact Hd].
    intros v U Hr HU. exfalso. assert (G : forall v, relevant [Some (ih_class 3)] [Lit true (ih_class 3) (ih_class 3)] v -> False).
    { clear. induction 1 as [l v Hl Hv|l v Hl Hv|v d T R IH HT Hd]; auto; destruct Hl as [<-|[]]; destruct Hv. }
    eapply G; eauto.
Qed.
Print Assumptions erased_class_variable_refuted.
