(** C59: the variances that are recorded for the type parameters of datatypes.  They are right for the declarations of a module without imports; a type that
    uses itself with its parameters exchanged gets wrong ones, and then an inconsistent inductive type is accepted. *)
From Coq Require Import List Arith Bool.
Import ListNotations.
From Verif Require Import Positivity PositivitySem PositivitySpec PositivityProofs VarianceSem VarianceProofs P_Positivity.

(** [variance_of] is right for types of datatypes with right variances: relations for the parameters that are ordered as the variances of the parameters say
    give ordered relations for the type. *)
Theorem computed_variances_right : forall J (RR : relator J) tb, table_right RR tb -> families_covariant RR ->
  forall t, known tb t = true ->
  forall (E E' : nat -> Type) (R S : forall p, E p -> E' p -> Prop), (forall p, below (variance_of tb p true t) (R p) (S p)) ->
  forall x y, related RR R t x y -> related RR S t x y.
Proof. intros J RR tb TR FC t KN E E' R S H. exact (variance_below RR tb TR FC t KN E E' R S H). Qed.

(** The variances recorded for the datatypes of an accepted module without imports are right. *)
Theorem recorded_variances_right : forall J (RR : relator J) tables m l tb, families_covariant RR ->
  run_items tables m [] l = Some tb -> items_fine m [] l = true -> Forall (item_relates RR m) l -> table_right RR tb.
Proof. intros J RR tables m l tb FC RI F H. apply (items_right RR tables m FC l [] tb); auto. intros d vs LK. discriminate. Qed.

(** ** A module with a contravariant structure, lists, and functions from the one to the other *)
Definition module_ : list item :=
  [Structure 0 [5] 0 [AFunction [AArbitrary 5] ABool];
   Inductive_ 1 [5] [[]; [AArbitrary 5; AData (0, 1) [AArbitrary 5]]];
   Structure 2 [6; 5] 0 [AFunction [AFunction [AArbitrary 5] (AData (0, 0) [AArbitrary 6])] (AData (0, 1) [AArbitrary 5])]].
Definition module_table : table :=
  [((0, 2), Some [VPositive; VPositive]); ((0, 1), Some [VPositive]); ((0, 1), None); ((0, 0), Some [VNegative])].

Definition types : interpretation := {|
  data d := match d with
    | (0, 0) => fun L => match L with [A] => A -> Prop | _ => unit end
    | (0, 1) => fun L => match L with [A] => list A | _ => unit end
    | (0, 2) => fun L => match L with [A; B] => (B -> A -> Prop) -> list B | _ => unit end
    | _ => fun _ => unit end;
  family _ _ := unit |}.
Definition relations : relator types.
Proof.
  refine {| rdata := fun d => match d as d return forall L M, rels L M -> data types d L -> data types d M -> Prop with
    | (0, 0) => fun L M => match L, M with [A], [B] => fun r P Q => forall a b, fst r a b -> (P a <-> Q b) | _, _ => fun _ _ _ => True end
    | (0, 1) => fun L M => match L, M with [A], [B] => fun r P Q => Forall2 (fst r) P Q | _, _ => fun _ _ _ => True end
    | (0, 2) => fun L M => match L, M with
        | [A; C], [B; D] => fun r P Q => forall f g, (forall c d, fst (snd r) c d -> forall a b, fst r a b -> (f c a <-> g d b)) -> Forall2 (fst (snd r)) (P f) (Q g)
        | _, _ => fun _ _ _ => True end
    | _ => fun _ _ _ _ _ => True end;
    rfamily := fun _ _ _ _ _ _ => True |}.
  all: try exact tt.
Defined.

(** the constructors of lists *)
Definition list_con (E : nat -> Type) (ts : list atype) : tuple types E ts -> list (E 5) :=
  match ts return tuple types E ts -> list (E 5) with
  | [AArbitrary 5; AData (0, 1) [AArbitrary 5]] => fun v => cons (fst v) (fst (snd v))
  | _ => fun _ => []
  end.

Example module_relates : Forall (item_relates relations 0) module_.
Proof.
  repeat constructor.
  - exists (fun E v => fst v). split; [intros E x; exists (x, tt); reflexivity|]. intros E E' R v w. cbn. split; [auto|intros [H _]; exact H].
  - exists (fun E k ts H v => list_con E ts v). split.
    + intros E E' R [|[|k]] ts H v w T; cbn in H; [injection H as <-|injection H as <-|destruct k; discriminate].
      * cbn. constructor.
      * destruct T as (T1 & T2 & _). cbn. constructor; auto.
    + intros Q C L M r x y LL LM. destruct L as [|A [|? ?]]; try discriminate LL. destruct M as [|B [|? ?]]; try discriminate LM. destruct r as [r []].
      change (rdata relations (0, 1) [A] [B] (r, tt) x y) with (Forall2 r x y). intros F.
      assert (OWN : forall a b, related (with_data relations (0, 1) Q) (E := fun _ => A) (E' := fun _ => B) (fun _ => r) (own_type 0 1 [5]) a b = Q [A] [B] (r, tt) a b).
      { intros a b. unfold own_type. rewrite related_data. apply with_data_own. }
      induction F as [|a b x y H F IH].
      * rewrite <- OWN. apply (C (fun _ => A) (fun _ => B) (fun _ => r) 0 [] eq_refl tt tt). exact I.
      * rewrite <- OWN. apply (C (fun _ => A) (fun _ => B) (fun _ => r) 1 _ eq_refl (a, (x, tt)) (b, (y, tt))). split; [exact H|]. split; [|exact I].
        cbn [fst snd]. exact (eq_ind_r (fun P => P) IH (OWN x y)).
  - exists (fun E v => fst v). split; [intros E x; exists (x, tt); reflexivity|]. intros E E' R v w. cbn. split; [auto|intros [H _]; exact H].
Qed.
Example module_accepted : run_items [] 0 [] module_ = Some module_table.
Proof. reflexivity. Qed.
Example recorded_variances_case : table_right relations module_table.
Proof. apply (recorded_variances_right types relations [] 0 module_); [intros d L M r s x y _ H; exact H|reflexivity|reflexivity|exact module_relates]. Qed.
(** predicates on a type with more elements give predicates on a type with fewer: the first parameter of a set is contravariant, and not covariant *)
Example set_not_covariant : let t := AData (0, 0) [AArbitrary 5] in exists (R S : forall p : nat, bool -> bool -> Prop) x y,
  (forall p, below VPositive (R p) (S p)) /\ related relations (E := fun _ => bool) (E' := fun _ => bool) R t x y /\ ~ related relations (E := fun _ => bool) (E' := fun _ => bool) S t x y.
Proof.
  exists (fun _ => eq), (fun _ _ _ => True), (fun b => b = true), (fun b => b = true). repeat split; cbn; auto.
  - intros ->. congruence.
  - intros ->. congruence.
  - intros H. pose proof (proj1 (H true false I) eq_refl). discriminate.
Qed.

(** ** A type that uses itself with its parameters exchanged *)
Definition exchanged : list (list item) :=
  [[Inductive_ 0 [0; 1] [[AFunction [AArbitrary 0] ABool]; [AData (0, 0) [AArbitrary 1; AArbitrary 0]]];
    Inductive_ 1 [] [[]; [AData (0, 0) [ABool; AData (0, 1) []]]]]].
Theorem exchanged_parameters_refuted : accepted exchanged = true /\ forall J, ~ modules_hold J 0 exchanged.
Proof.
  split; [reflexivity|]. intros J (H1 & _). inversion H1 as [|? ? FOO H3]; subst. inversion H3 as [|? ? IN _]; subst.
  destruct (IN (fun _ => unit)) as [con F]. set (D := data J (0, 1) []).
  destruct (FOO (fun p => match p with 0 => D | _ => Prop end)) as [c1 F1]. destruct (FOO (fun p => match p with 0 => Prop | _ => D end)) as [c2 F2].
  refine (no_predicates_inside D (fun A => con 1 [AData (0, 0) [ABool; AData (0, 1) []]] eq_refl
    (c2 1 [AData (0, 0) [AArbitrary 1; AArbitrary 0]] eq_refl (c1 0 [AFunction [AArbitrary 0] ABool] eq_refl (A, tt), tt), tt)) _). intros A B E.
  apply (facts_injective _ _ _ _ _ F) in E. apply (f_equal fst) in E. cbn [fst] in E.
  apply (facts_injective _ _ _ _ _ F2) in E. apply (f_equal fst) in E. cbn [fst] in E.
  apply (facts_injective _ _ _ _ _ F1) in E. apply (f_equal fst) in E. exact E.
Qed.
(** the second parameter is recorded as covariant *)
Example exchanged_table : exists rest, run_items [] 0 [] (hd [] exchanged) = Some (rest ++ [((0, 0), Some [VBoth; VPositive]); ((0, 0), None)]).
Proof. eexists [_; _]. reflexivity. Qed.

Print Assumptions computed_variances_right.
Print Assumptions recorded_variances_right.
Print Assumptions exchanged_parameters_refuted.
