(** One interpretation for all types that the parameters stand for. *)
From Coq Require Import List Arith Bool Lia Eqdep_dec.
Import ListNotations.
From Verif Require Import Positivity PositivitySem PositivitySpec Containers PositivityProofs.

(** ** Facts carry over to equal types *)
Section Transport.
Context (J J' : interpretation) (E E' : nat -> Type) (good : atype -> bool) (same : forall t, good t = true -> den J E t = den J' E' t).
Fixpoint tuple_cast ts : forallb good ts = true -> tuple J E ts -> tuple J' E' ts :=
  match ts with
  | [] => fun _ v => v
  | t :: r => fun g v => (cast (same t (proj1 (andb_prop _ _ g))) (fst v), tuple_cast r (proj2 (andb_prop _ _ g)) (snd v))
  end.
Fixpoint tuple_uncast ts : forallb good ts = true -> tuple J' E' ts -> tuple J E ts :=
  match ts with
  | [] => fun _ v => v
  | t :: r => fun g v => (uncast (same t (proj1 (andb_prop _ _ g))) (fst v), tuple_uncast r (proj2 (andb_prop _ _ g)) (snd v))
  end.
Lemma tuple_uncast_cast ts g v : tuple_uncast ts g (tuple_cast ts g v) = v.
Proof. induction ts as [|t r IH]; auto. destruct v as [x v]. cbn [tuple_cast tuple_uncast fst snd]. rewrite uncast_cast, IH. reflexivity. Qed.
Lemma tuple_cast_uncast ts g v : tuple_cast ts g (tuple_uncast ts g v) = v.
Proof. induction ts as [|t r IH]; auto. destruct v as [x v]. cbn [tuple_cast tuple_uncast fst snd]. rewrite cast_uncast, IH. reflexivity. Qed.

Context (ind : atype) (gi : good ind = true).
Lemma hypotheses_cast (Q : den J E ind -> Prop) ts g v :
  hypotheses J' E' ind (fun x => Q (uncast (same ind gi) x)) ts (tuple_cast ts g v) -> hypotheses J E ind Q ts v.
Proof.
  induction ts as [|t r IH]; auto. destruct v as [x v]. cbn [hypotheses tuple_cast fst snd]. intros [H1 H2]. split; [|eauto].
  destruct (atype_dec t ind) as [e|]; auto. subst t. cbn [eq_rect] in *. replace (proj1 (andb_prop (good ind) _ g)) with gi in H1 by (apply UIP_dec, bool_dec).
  rewrite uncast_cast in H1. exact H1.
Qed.
Lemma hypotheses_uncast (Q : den J E ind -> Prop) ts g v :
  hypotheses J E ind Q ts (tuple_uncast ts g v) -> hypotheses J' E' ind (fun x => Q (uncast (same ind gi) x)) ts v.
Proof.
  induction ts as [|t r IH]; auto. destruct v as [x v]. cbn [hypotheses tuple_uncast fst snd]. intros [H1 H2]. split; [|eauto].
  destruct (atype_dec t ind) as [e|]; auto. subst t. cbn [eq_rect] in *. replace (proj1 (andb_prop (good ind) _ g)) with gi in H1 by (apply UIP_dec, bool_dec). exact H1.
Qed.

Lemma facts_transport ctors : forallb (forallb good) ctors = true -> (exists con, inductive_facts J' E' ind ctors con) -> exists con, inductive_facts J E ind ctors con.
Proof.
  intros G [con0 [F1 F2 F3 F4]]. exists (fun k ts H v => uncast (same ind gi) (con0 k ts H (tuple_cast ts (all_at _ _ _ _ G H) v))).
  assert (INJ : forall x y, uncast (same ind gi) x = uncast (same ind gi) y -> x = y).
  { intros x y H. apply (f_equal (cast (same ind gi))) in H. rewrite !cast_uncast in H. exact H. }
  split.
  - intros k j ts us H H' v w NE HE. apply INJ in HE. eapply F1; eauto.
  - intros x. destruct (F2 (cast (same ind gi) x)) as (k & ts & H & v & Hv). exists k, ts, H, (tuple_uncast ts (all_at _ _ _ _ G H) v).
    rewrite tuple_cast_uncast, <- Hv, uncast_cast. reflexivity.
  - intros k ts H v w HE. apply INJ in HE. apply F3 in HE. apply (f_equal (tuple_uncast ts (all_at _ _ _ _ G H))) in HE. rewrite !tuple_uncast_cast in HE. exact HE.
  - intros Q HQ x. rewrite <- (uncast_cast _ _ (same ind gi) x). apply (F4 (fun y => Q (uncast (same ind gi) y))). intros k ts H v HH.
    rewrite <- (tuple_cast_uncast ts (all_at _ _ _ _ G H) v). apply HQ. apply (hypotheses_cast Q ts (all_at _ _ _ _ G H)). rewrite tuple_cast_uncast. exact HH.
Qed.
End Transport.

(** ** Parameters *)
Fixpoint env (ps : list nat) (L : list Type) (p : nat) : Type :=
  match ps, L with q :: ps, A :: L => if p =? q then A else env ps L p | _, _ => unit end.
Lemma env_map E ps p : existsb (Nat.eqb p) ps = true -> env ps (map E ps) p = E p.
Proof. induction ps as [|q ps IH]; simpl; [discriminate|]. destruct (Nat.eqb_spec p q) as [->|N]; auto. Qed.

Section Poly.
Context (tb : table) (m n : nat) (ps : list nat) (I : interpretation) (ctors : list (list atype)).
Notation d := (m, n).
Notation ind := (own_type m n ps).
Context (N : forall e, existsb (existsb (nests ind e)) ctors = true -> filled (data I e) (positions tb e))
  (F : forallb (forallb (fine tb m n ps)) ctors = true) (SP : forallb (forallb (strictly_positive tb ind)) ctors = true).
Definition carrier_at (E : nat -> Type) : Type := carrier tb m n ps I E ctors N F SP.
Definition with_inductive : interpretation := {| data := fun e L => if datatype_eq_dec e d then carrier_at (env ps L) else data I e L; family := family I |}.
Context (E : nat -> Type).
Notation E' := (env ps (map E ps)).
Notation X := (carrier_at E').

Lemma same_without t : mentions d t = false -> closed ps t = true -> den with_inductive E t = den (extended m n I X) E' t.
Proof.
  induction t as [|e l IH|e l IH|l r IH IHr|p|p| |p] using atype_ind'; intros M C; cbn [mentions closed] in M, C; try reflexivity; try discriminate.
  - apply orb_false_elim in M. destruct M as [M1 M2]. cbn [den with_inductive extended data]. destruct (datatype_eq_dec e d) as [->|NE]; [rewrite datatype_eqb_refl in M1; discriminate|].
    f_equal. apply map_at. intros i t Hi. apply (IH i t Hi); [eapply none_at; eauto|eapply all_at in C; eauto].
  - cbn [den with_inductive extended family]. f_equal. apply map_at. intros i [t|v] Hi; auto. f_equal. apply (IH i t Hi); [exact (none_at _ _ _ _ M Hi)|exact (all_at _ _ _ _ C Hi)].
  - apply orb_false_elim in M. destruct M as [M1 M2]. apply andb_prop in C. destruct C as [C1 C2]. cbn [den]. rewrite (IHr M2 C2). f_equal.
    apply map_at. intros i t Hi. apply (IH i t Hi); [eapply none_at; eauto|eapply all_at in C1; eauto].
  - cbn [den]. symmetry. apply env_map. exact C.
Qed.

Definition usable t : bool := regular ind t && outside_families d t && closed ps t.
Lemma same_types t : usable t = true -> den with_inductive E t = den (extended m n I X) E' t.
Proof.
  unfold usable. rewrite !andb_true_iff. intros [[R O] C]. revert R O C.
  induction t as [|e l IH|e l IH|l r IH IHr|p|p| |p] using atype_ind'; intros R O C; try reflexivity; try discriminate.
  - destruct (atype_eqb (AData e l) ind) eqn:Q.
    + apply atype_eqb_eq in Q. rewrite Q. rewrite den_ind. cbn [den own_type with_inductive data]. destruct (datatype_eq_dec d d); [|congruence]. rewrite map_map. reflexivity.
    + cbn [regular] in R. rewrite Q in R. cbn [orb] in R. apply andb_prop in R. destruct R as [R1 R2]. cbn [outside_families closed] in O, C.
      cbn [den with_inductive extended data]. destruct (datatype_eq_dec e d) as [->|NE]; [cbn [same_datatype own_type] in R1; rewrite datatype_eqb_refl in R1; discriminate|].
      f_equal. apply map_at. intros i t Hi. apply (IH i t Hi); [exact (all_at _ _ _ _ R2 Hi)|exact (all_at _ _ _ _ O Hi)|exact (all_at _ _ _ _ C Hi)].
  - apply same_without; auto. cbn [outside_families] in O. cbn [mentions].
    destruct (existsb _ l) eqn:X0; auto. apply existsb_exists in X0. destruct X0 as [[t|v] [I1 I2]]; [|discriminate]. rewrite forallb_forall in O. apply O in I1. cbn in I1. rewrite I2 in I1. discriminate.
  - cbn [regular atype_eqb own_type orb] in R. cbn [outside_families closed] in O, C. apply andb_prop in R, O, C. destruct R as [R1 R2], O as [O1 O2], C as [C1 C2].
    cbn [den]. rewrite (IHr R2 O2 C2). f_equal. apply map_at. intros i t Hi. apply (IH i t Hi); [exact (all_at _ _ _ _ R1 Hi)|exact (all_at _ _ _ _ O1 Hi)|exact (all_at _ _ _ _ C1 Hi)].
  - cbn [den]. symmetry. apply env_map. exact C.
Qed.

Lemma poly_exists : forallb (forallb (closed ps)) ctors = true -> exists con, inductive_facts with_inductive E ind ctors con.
Proof.
  intros C. apply (facts_transport with_inductive (extended m n I X) E E' usable same_types).
  - unfold usable. rewrite !andb_true_iff. split; [split|].
    + cbn [regular own_type]. rewrite atype_eqb_refl. reflexivity.
    + cbn [outside_families own_type]. clear. induction ps; simpl; auto.
    + cbn [closed own_type]. apply forallb_forall. intros t I1. apply in_map_iff in I1. destruct I1 as (p & <- & I1). cbn [closed]. apply existsb_exists. exists p. rewrite Nat.eqb_refl. auto.
  - apply forallb_forall. intros ts I1. apply forallb_forall. intros t I2. pose proof F as F0. rewrite forallb_forall in F0, C. apply F0 in I1 as F1. apply C in I1 as C1. rewrite forallb_forall in F1, C1.
    apply F1 in I2 as F2. apply C1 in I2 as C2. apply fine_parts in F2. unfold usable. destruct F2 as (-> & -> & _). rewrite C2. reflexivity.
  - exists (con tb m n ps I E' ctors N F SP). apply inductive_exists.
Qed.
End Poly.
