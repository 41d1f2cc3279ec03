(** Concrete finite interpretations.

    A type is the truth values, a finite (possibly empty) base type, or a dependent product of
    such; a function is its table of values.  The kinds [Type0] and the typeclasses range over given
    finite lists of types.  Everything computes, so examples and counter-examples are checked by
    evaluation. *)
From Coq Require Import List Arith NArith Bool Lia.
Import ListNotations.
From Verif Require Import Term LocalContext Semantics.

Inductive V :=
| VTrue | VFalse
| VElt (m i : N) (n j : nat)        (* element [j] of the base type [m, i] of size [n] *)
| VBool
| VBase (m i : N) (n : nat)
| VPi (A : V) (Bs : list V)         (* one result type per element of [A] *)
| VSort (k : N)                     (* 0: Type0; others: typeclasses *)
| VFun (A : V) (tab : list V)       (* one value per element of [A] *)
| VEq | VIte | VJunk.

Section VInd.
Context (P : V -> Prop).
Context (HT : P VTrue) (HF : P VFalse) (HE : forall m i n j, P (VElt m i n j)) (HB : P VBool)
  (HBa : forall m i n, P (VBase m i n)) (HPi : forall A Bs, P A -> Forall P Bs -> P (VPi A Bs))
  (HS : forall k, P (VSort k)) (HFu : forall A l, P A -> Forall P l -> P (VFun A l))
  (HEq : P VEq) (HI : P VIte) (HJ : P VJunk).
Fixpoint V_ind' (v : V) : P v :=
  match v with
  | VTrue => HT | VFalse => HF | VElt m i n j => HE m i n j | VBool => HB
  | VBase m i n => HBa m i n
  | VPi A Bs => HPi A Bs (V_ind' A)
      ((fix go l : Forall P l := match l with [] => Forall_nil _ | x :: r => Forall_cons x (V_ind' x) (go r) end) Bs)
  | VSort k => HS k
  | VFun A l => HFu A l (V_ind' A)
      ((fix go l : Forall P l := match l with [] => Forall_nil _ | x :: r => Forall_cons x (V_ind' x) (go r) end) l)
  | VEq => HEq | VIte => HI | VJunk => HJ
  end.
End VInd.

Fixpoint veqb (a b : V) {struct a} : bool :=
  let fix leqb (l m : list V) {struct l} : bool :=
    match l, m with
    | [], [] => true
    | x :: l', y :: m' => veqb x y && leqb l' m'
    | _, _ => false
    end in
  match a, b with
  | VTrue, VTrue | VFalse, VFalse | VBool, VBool | VEq, VEq | VIte, VIte | VJunk, VJunk => true
  | VElt m i n j, VElt m' i' n' j' => N.eqb m m' && N.eqb i i' && Nat.eqb n n' && Nat.eqb j j'
  | VBase m i n, VBase m' i' n' => N.eqb m m' && N.eqb i i' && Nat.eqb n n'
  | VPi A l, VPi A' l' => veqb A A' && leqb l l'
  | VSort k, VSort k' => N.eqb k k'
  | VFun A l, VFun A' l' => veqb A A' && leqb l l'
  | _, _ => false
  end.

Lemma veqb_spec a : forall b, veqb a b = true <-> a = b.
Proof.
  assert (L : forall l, Forall (fun a => forall b, veqb a b = true <-> a = b) l -> forall m,
    (fix leqb (l m : list V) {struct l} : bool :=
      match l, m with
      | [], [] => true
      | x :: l', y :: m' => veqb x y && leqb l' m'
      | _, _ => false
      end) l m = true <-> l = m).
  { induction 1 as [|x l Hx Hl IH]; intros [|y m]; try (split; congruence).
    rewrite andb_true_iff, Hx, IH. split; [intros [-> ->]; auto|intros H; injection H; auto]. }
  induction a using V_ind'; intros [] ; simpl; try (split; congruence).
  - rewrite !andb_true_iff, !N.eqb_eq, !Nat.eqb_eq. split; [intros [[[-> ->] ->] ->]; auto|intros H; injection H; auto].
  - rewrite !andb_true_iff, !N.eqb_eq, !Nat.eqb_eq. split; [intros [[-> ->] ->]; auto|intros H; injection H; auto].
  - rewrite andb_true_iff, IHa, (L Bs); auto. split; [intros [-> ->]; auto|intros H'; injection H'; auto].
  - rewrite N.eqb_eq. split; congruence.
  - rewrite andb_true_iff, IHa, (L l); auto. split; [intros [-> ->]; auto|intros H'; injection H'; auto].
Qed.

Lemma veqb_refl a : veqb a a = true. Proof. apply veqb_spec; auto. Qed.
Definition V_eq_dec (a b : V) : {a = b} + {a <> b}.
Proof. destruct (veqb a b) eqn:E; [left; apply veqb_spec; auto|right; intros ->; rewrite veqb_refl in E; discriminate]. Defined.

(** All lists that pick one element from each of the given lists *)
Fixpoint choices (ls : list (list V)) : list (list V) :=
  match ls with
  | [] => [[]]
  | l :: r => flat_map (fun x => map (cons x) (choices r)) l
  end.

Lemma choices_spec ls : forall c, In c (choices ls) <-> Forall2 (fun x l => In x l) c ls.
Proof.
  induction ls as [|l r IH]; intros c; simpl.
  - split; [intros [<-|[]]; constructor|intros H; inversion H; auto].
  - rewrite in_flat_map. split.
    + intros (x & Hx & H). apply in_map_iff in H. destruct H as (c' & <- & H). apply IH in H. constructor; auto.
    + intros H; inversion H; subst. exists x. split; auto. apply in_map, IH; auto.
Qed.

Lemma F2len {X Y} (R : X -> Y -> Prop) l m : Forall2 R l m -> length l = length m.
Proof. induction 1; simpl; auto. Qed.

Section Fin.
Context (sorts : N -> list V).

(** the elements of a type *)
Fixpoint elems (A : V) : list V :=
  nodup V_eq_dec
  match A with
  | VBool => [VTrue; VFalse]
  | VBase m i n => map (VElt m i n) (seq 0 n)
  | VPi A Bs => if Nat.eqb (length Bs) (length (elems A)) then map (VFun A) (choices (map elems Bs)) else []
  | VSort k => sorts k
  | _ => []
  end.

Lemma elems_nodup A : NoDup (elems A).
Proof. destruct A; apply NoDup_nodup. Qed.

Fixpoint index_of (x : V) (l : list V) : nat :=
  match l with [] => 0 | y :: r => if veqb x y then 0 else S (index_of x r) end.

Lemma index_of_nth l : forall x, In x l -> nth_error l (index_of x l) = Some x.
Proof.
  induction l as [|y l IH]; simpl; intros x H; [tauto|].
  destruct (veqb x y) eqn:E.
  - apply veqb_spec in E. subst. reflexivity.
  - apply IH. destruct H; auto. subst. rewrite veqb_refl in E. discriminate.
Qed.
Lemma index_of_unique l : NoDup l -> forall k x, nth_error l k = Some x -> index_of x l = k.
Proof.
  intros H k x Hk. assert (Hi : In x l) by (eapply nth_error_In; eauto).
  eapply (proj1 (NoDup_nth_error l) H).
  - apply nth_error_Some. rewrite index_of_nth; auto. discriminate.
  - rewrite index_of_nth; auto.
Qed.

Definition vb (b : bool) : V := if b then VTrue else VFalse.

Definition vlam (A : V) (f : V -> V) : V := VFun A (map f (elems A)).

Definition vnot : V := vlam VBool (fun x => vb (negb (veqb x VTrue))).
Definition vand : V := vlam VBool (fun x => vlam VBool (fun y => vb (veqb x VTrue && veqb y VTrue))).
Definition vor : V := vlam VBool (fun x => vlam VBool (fun y => vb (veqb x VTrue || veqb y VTrue))).
Definition veq (T : V) : V := vlam T (fun x => vlam T (fun y => vb (veqb x y))).
Definition vite (T : V) : V :=
  vlam VBool (fun c => vlam T (fun x => vlam T (fun y => if veqb c VTrue then x else y))).

Definition vapp (f a : V) : V :=
  match f with
  | VFun A tab => nth (index_of a (elems A)) tab VJunk
  | VEq => veq a
  | VIte => vite a
  | _ => VJunk
  end.

Definition vtype (d : V) : Prop :=
  match d with VBool | VBase _ _ _ | VPi _ _ | VSort _ => True | _ => False end.

Definition vappok (f a : V) : Prop :=
  match f with
  | VFun A tab => In a (elems A) /\ length tab = length (elems A)
  | VEq | VIte => vtype a
  | _ => False
  end.

Definition vbind (k : bkind) (A : V) (f : V -> V) : V :=
  match k with
  | KPi => VPi A (map f (elems A))
  | KLam => vlam A f
  | KAll => vb (forallb (fun x => veqb (f x) VTrue) (elems A))
  | KEx => vb (existsb (fun x => veqb (f x) VTrue) (elems A))
  end.

Definition vsym (I : symbol -> V) (s : symbol) : V :=
  match s with
  | STrue => VTrue | SFalse => VFalse | SNot => vnot | SAnd => vand | SOr => vor
  | SEq => VEq | SIte => VIte | SBool => VBool | SType0 => VSort 0
  | _ => I s
  end.

Lemma bool_elems d : In d (elems VBool) <-> d = VTrue \/ d = VFalse.
Proof. change (elems VBool) with [VTrue; VFalse]. simpl. intuition. Qed.

Lemma vlam_app A f a : In a (elems A) -> vapp (vlam A f) a = f a.
Proof.
  intros H. unfold vlam. simpl.
  apply nth_error_nth. rewrite nth_error_map, index_of_nth; auto.
Qed.

Lemma vlam_ok A f a : vappok (vlam A f) a <-> In a (elems A).
Proof. simpl. rewrite map_length. tauto. Qed.

Lemma pi_elems A B f : In f (elems (VPi A (map B (elems A)))) <->
  exists tab, f = VFun A tab /\ Forall2 (fun x y => In x (elems (B y))) tab (elems A).
Proof.
  cbn [elems]. rewrite nodup_In, map_length, Nat.eqb_refl, in_map_iff. split.
  - intros (tab & <- & H). apply choices_spec in H. exists tab. split; auto.
    rewrite map_map in H. clear -H. remember (elems A) as l. clear Heql. revert tab H.
    induction l; intros tab H; inversion H; subst; constructor; auto.
  - intros (tab & -> & H). exists tab. split; auto. apply choices_spec.
    rewrite map_map. clear -H. induction H; simpl; constructor; auto.
Qed.

Lemma forall2_nth {X Y} (R : X -> Y -> Prop) l m : Forall2 R l m -> forall k y, nth_error m k = Some y ->
  exists x, nth_error l k = Some x /\ R x y.
Proof.
  induction 1 as [|x y l m Hxy H IH]; intros [|k] z E; simpl in *; try discriminate; eauto.
  injection E as <-. eauto.
Qed.

(** Values reachable from truth values and connectives by application: never types. *)
Fixpoint pure (d : V) : Prop :=
  match d with
  | VTrue | VFalse | VJunk => True
  | VEq => True
  | VFun A tab => (fix all l := match l with [] => True | x :: r => pure x /\ all r end) tab
  | _ => False
  end.
Lemma pure_all tab : (fix all l := match l with [] => True | x :: r => pure x /\ all r end) tab <-> Forall pure tab.
Proof. induction tab as [|x l IH]; simpl; [split; auto|]. rewrite IH, Forall_cons_iff. tauto. Qed.
Lemma pure_lam A f : (forall x, In x (elems A) -> pure (f x)) -> pure (vlam A f).
Proof. intros H. simpl. apply pure_all, Forall_forall. intros x Hx. apply in_map_iff in Hx. destruct Hx as (y & <- & Hy). auto. Qed.
Lemma pure_vb b : pure (vb b). Proof. destruct b; simpl; auto. Qed.
Lemma pure_eq T : pure (veq T).
Proof. apply pure_lam. intros. apply pure_lam. intros. apply pure_vb. Qed.
Lemma pure_app f a : pure f -> pure (vapp f a).
Proof.
  destruct f; simpl; auto; try tauto.
  - intros H. apply pure_all in H. destruct (nth_in_or_default (index_of a (elems f)) tab VJunk) as [E|E].
    + eapply Forall_forall in H; eauto.
    + rewrite E. exact I.
  - intros _. apply pure_eq.
Qed.
Lemma pure_fold l : forall f, pure f -> pure (fold_left vapp l f).
Proof. induction l; simpl; intros; auto. apply IHl, pure_app; auto. Qed.
Lemma pure_type d : pure d -> ~ vtype d.
Proof. destruct d; simpl; tauto. Qed.

Definition vmem (x A : V) : Prop := In x (elems A).

Context (I : symbol -> V).

Lemma conn_pure s : is_connective s = true -> pure (vsym I s).
Proof.
  destruct s; simpl is_connective; try discriminate; intros _; cbn [vsym];
    try exact Logic.I; repeat (apply pure_lam; intros); apply pure_vb.
Qed.

Lemma vb_bool b : vmem (vb b) VBool.
Proof. apply bool_elems. destruct b; auto. Qed.
Lemma vb_true b : vb b = VTrue <-> b = true.
Proof. destruct b; simpl; split; congruence. Qed.

Definition fin_model : Model.
Proof.
  refine {| D := V; dsym := vsym I; dapp := vapp; dbind := vbind; mem := vmem; appok := vappok; isty := vtype |}.
  - intros [] A f g H; cbn [vbind].
    + f_equal. apply map_ext_in. auto.
    + unfold vlam. f_equal. apply map_ext_in. auto.
    + f_equal. assert (forall l, incl l (elems A) -> forallb (fun x => veqb (f x) VTrue) l = forallb (fun x => veqb (g x) VTrue) l) as E.
      { induction l as [|x l IH]; simpl; intros Hi; auto. rewrite H, IH; auto.
        - intros y Hy; apply Hi; right; auto.
        - apply Hi; left; auto. }
      apply E, incl_refl.
    + f_equal. assert (forall l, incl l (elems A) -> existsb (fun x => veqb (f x) VTrue) l = existsb (fun x => veqb (g x) VTrue) l) as E.
      { induction l as [|x l IH]; simpl; intros Hi; auto. rewrite H, IH; auto.
        - intros y Hy; apply Hi; right; auto.
        - apply Hi; left; auto. }
      apply E, incl_refl.
  - intros A f a H. cbn [vbind] in *. apply vlam_ok in H. split; auto. apply vlam_app; auto.
  - intros A B f a Hf Ha. apply pi_elems in Hf. destruct Hf as (tab & -> & H). split; [exact Ha|].
    apply (F2len _ _ _ H).
  - intros A B f a Hf Ha. apply pi_elems in Hf. destruct Hf as (tab & -> & H).
    destruct (forall2_nth _ _ _ H _ _ (index_of_nth _ _ Ha)) as (x & E & Hx).
    unfold vmem. simpl. rewrite (nth_error_nth _ _ _ E). exact Hx.
  - intros A B f a Hf Ha. apply pi_elems in Hf. destruct Hf as (tab & -> & H). apply Ha.
  - intros A B f H. apply pi_elems. eexists. split; [reflexivity|].
    assert (G : forall l, incl l (elems A) -> Forall2 (fun x y => In x (elems (B y))) (map f l) l).
    { induction l as [|y l IH]; intros Hi; constructor; [apply H, Hi; left; auto|].
      apply IH. intros z Hz. apply Hi; right; auto. }
    apply G, incl_refl.
  - intros A B f g Hf Hg H. apply pi_elems in Hf, Hg.
    destruct Hf as (tab & -> & H1), Hg as (tab' & -> & H2). f_equal.
    assert (L1 := F2len _ _ _ H1). assert (L2 := F2len _ _ _ H2).
    apply nth_ext with (d := VJunk) (d' := VJunk); [congruence|].
    intros k Hk. destruct (nth_error (elems A) k) as [x|] eqn:E.
    + specialize (H x (nth_error_In _ _ E)). simpl in H.
      rewrite (index_of_unique _ (elems_nodup A) _ _ E) in H. exact H.
    + apply nth_error_None in E. lia.
  - intros x y. destruct (V_eq_dec x y); auto.
  - intros x T H. unfold vmem in H. destruct T; cbn in *; auto.
  - intros T. reflexivity.
  - intros T. reflexivity.
  - intros s l H Ht. apply (pure_type _ (pure_fold l _ (conn_pure s H)) Ht).
  - intros a H. exact H.
  - intros d. apply bool_elems.
  - discriminate.
  - intros d. apply vlam_ok.
  - reflexivity.
  - reflexivity.
  - intros d. apply vlam_ok.
  - intros a b Ha. cbn [vsym]. unfold vand at 1. rewrite vlam_app by exact Ha. apply vlam_ok.
  - intros a b Ha Hb. cbn [vsym]. unfold vand. rewrite !vlam_app by assumption.
    split; [apply vb_bool|]. rewrite vb_true, andb_true_iff, !veqb_spec. reflexivity.
  - intros d. apply vlam_ok.
  - intros a b Ha. cbn [vsym]. unfold vor at 1. rewrite vlam_app by exact Ha. apply vlam_ok.
  - intros a b Ha Hb. cbn [vsym]. unfold vor. rewrite !vlam_app by assumption.
    split; [apply vb_bool|]. rewrite vb_true, orb_true_iff, !veqb_spec. reflexivity.
  - intros T x _. apply vlam_ok.
  - intros T x y _ Hx. cbn [vsym vapp]. unfold veq. rewrite vlam_app by exact Hx. apply vlam_ok.
  - intros T x y _ Hx Hy. cbn [vsym vapp]. unfold veq. rewrite !vlam_app by assumption.
    split; [apply vb_bool|]. rewrite vb_true. apply veqb_spec.
  - intros T c _. apply vlam_ok.
  - intros T c x _ Hc. cbn [vsym vapp]. unfold vite. rewrite vlam_app by exact Hc. apply vlam_ok.
  - intros T c x y _ Hc Hx. cbn [vsym vapp]. unfold vite. rewrite !vlam_app by assumption. apply vlam_ok.
  - intros T x y _ Hx Hy. cbn [vsym vapp]. unfold vite. rewrite !vlam_app; auto. apply bool_elems; auto.
  - intros T x y _ Hx Hy. cbn [vsym vapp]. unfold vite. rewrite !vlam_app; auto. apply bool_elems; auto.
  - intros A f H. cbn [vbind vsym]. split; [apply vb_bool|]. rewrite vb_true, forallb_forall.
    split; intros H' x Hx; [apply veqb_spec|apply veqb_spec]; auto.
  - intros A f H. cbn [vbind vsym]. split; [apply vb_bool|]. rewrite vb_true, existsb_exists.
    split; intros (x & Hx & E); exists x; (split; [exact Hx|]); apply veqb_spec; auto.
Defined.

(** Types built without kinds *)
Fixpoint small (A : V) : Prop :=
  match A with
  | VBool | VBase _ _ _ => True
  | VPi A Bs => small A /\ (fix all l := match l with [] => True | x :: r => small x /\ all r end) Bs
  | _ => False
  end.
Lemma small_all l : (fix all l := match l with [] => True | x :: r => small x /\ all r end) l <-> Forall small l.
Proof. induction l as [|x l IH]; simpl; [split; auto|]. rewrite IH, Forall_cons_iff. tauto. Qed.

Lemma in_elems x A : In x (elems A) ->
  match A with
  | VBool => x = VTrue \/ x = VFalse
  | VBase m i n => exists j, x = VElt m i n j
  | VPi A Bs => exists tab, x = VFun A tab /\ length Bs = length (elems A) /\
      Forall2 (fun x B => In x (elems B)) tab Bs
  | VSort k => In x (sorts k)
  | _ => False
  end.
Proof.
  destruct A; cbn [elems]; rewrite nodup_In; simpl; auto.
  - intuition.
  - rewrite in_map_iff. intros (j & <- & _). eauto.
  - destruct (Nat.eqb_spec (length Bs) (length (elems A))) as [E|E]; simpl; [|tauto].
    rewrite in_map_iff. intros (tab & <- & H). apply choices_spec in H. exists tab. repeat split; auto.
    clear -H. revert tab H. induction Bs; intros tab H; inversion H; subst; constructor; auto.
Qed.

Context (sorts_types : forall k x, In x (sorts k) -> vtype x).

Lemma small_unique x : forall A A', small A -> In x (elems A) -> In x (elems A') -> A = A'.
Proof.
  assert (NT : forall A x, small A -> In x (elems A) -> ~ vtype x).
  { intros A y Hs H. apply in_elems in H. destruct A; simpl in *; try tauto.
    - destruct H; subst; auto.
    - destruct H as (j & ->); auto.
    - destruct H as (tab & -> & _); auto. }
  induction x using V_ind'; intros A A' Hs H1 H2; pose proof (NT _ _ Hs H1) as HN;
    apply in_elems in H1, H2;
    destruct A; simpl in Hs; try tauto; destruct A'; try tauto;
    try (apply sorts_types in H2; tauto);
    repeat match goal with
    | H : exists _, _ |- _ => destruct H
    | H : _ /\ _ |- _ => destruct H
    | H : _ \/ _ |- _ => destruct H
    end; try congruence.
  match goal with H : VFun x l = VFun A _, H' : VFun x l = VFun A' _ |- _ => injection H as -> <-; injection H' as -> <- end.
  f_equal. match goal with H : _ |- _ => apply small_all in H end.
  match goal with Ha : Forall2 _ l Bs, Hb : Forall2 _ l Bs0, Hi : Forall _ l, Hs : Forall small Bs |- _ =>
    clear -Ha Hb Hi Hs; revert Bs0 Hb Hi Hs; induction Ha as [|y B l Bs Hy Ha IH]; intros Bs0 Hb Hi Hs;
    inversion Hb; subst; auto; inversion Hi; inversion Hs; subst; f_equal; eauto end.
Qed.

Context (type0_small : forall x, In x (sorts 0) -> small x).

Lemma fin_model_eta : eta_model fin_model.
Proof.
  intros A f x HA Hx Hf. cbn in *.
  unfold vmem in HA. cbn [elems] in HA. rewrite nodup_In in HA. apply type0_small in HA.
  pose proof (Hf x Hx) as Ho. destruct f; simpl in Ho; try tauto.
  - destruct Ho as [Ho L]. pose proof (small_unique x A f HA Hx Ho) as <-.
    unfold vlam. f_equal. apply nth_ext with (d := vapp (VFun A tab) VJunk) (d' := VJunk).
    + rewrite map_length. auto.
    + intros k Hk. rewrite map_length in Hk. rewrite map_nth.
      simpl. rewrite (index_of_unique _ (elems_nodup A) k); auto.
      apply nth_error_nth'; auto.
  - exfalso. apply in_elems in Hx. destruct A; cbn in HA; try tauto.
    + destruct Hx; subst; exact Ho.
    + destruct Hx as [j ->]; exact Ho.
    + destruct Hx as [tab [-> _]]; exact Ho.
  - exfalso. apply in_elems in Hx. destruct A; cbn in HA; try tauto.
    + destruct Hx; subst; exact Ho.
    + destruct Hx as [j ->]; exact Ho.
    + destruct Hx as [tab [-> _]]; exact Ho.
Qed.
End Fin.
