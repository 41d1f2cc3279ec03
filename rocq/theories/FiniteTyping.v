(** Finite interpretations respect the types of the built-in symbols. *)
From Coq Require Import List Arith NArith Bool.
Import ListNotations.
From Verif Require Import Term LocalContext Semantics FiniteModel Typing TypingProofs.

Lemma fin_respects sorts I K : In VBool (sorts 0%N) -> (forall x, In x (sorts 0%N) -> vtype x) ->
  (forall m i rho, wt (fin_model sorts I) rho (k_type K m i)) ->
  (forall m i rho, wt (fin_model sorts I) rho (k_global K m i)) ->
  (forall i rho, wt (fin_model sorts I) rho (k_scoped K i)) ->
  (forall m i rho, mem (fin_model sorts I) (I (SType m i)) (ev (fin_model sorts I) rho (k_type K m i))) ->
  (forall m i rho, mem (fin_model sorts I) (I (SGlobal m i)) (ev (fin_model sorts I) rho (k_global K m i))) ->
  (forall i rho, mem (fin_model sorts I) (I (SScoped i)) (ev (fin_model sorts I) rho (k_scoped K i))) ->
  respects (fin_model sorts I) K.
Proof.
  intros HB HV WT WG WS HT HG HS. set (M := fin_model sorts I) in *.
  constructor.
  - intros [] H rho; simpl in H; try contradiction; try apply HT; try apply HG; try apply HS.
    + apply bool_elems; auto.
    + apply bool_elems; auto.
    + unfold ev. cbn [symbol_type tarrow eval]. change (dsym M SNot) with (dbind M KLam VBool (fun x => vb (negb (veqb x VTrue)))).
      apply lam_pi. intros x Hx. apply vb_bool.
    + unfold ev. cbn [symbol_type tarrow eval]. change (dsym M SAnd) with
        (dbind M KLam VBool (fun x => dbind M KLam VBool (fun y => vb (veqb x VTrue && veqb y VTrue)))).
      apply lam_pi. intros x Hx. apply lam_pi. intros y Hy. apply vb_bool.
    + unfold ev. cbn [symbol_type tarrow eval]. change (dsym M SOr) with
        (dbind M KLam VBool (fun x => dbind M KLam VBool (fun y => vb (veqb x VTrue || veqb y VTrue)))).
      apply lam_pi. intros x Hx. apply lam_pi. intros y Hy. apply vb_bool.
    + change (In VBool (nodup V_eq_dec (sorts 0%N))). apply nodup_In; auto.
  - intros T _. unfold arrowd. change (dapp M (dsym M SEq) T) with
      (dbind M KLam T (fun x => dbind M KLam T (fun y => vb (veqb x y)))).
    apply lam_pi. intros x Hx. apply lam_pi. intros y Hy. apply vb_bool.
  - intros T _. unfold arrowd. change (dapp M (dsym M SIte) T) with
      (dbind M KLam VBool (fun c => dbind M KLam T (fun x => dbind M KLam T (fun y => if veqb c VTrue then x else y)))).
    apply lam_pi. intros c Hc. apply lam_pi. intros x Hx. apply lam_pi. intros y Hy. destruct (veqb c VTrue); auto.
  - assert (TB : forall k, bindty M (anydom M) k VBool) by (intros k; split; intros; exact Logic.I).
    assert (TV : forall k x, vmem sorts x (VSort 0) -> bindty M (anydom M) k x).
    { intros k x Hx. split; [|intros; exact Logic.I]. apply HV. unfold vmem in Hx. cbn [elems] in Hx. rewrite nodup_In in Hx. exact Hx. }
    assert (TT : bindty M (anydom M) KPi (VSort 0)) by (split; intros; exact Logic.I).
    intros [] rho; try exact Logic.I; try apply WT; try apply WG; try apply WS;
      unfold wt, swt; simpl; repeat split; intros; repeat split; intros; repeat split; intros; repeat split; intros; try exact Logic.I;
      try (apply TV; assumption); try (apply (TV KPi); assumption).
Qed.
