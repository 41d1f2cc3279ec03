(** Checking by evaluation that a term is well typed in a finite interpretation; only used in
    examples and counter-examples. *)
From Coq Require Import List Arith NArith Bool Lia.
Import ListNotations.
From Verif Require Import Term LocalContext Semantics TermProofs FiniteModel CheckerSem.

Section Check.
Context (sorts : N -> list V) (I : symbol -> V).
Notation M := (fin_model sorts I).
Notation els := (elems sorts).

Definition inb (x : V) (l : list V) : bool := existsb (veqb x) l.
Lemma inb_in x l : inb x l = true <-> In x l.
Proof.
  unfold inb. rewrite existsb_exists. split.
  - intros (y & H & E). apply veqb_spec in E. subst. auto.
  - intros H. exists x. split; auto. apply veqb_refl.
Qed.
Definition vtypeb (d : V) : bool := match d with VBool | VBase _ _ _ | VPi _ _ | VSort _ => true | _ => false end.
Lemma vtypeb_ok d : vtypeb d = true -> vtype d.
Proof. destruct d; simpl; auto; discriminate. Qed.
Definition vappokb (f a : V) : bool :=
  match f with
  | VFun A tab => inb a (els A) && Nat.eqb (length tab) (length (els A))
  | VEq | VIte => vtypeb a
  | _ => false
  end.
Lemma vappokb_ok f a : vappokb f a = true -> vappok sorts f a.
Proof.
  destruct f; simpl; try discriminate; try apply vtypeb_ok. intros H. apply andb_true_iff in H. destruct H as [H1 H2].
  apply Nat.eqb_eq in H2. apply inb_in in H1. auto.
Qed.
Fixpoint wtb (rho bs : nat -> V) (t : term) : bool :=
  match t with
  | TAtom _ => true
  | TApp f a => wtb rho bs f && wtb rho bs a && vappokb (eval M rho bs f) (eval M rho bs a)
  | TBind k A b =>
    wtb rho bs A && vtypeb (eval M rho bs A) &&
    forallb (fun x => wtb rho (scons x bs) b &&
      match k with KAll | KEx => inb (eval M rho (scons x bs) b) [VTrue; VFalse] | _ => true end)
      (els (eval M rho bs A))
  end.
Lemma wtb_ok t : forall rho bs, wtb rho bs t = true -> swt M rho bs t.
Proof.
  induction t as [a|f IHf a IHa|k A IHA b IHb]; intros rho bs H; cbn [wtb] in H; unfold swt; cbn [swtg]; auto.
  - apply andb_true_iff in H. destruct H as [H H3]. apply andb_true_iff in H. destruct H as [H1 H2].
    split; [apply IHf; auto|split; [apply IHa; auto|apply vappokb_ok; auto]].
  - apply andb_true_iff in H. destruct H as [H H3]. apply andb_true_iff in H. destruct H as [H1 H2].
    split; [apply IHA; auto|split; [split; [apply vtypeb_ok; auto|intros; exact Logic.I]|]].
    intros x Hx. rewrite forallb_forall in H3. specialize (H3 x Hx). apply andb_true_iff in H3. destruct H3 as [H3 H4].
    split; [apply IHb; auto|]. destruct k; auto; apply bool_elems; apply inb_in in H4; destruct H4 as [H4|[H4|[]]]; auto.
Qed.
(** a term whose variables have known values *)
Lemma wtb_known rho rho' t : (forall i, In i (vars t) -> rho i = rho' i) -> wtb rho' (nobs M) t = true -> wt M rho t.
Proof.
  intros H W. unfold wt, swt. apply (swtg_ext M _ t rho' rho).
  - intros i Hi. symmetry. apply H; auto.
  - apply wtb_ok; auto.
Qed.
Lemma ev_known rho rho' t : (forall i, In i (vars t) -> rho i = rho' i) -> ev M rho t = ev M rho' t.
Proof. intros H. unfold ev. apply eval_ext; auto. Qed.
End Check.
