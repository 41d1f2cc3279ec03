(** Facts about terms: de Bruijn algebra and its agreement with the semantics. *)
From Coq Require Import List Arith NArith Bool Lia.
Import ListNotations.
From Verif Require Import Term LocalContext Semantics.

Ltac bdestr :=
  repeat (match goal with
  | |- context [Nat.leb ?a ?b] => destruct (Nat.leb_spec a b)
  | |- context [Nat.ltb ?a ?b] => destruct (Nat.ltb_spec a b)
  | |- context [Nat.eqb ?a ?b] => destruct (Nat.eqb_spec a b)
  | H : context [Nat.leb ?a ?b] |- _ => destruct (Nat.leb_spec a b)
  | H : context [Nat.ltb ?a ?b] |- _ => destruct (Nat.ltb_spec a b)
  | H : context [Nat.eqb ?a ?b] |- _ => destruct (Nat.eqb_spec a b)
  end; simpl in *; try lia); auto.

(** * Syntax *)

(** All bound variables are below [d]. *)
Definition lc_at (d : nat) (t : term) : Prop := has_escaping_at d t = false.
Definition lc (t : term) : Prop := has_escaping_bound_variable t = false.

Lemma lc_app d f a : lc_at d (TApp f a) <-> lc_at d f /\ lc_at d a.
Proof. unfold lc_at; simpl. rewrite orb_false_iff. tauto. Qed.
Lemma lc_bind d k A b : lc_at d (TBind k A b) <-> lc_at d A /\ lc_at (S d) b.
Proof. unfold lc_at; simpl. rewrite orb_false_iff. tauto. Qed.
Lemma lc_bound d i : lc_at d (TBound i) <-> i < d.
Proof. unfold lc_at; simpl. rewrite Nat.leb_gt. tauto. Qed.

Lemma lc_weaken t : forall d d', d <= d' -> lc_at d t -> lc_at d' t.
Proof.
  induction t as [[i|i|s]|f IHf a IHa|k A IHA b IHb]; intros d d' Hd.
  - auto.
  - rewrite !lc_bound. lia.
  - auto.
  - rewrite !lc_app. intros [? ?]; split; eauto.
  - rewrite !lc_bind. intros [? ?]; split; [eauto|]. apply IHb with (S d); auto. lia.
Qed.

Lemma shift_up_lc t : forall c k, lc_at c t -> shift_up c k t = t.
Proof.
  induction t as [[i|i|s]|f IHf a IHa|kk A IHA b IHb]; intros c k H; simpl; auto.
  - apply lc_bound in H. bdestr.
  - apply lc_app in H. destruct H. rewrite IHf, IHa; auto.
  - apply lc_bind in H. destruct H. rewrite IHA, IHb; auto.
Qed.

Lemma shift_up_0 t : forall c, shift_up c 0 t = t.
Proof.
  induction t as [[i|i|s]|f IHf a IHa|kk A IHA b IHb]; intros c; simpl; auto.
  - bdestr. f_equal. f_equal. lia.
  - rewrite IHf, IHa; auto.
  - rewrite IHA, IHb; auto.
Qed.

Lemma shift_up_add t : forall c j k, shift_up c j (shift_up c k t) = shift_up c (j + k) t.
Proof.
  induction t as [[i|i|s]|f IHf a IHa|kk A IHA b IHb]; intros c j k; simpl; auto.
  - bdestr. f_equal. f_equal. lia.
  - rewrite IHf, IHa; auto.
  - rewrite IHA, IHb; auto.
Qed.

(** Shifting up then down gives the term back and never panics. *)
Lemma shift_down_up t : forall c k, shift_down c k (shift_up c k t) = Some t.
Proof.
  induction t as [[i|i|s]|f IHf a IHa|kk A IHA b IHb]; intros c k; simpl; auto.
  - bdestr. f_equal. f_equal. f_equal. lia.
  - rewrite IHf, IHa; auto.
  - rewrite IHA, IHb; auto.
Qed.

(** Simultaneous presentation of opening: index [d] becomes [r], larger indexes go down. *)
Fixpoint open_at (d : nat) (r : term) (t : term) : term :=
  match t with
  | TAtom (BoundVar i) =>
    if Nat.ltb i d then t else if Nat.eqb i d then shift_up 0 d r else TBound (i - 1)
  | TAtom _ => t
  | TApp f a => TApp (open_at d r f) (open_at d r a)
  | TBind k A b => TBind k (open_at d r A) (open_at (S d) r b)
  end.

Lemma shift_up_comm t : forall c c' k k', c' <= c ->
  shift_up (c + k') k (shift_up c' k' t) = shift_up c' k' (shift_up c k t).
Proof.
  induction t as [[i|i|s]|f IHf a IHa|kk A IHA b IHb]; intros c c' k k' H; simpl; auto.
  - bdestr. f_equal. f_equal. lia.
  - rewrite IHf, IHa; auto.
  - rewrite IHA; auto. f_equal. change (S (c + k')) with (S c + k'). rewrite IHb; auto. lia.
Qed.

Lemma open_at_spec t : forall d r,
  shift_down d 1 (substitute_bound_at 0 (shift_up 0 1 r) d t) = Some (open_at d r t).
Proof.
  induction t as [[i|i|s]|f IHf a IHa|kk A IHA b IHb]; intros d r; simpl; auto.
  - destruct (Nat.eqb_spec i d) as [->|Hn].
    + destruct (Nat.ltb_spec d d); [lia|]. rewrite shift_up_add.
      replace (d + 1) with (1 + d) by lia.
      assert (E : shift_up 0 (1 + d) r = shift_up d 1 (shift_up 0 d r)).
      { replace (1 + d) with (d + 1) by lia. rewrite <- shift_up_add.
        rewrite <- (shift_up_comm r 0 0 1 d) by lia. reflexivity. }
      rewrite E. apply shift_down_up.
    + destruct i as [|i]; bdestr.
  - rewrite IHf, IHa; auto.
  - rewrite IHA, IHb; auto.
Qed.

(** [open_bound] never panics and is capture-avoiding opening. *)
Lemma open_bound_spec t r : open_bound t r = Some (open_at 0 r t).
Proof. apply open_at_spec. Qed.

Lemma open_at_lc t : forall d r, lc_at d t -> open_at d r t = t.
Proof.
  induction t as [[i|i|s]|f IHf a IHa|kk A IHA b IHb]; intros d r H; simpl; auto.
  - apply lc_bound in H. bdestr.
  - apply lc_app in H. destruct H. rewrite IHf, IHa; auto.
  - apply lc_bind in H. destruct H. rewrite IHA, IHb; auto.
Qed.

Lemma shift_up_lc_at t : forall c k d, lc_at d t -> lc_at (d + k) (shift_up c k t).
Proof.
  induction t as [[i|i|s]|f IHf a IHa|kk A IHA b IHb]; intros c k d H; simpl; auto.
  - apply lc_bound in H. bdestr; apply lc_bound; lia.
  - apply lc_app in H. destruct H. apply lc_app. split; auto.
  - apply lc_bind in H. destruct H. apply lc_bind. split; auto. apply (IHb (S c) k (S d)); auto.
Qed.

Lemma open_at_closed t : forall d n r, lc_at n r -> lc_at (S d + n) t -> lc_at (d + n) (open_at d r t).
Proof.
  induction t as [[i|i|s]|f IHf a IHa|kk A IHA b IHb]; intros d n r Hr H; simpl; auto.
  - apply lc_bound in H. bdestr.
    + apply lc_bound. lia.
    + replace (d + n) with (n + d) by lia. apply shift_up_lc_at; auto.
    + apply lc_bound. lia.
  - apply lc_app in H. destruct H. apply lc_app. split; auto.
  - apply lc_bind in H. destruct H. apply lc_bind. split; auto. apply (IHb (S d) n); auto.
Qed.

Lemma open_at_lc0 t r : lc r -> lc_at 1 t -> lc (open_at 0 r t).
Proof. intros. apply (open_at_closed t 0 0 r); auto. Qed.

Lemma no_bound_lc t : forall d, has_bound_variable t = false -> lc_at d t.
Proof.
  induction t as [[i|i|s]|f IHf a IHa|kk A IHA b IHb]; intros d H; simpl in *; auto.
  - discriminate.
  - apply orb_false_iff in H. destruct H. apply lc_app; auto.
  - apply orb_false_iff in H. destruct H. apply lc_bind; auto.
Qed.

(** A body that does not mention its binder is a shifted term, and opening undoes the shift. *)
Lemma references_bound_open t : forall d r,
  references_bound_at 0 d t = false ->
  exists u, t = shift_up d 1 u /\ open_at d r t = u.
Proof.
  induction t as [[i|i|s]|f IHf a IHa|kk A IHA b IHb]; intros d r H; simpl in *.
  - exists (TVar i); auto.
  - apply Nat.eqb_neq in H. destruct (Nat.ltb_spec i d).
    + exists (TBound i). simpl. bdestr.
    + exists (TBound (i - 1)). simpl. bdestr. split; auto. f_equal. f_equal. lia.
  - exists (TSym s); auto.
  - apply orb_false_iff in H. destruct H.
    destruct (IHf d r) as (u & U1 & U2); auto. destruct (IHa d r) as (v & V1 & V2); auto.
    exists (TApp u v). simpl. rewrite <- U1, <- V1, U2, V2. auto.
  - apply orb_false_iff in H. destruct H.
    destruct (IHA d r) as (u & U1 & U2); auto. destruct (IHb (S d) r) as (v & V1 & V2); auto.
    exists (TBind kk u v). simpl. rewrite <- U1, <- V1, U2, V2. auto.
Qed.

Lemma references_bound_shift t : forall d, references_bound_at 0 d (shift_up d 1 t) = false.
Proof.
  induction t as [[i|i|s]|f IHf a IHa|kk A IHA b IHb]; intros d; simpl; auto.
  - bdestr; apply Nat.eqb_neq; lia.
  - rewrite IHf, IHa; auto.
  - rewrite IHA, IHb; auto.
Qed.

(** * Variables *)

Lemma has_variable_vars x t : has_variable x t = true <-> In x (vars t).
Proof.
  unfold vars. induction t as [[i|i|s]|f IHf a IHa|kk A IHA b IHb]; simpl.
  - rewrite Nat.eqb_eq. intuition.
  - split; [discriminate|tauto].
  - split; [discriminate|tauto].
  - unfold atom_vars in *. rewrite flat_map_app, in_app_iff, orb_true_iff. tauto.
  - unfold atom_vars in *. rewrite flat_map_app, in_app_iff, orb_true_iff. tauto.
Qed.

Lemma vars_app f a : vars (TApp f a) = vars f ++ vars a.
Proof. unfold vars, atom_vars. simpl. apply flat_map_app. Qed.
Lemma vars_bind k f a : vars (TBind k f a) = vars f ++ vars a.
Proof. unfold vars, atom_vars. simpl. apply flat_map_app. Qed.

Lemma has_variable_false x t : has_variable x t = false <-> ~ In x (vars t).
Proof. rewrite <- has_variable_vars. destruct (has_variable x t); split; congruence. Qed.

Lemma replace_variable_notin id v t : ~ In id (vars t) -> replace_variable id v t = t.
Proof.
  induction t as [[i|i|s]|f IHf a IHa|kk A IHA b IHb]; simpl; auto.
  - intros H. destruct (Nat.eqb_spec i id); auto. subst. exfalso. apply H. left; auto.
  - rewrite vars_app. intros H. rewrite IHf, IHa; auto; intros ?; apply H, in_app_iff; auto.
  - rewrite vars_bind. intros H. rewrite IHA, IHb; auto; intros ?; apply H, in_app_iff; auto.
Qed.

Lemma replace_variable_vars id v t x :
  In x (vars (replace_variable id v t)) -> (In x (vars t) /\ x <> id) \/ In x (vars v).
Proof.
  induction t as [[i|i|s]|f IHf a IHa|kk A IHA b IHb]; simpl.
  - destruct (Nat.eqb_spec i id); auto. intros [<-|[]]. left. split; auto.
  - intros [].
  - intros [].
  - rewrite !vars_app, !in_app_iff. intros [H|H]; [apply IHf in H|apply IHa in H]; tauto.
  - rewrite !vars_bind, !in_app_iff. intros [H|H]; [apply IHA in H|apply IHb in H]; tauto.
Qed.

Lemma replace_variable_lc id v t : forall d, lc v -> lc_at d t -> lc_at d (replace_variable id v t).
Proof.
  induction t as [[i|i|s]|f IHf a IHa|kk A IHA b IHb]; intros d Hv H; simpl; auto.
  - destruct (Nat.eqb_spec i id); auto. apply lc_weaken with 0; auto. lia.
  - apply lc_app in H. apply lc_app. intuition.
  - apply lc_bind in H. apply lc_bind. intuition.
Qed.

(** Abstracting one free variable: [convert_free_to_bound] with one parameter at depth [d]. *)
Lemma convert_open t : forall d, lc_at d t -> ~ In 0 (vars t) ->
  convert_free_to_bound_at 1 d t = t.
Proof.
  induction t as [[i|i|s]|f IHf a IHa|kk A IHA b IHb]; intros d H Hv; simpl; auto.
  - destruct (Nat.ltb_spec i 1); auto. exfalso. apply Hv. left. lia.
  - apply lc_bound in H. bdestr.
  - apply lc_app in H. destruct H. rewrite vars_app, in_app_iff in Hv. rewrite IHf, IHa; auto.
  - apply lc_bind in H. destruct H. rewrite vars_bind, in_app_iff in Hv. rewrite IHA, IHb; auto.
Qed.

(** Opening with a variable and abstracting it again. *)
Lemma close_open t : forall d, ~ In 0 (vars t) -> lc_at (S d) t ->
  convert_free_to_bound_at 1 d (open_at d (TVar 0) t) = t.
Proof.
  induction t as [[i|i|s]|f IHf a IHa|kk A IHA b IHb]; intros d Hv H; simpl; auto.
  - destruct (Nat.ltb_spec i 1); auto. exfalso. apply Hv. left. lia.
  - apply lc_bound in H. destruct (Nat.ltb_spec i d); simpl.
    + bdestr.
    + destruct (Nat.eqb_spec i d); [|lia]. subst. simpl. f_equal. f_equal. lia.
  - apply lc_app in H. destruct H. rewrite vars_app, in_app_iff in Hv. rewrite IHf, IHa; auto.
  - apply lc_bind in H. destruct H. rewrite vars_bind, in_app_iff in Hv. rewrite IHA, IHb; auto.
Qed.

Lemma open_close t : forall d, lc_at d t ->
  open_at d (TVar 0) (convert_free_to_bound_at 1 d t) = t.
Proof.
  induction t as [[i|i|s]|f IHf a IHa|kk A IHA b IHb]; intros d H; simpl; auto.
  - destruct (Nat.ltb_spec i 1); auto. simpl. replace (d + 1 - 1 - i) with d by lia.
    bdestr. f_equal. f_equal. lia.
  - apply lc_bound in H. bdestr.
  - apply lc_app in H. destruct H. rewrite IHf, IHa; auto.
  - apply lc_bind in H. destruct H. rewrite IHA, IHb; auto.
Qed.

(** * Semantics *)
Section Sem.
Context (M : Model).
Implicit Types rho bs : nat -> D M.

Lemma scons_ext (x : D M) b1 b2 : (forall i, b1 i = b2 i) -> forall i, scons x b1 i = scons x b2 i.
Proof. intros H [|i]; simpl; auto. Qed.

(** Evaluation only looks at the variables that occur. *)
Lemma eval_ext t : forall rho1 rho2 bs1 bs2,
  (forall i, In i (vars t) -> rho1 i = rho2 i) ->
  (forall i d, lc_at d t \/ d <= i -> i < d \/ bs1 i = bs2 i) -> (forall i, bs1 i = bs2 i) ->
  eval M rho1 bs1 t = eval M rho2 bs2 t.
Proof.
  induction t as [[i|i|s]|f IHf a IHa|k A IHA b IHb]; intros rho1 rho2 bs1 bs2 H _ Hb; simpl; auto.
  - apply H. left. auto.
  - rewrite (IHf rho1 rho2 bs1 bs2), (IHa rho1 rho2 bs1 bs2); auto;
      intros; apply H; rewrite vars_app, in_app_iff; auto.
  - rewrite (IHA rho1 rho2 bs1 bs2); auto.
    2:{ intros; apply H; rewrite vars_bind, in_app_iff; auto. }
    apply bind_ext. intros x _. apply IHb.
    + intros; apply H; rewrite vars_bind, in_app_iff; auto.
    + intros i d _. right. apply scons_ext; auto.
    + apply scons_ext; auto.
Qed.

(** A term closed at [d] only looks at the first [d] bound variables. *)
Lemma eval_agree t : forall d rho1 rho2 bs1 bs2,
  (forall i, In i (vars t) -> rho1 i = rho2 i) -> lc_at d t -> (forall i, i < d -> bs1 i = bs2 i) ->
  eval M rho1 bs1 t = eval M rho2 bs2 t.
Proof.
  induction t as [[i|i|s]|f IHf a IHa|k A IHA b IHb]; intros d rho1 rho2 bs1 bs2 H Hl Hb; simpl; auto.
  - apply H. left. auto.
  - apply lc_bound in Hl. auto.
  - apply lc_app in Hl. destruct Hl.
    rewrite (IHf d rho1 rho2 bs1 bs2), (IHa d rho1 rho2 bs1 bs2); auto;
      intros; apply H; rewrite vars_app, in_app_iff; auto.
  - apply lc_bind in Hl. destruct Hl. rewrite (IHA d rho1 rho2 bs1 bs2); auto.
    2:{ intros; apply H; rewrite vars_bind, in_app_iff; auto. }
    apply bind_ext. intros x _. apply IHb with (S d); auto.
    + intros; apply H; rewrite vars_bind, in_app_iff; auto.
    + intros [|i] Hi; simpl; auto. apply Hb. lia.
Qed.

Lemma eval_lc rho bs1 bs2 t : lc t -> eval M rho bs1 t = eval M rho bs2 t.
Proof. intros H. apply eval_agree with 0; auto. intros; lia. Qed.

Lemma eval_bs rho bs1 bs2 t : (forall i, bs1 i = bs2 i) -> eval M rho bs1 t = eval M rho bs2 t.
Proof. intros H. apply eval_ext; auto. Qed.

Context (P : D M -> Prop).

Lemma swt_agree t : forall d rho1 rho2 bs1 bs2,
  (forall i, In i (vars t) -> rho1 i = rho2 i) -> lc_at d t -> (forall i, i < d -> bs1 i = bs2 i) ->
  swtg M P rho1 bs1 t -> swtg M P rho2 bs2 t.
Proof.
  induction t as [[i|i|s]|f IHf a IHa|k A IHA b IHb]; intros d rho1 rho2 bs1 bs2 H Hl Hb Hs; simpl in *; auto.
  - apply lc_app in Hl. destruct Hl, Hs as (S1 & S2 & S3).
    assert (Hf : forall i, In i (vars f) -> rho1 i = rho2 i)
      by (intros; apply H; rewrite vars_app, in_app_iff; auto).
    assert (Ha : forall i, In i (vars a) -> rho1 i = rho2 i)
      by (intros; apply H; rewrite vars_app, in_app_iff; auto).
    rewrite <- (eval_agree f d rho1 rho2 bs1 bs2), <- (eval_agree a d rho1 rho2 bs1 bs2); auto.
    repeat split; eauto.
  - apply lc_bind in Hl. destruct Hl, Hs as (S1 & ST & S2).
    assert (HA : forall i, In i (vars A) -> rho1 i = rho2 i)
      by (intros; apply H; rewrite vars_bind, in_app_iff; auto).
    assert (Hbv : forall i, In i (vars b) -> rho1 i = rho2 i)
      by (intros; apply H; rewrite vars_bind, in_app_iff; auto).
    rewrite <- (eval_agree A d rho1 rho2 bs1 bs2) by auto.
    split; eauto. split; auto. intros x Hx. specialize (S2 x Hx).
    assert (Hb' : forall i, i < S d -> scons x bs1 i = scons x bs2 i).
    { intros [|i] Hi; simpl; auto. apply Hb. lia. }
    destruct S2 as [S2 S3]. split; [eapply IHb; eauto|].
    rewrite <- (eval_agree b (S d) rho1 rho2 (scons x bs1) (scons x bs2)); auto.
Qed.

Lemma swt_bs t : forall rho bs1 bs2, (forall i, bs1 i = bs2 i) ->
  swtg M P rho bs1 t -> swtg M P rho bs2 t.
Proof.
  induction t as [[i|i|s]|f IHf a IHa|k A IHA b IHb]; intros rho bs1 bs2 Hb Hs; simpl in *; auto.
  - destruct Hs as (S1 & S2 & S3).
    rewrite <- (eval_bs rho bs1 bs2 f), <- (eval_bs rho bs1 bs2 a); auto. repeat split; eauto.
  - destruct Hs as (S1 & ST & S2). rewrite <- (eval_bs rho bs1 bs2 A) by auto.
    split; eauto. split; auto. intros x Hx. destruct (S2 x Hx) as [S3 S4].
    pose proof (scons_ext x bs1 bs2 Hb). split; [eapply IHb; eauto|].
    rewrite <- (eval_bs rho (scons x bs1) (scons x bs2) b); auto.
Qed.

(** Shifting: the term is evaluated with [k] entries of the environment skipped at [c]. *)
Definition skip (c k : nat) bs : nat -> D M := fun i => if Nat.ltb i c then bs i else bs (i + k).

Lemma scons_skip (x : D M) c k bs i : scons x (skip c k bs) i = skip (S c) k (scons x bs) i.
Proof.
  destruct i as [|i]; unfold skip; simpl; auto.
Qed.

Lemma eval_shift t : forall c k rho bs, eval M rho bs (shift_up c k t) = eval M rho (skip c k bs) t.
Proof.
  induction t as [[i|i|s]|f IHf a IHa|kk A IHA b IHb]; intros c k rho bs; simpl; auto.
  - unfold skip. bdestr.
  - rewrite IHf, IHa; auto.
  - rewrite IHA. apply bind_ext. intros x _. rewrite IHb. apply eval_bs.
    intros i. symmetry. apply scons_skip.
Qed.

Lemma swt_shift t : forall c k rho bs, swtg M P rho bs (shift_up c k t) <-> swtg M P rho (skip c k bs) t.
Proof.
  induction t as [[i|i|s]|f IHf a IHa|kk A IHA b IHb]; intros c k rho bs; simpl; try tauto.
  - destruct (Nat.leb c i); simpl; tauto.
  - rewrite IHf, IHa, !eval_shift. tauto.
  - rewrite IHA, eval_shift.
    assert (E : forall x, swtg M P rho (scons x bs) (shift_up (S c) k b) <->
                          swtg M P rho (scons x (skip c k bs)) b).
    { intros x. rewrite IHb. split; apply swt_bs; intros i; rewrite scons_skip; auto. }
    assert (E2 : forall x, eval M rho (scons x bs) (shift_up (S c) k b) =
                           eval M rho (scons x (skip c k bs)) b).
    { intros x. rewrite eval_shift. apply eval_bs. intros i. rewrite scons_skip; auto. }
    split; intros (H1 & HT & H2); split; auto; split; auto; intros x Hx; destruct (H2 x Hx) as [H3 H4];
      (split; [apply E; auto|]); destruct kk; auto; rewrite E2 in *; auto.
Qed.

(** Insert a value at index [d]. *)
Definition ins (d : nat) (v : D M) bs : nat -> D M :=
  fun i => if Nat.ltb i d then bs i else if Nat.eqb i d then v else bs (i - 1).

Lemma scons_ins (x : D M) d v bs i : scons x (ins d v bs) i = ins (S d) v (scons x bs) i.
Proof.
  destruct i as [|i]; unfold ins; simpl; auto.
  destruct (Nat.ltb_spec i d), (Nat.ltb_spec (S i) (S d)); auto; try lia.
  destruct (Nat.eqb_spec i d); auto.
  destruct i as [|i]; [lia|]. simpl. rewrite ?Nat.sub_0_r. auto.
Qed.

Lemma ins_0 v bs i : ins 0 v bs i = scons v bs i.
Proof. unfold ins. destruct i; simpl; auto. rewrite ?Nat.sub_0_r. auto. Qed.

Lemma eval_open_at t : forall d r rho bs,
  eval M rho bs (open_at d r t) = eval M rho (ins d (eval M rho (skip 0 d bs) r) bs) t.
Proof.
  induction t as [[i|i|s]|f IHf a IHa|kk A IHA b IHb]; intros d r rho bs; simpl; auto.
  - unfold ins. destruct (Nat.ltb_spec i d); simpl; auto.
    destruct (Nat.eqb_spec i d); simpl; auto. apply eval_shift.
  - rewrite IHf, IHa; auto.
  - rewrite IHA. apply bind_ext. intros x _. rewrite IHb. apply eval_bs.
    intros i. rewrite scons_ins. unfold ins. destruct (Nat.ltb i (S d)); auto.
    destruct (Nat.eqb i (S d)); auto. apply eval_bs. intros j. unfold skip. simpl.
    replace (j + S d) with (S (j + d)) by lia. auto.
Qed.

(** Opening a binder is evaluation in the extended environment. *)
Lemma eval_open t r rho bs :
  eval M rho bs (open_at 0 r t) = eval M rho (scons (eval M rho bs r) bs) t.
Proof.
  rewrite eval_open_at. apply eval_bs. intros i. rewrite ins_0. destruct i; simpl; auto.
  apply eval_bs. intros j. unfold skip. simpl. f_equal. lia.
Qed.

Lemma swt_open_at t : forall d r rho bs,
  swtg M P rho (skip 0 d bs) r ->
  swtg M P rho (ins d (eval M rho (skip 0 d bs) r) bs) t -> swtg M P rho bs (open_at d r t).
Proof.
  induction t as [[i|i|s]|f IHf a IHa|kk A IHA b IHb]; intros d r rho bs Hr H; simpl in *; auto.
  - destruct (Nat.ltb i d); simpl; auto. destruct (Nat.eqb i d); simpl; auto.
    apply swt_shift; auto.
  - destruct H as (H1 & H2 & H3). rewrite !eval_open_at. auto.
  - destruct H as (H1 & HT & H2). split; auto. rewrite eval_open_at. split; auto. intros x Hx.
    destruct (H2 x Hx) as [H3 H4].
    assert (Hr' : swtg M P rho (skip 0 (S d) (scons x bs)) r).
    { eapply swt_bs; [|exact Hr]. intros j. unfold skip. simpl.
      replace (j + S d) with (S (j + d)) by lia. auto. }
    assert (E : forall i, scons x (ins d (eval M rho (skip 0 d bs) r) bs) i =
                ins (S d) (eval M rho (skip 0 (S d) (scons x bs)) r) (scons x bs) i).
    { intros i. rewrite scons_ins. unfold ins. destruct (Nat.ltb i (S d)); auto.
      destruct (Nat.eqb i (S d)); auto. apply eval_bs. intros j. unfold skip. simpl.
      replace (j + S d) with (S (j + d)) by lia. auto. }
    split.
    + apply IHb; auto. eapply swt_bs; [|exact H3]. exact E.
    + destruct kk; auto; rewrite eval_open_at;
        (erewrite eval_bs; [exact H4|]); intros i; symmetry; apply E.
Qed.

Lemma swt_open t r rho bs :
  swtg M P rho bs r -> swtg M P rho (scons (eval M rho bs r) bs) t -> swtg M P rho bs (open_at 0 r t).
Proof.
  intros Hr Ht. apply swt_open_at.
  - eapply swt_bs; [|exact Hr]. intros j. unfold skip. simpl. f_equal. lia.
  - eapply swt_bs; [|exact Ht]. intros i. rewrite ins_0. destruct i; simpl; auto.
    apply eval_bs. intros j. unfold skip. simpl. f_equal. lia.
Qed.

(** Replacing a free variable by a closed term is a change of assignment. *)
Definition upd (rho : nat -> D M) (x : nat) (v : D M) : nat -> D M :=
  fun i => if Nat.eqb i x then v else rho i.

Lemma eval_replace id v t : lc v -> forall rho bs bs',
  eval M rho bs (replace_variable id v t) = eval M (upd rho id (eval M rho bs' v)) bs t.
Proof.
  intros Hv. induction t as [[i|i|s]|f IHf a IHa|kk A IHA b IHb]; intros rho bs bs'; simpl; auto.
  - unfold upd. destruct (Nat.eqb i id); auto. apply eval_lc; auto.
  - rewrite (IHf rho bs bs'), (IHa rho bs bs'); auto.
  - rewrite (IHA rho bs bs'). apply bind_ext. intros x _. apply IHb.
Qed.

Lemma swt_replace id v t : lc v -> forall rho bs bs',
  swtg M P rho bs' v -> swtg M P (upd rho id (eval M rho bs' v)) bs t ->
  swtg M P rho bs (replace_variable id v t).
Proof.
  intros Hv. induction t as [[i|i|s]|f IHf a IHa|kk A IHA b IHb]; intros rho bs bs' Hw H; simpl in *; auto.
  - destruct (Nat.eqb i id); simpl; auto. apply (swt_agree v 0 rho rho bs' bs); auto. intros; lia.
  - destruct H as (H1 & H2 & H3). rewrite !(eval_replace id v) with (bs' := bs') by auto. eauto.
  - destruct H as (H1 & HT & H2). split; eauto. rewrite (eval_replace id v A) with (bs' := bs') by auto.
    split; auto. intros x Hx. destruct (H2 x Hx) as [H3 H4].
    rewrite (eval_replace id v b) with (bs' := bs') by auto. eauto.
Qed.

End Sem.

Section Sem2.
Context (M : Model).

(** Abstracting the first [n] free variables: they are read from the [n] new binders (the last
    variable from the innermost), and references to outer binders skip them. *)
Lemma eval_convert t : forall n d (rho bs : nat -> D M),
  eval M rho bs (convert_free_to_bound_at n d t) =
  eval M (fun i => if Nat.ltb i n then bs (d + n - 1 - i) else rho i)
         (fun i => if Nat.ltb i d then bs i else bs (i + n)) t.
Proof.
  induction t as [[i|i|s]|f IHf a IHa|kk A IHA b IHb]; intros n d rho bs; simpl; auto.
  - destruct (Nat.ltb i n); simpl; auto.
  - bdestr.
  - rewrite IHf, IHa; auto.
  - rewrite IHA. apply bind_ext. intros x _. rewrite IHb. apply eval_ext.
    + intros i _. destruct (Nat.ltb_spec i n); auto.
      replace (S d + n - 1 - i) with (S (d + n - 1 - i)) by lia. auto.
    + intros i dd _. right. destruct i; simpl; auto. 
    + intros i. destruct i as [|i]; simpl; auto.
Qed.

End Sem2.
