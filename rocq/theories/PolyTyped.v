(** Specification: typed terms with free type variables.  The types are those of the code, without
    dependency on values; [g] gives the types of the free variables and the kinds of the type
    variables.  Nothing here refers to an interpretation. *)
From Coq Require Import List Arith NArith Bool Lia.
Import ListNotations.
From Verif Require Import Term LocalContext TermProofs Typing TypingProofs Monomorphic.

Definition tenv := nat -> option term.
Definition gupd (g : tenv) (v : nat) (A : term) : tenv := fun i => if Nat.eqb i v then Some A else g i.

Section Typed.
Context (K : kctx).
(** how many arguments a type of this kind takes *)
Fixpoint arity (k : term) : nat := match k with TBind KPi _ B => S (arity B) | _ => 0 end.
(** [T] applied to [n] more arguments is a type *)
Fixpoint ptm (g : tenv) (n : nat) (T : term) : bool :=
  match T with
  | TAtom (Sym SBool) => Nat.eqb n 0
  | TAtom (Sym (SType m i)) => Nat.eqb n (arity (k_type K m i))
  | TAtom (FreeVar i) => match g i with Some k => is_type_param_kind k && Nat.eqb n 0 | None => false end
  | TApp f a => ptm g (S n) f && ptm g 0 a
  | TBind KPi A B => Nat.eqb n 0 && (ptm g 0 A && ptm g 0 B)
  | _ => false
  end.
Notation ptype g := (ptm g 0).
Inductive typed (g : tenv) : list term -> term -> term -> Prop :=
| ty_var : forall bs i T, g i = Some T -> ptype g T = true -> typed g bs (TVar i) T
| ty_bound : forall bs i T, nth_error bs i = Some T -> ptype g T = true -> typed g bs (TBound i) T
| ty_sym : forall bs s, value_symbol s = true -> typed g bs (TSym s) (symbol_type K s)
| ty_eq : forall bs T, ptype g T = true -> typed g bs (TApp (TSym SEq) T) (tarrow T (tarrow T tbool))
| ty_ite : forall bs T, ptype g T = true -> typed g bs (TApp (TSym SIte) T) (tarrow tbool (tarrow T (tarrow T T)))
| ty_app : forall bs f a A B, typed g bs f (TBind KPi A B) -> ptype g A = true ->
    has_escaping_bound_variable B = false -> typed g bs a A -> typed g bs (TApp f a) B
| ty_inst : forall bs f k T B, typed g bs f (TBind KPi k B) -> is_type_param_kind k = true ->
    ptype g T = true -> typed g bs (TApp f T) (open_at 0 T B)
| ty_lam : forall bs A b B, ptype g A = true -> ptype g B = true -> typed g (A :: bs) b B ->
    typed g bs (TBind KLam A b) (tarrow A B)
| ty_quant : forall bs k A b, k = KAll \/ k = KEx -> ptype g A = true -> typed g (A :: bs) b tbool ->
    typed g bs (TBind k A b) tbool.

Context (CT : closed_types K).

Lemma ptm_lc g T : forall n, ptm g n T = true -> forall d, lc_at d T.
Proof.
  induction T as [[i|i|s]|f IHf a IHa|k A IHA b IHb]; simpl; intros n H d; try discriminate; try reflexivity.
  - apply andb_true_iff in H. apply lc_app. split; [eapply IHf; apply H|eapply IHa; apply H].
  - destruct k; try discriminate. apply andb_true_iff in H. destruct H as [_ H]. apply andb_true_iff in H. apply lc_bind. split; [eapply IHA; apply H|eapply IHb; apply H].
Qed.
Lemma ptype_lc g T : ptype g T = true -> forall d, lc_at d T.
Proof. apply ptm_lc. Qed.
Lemma ptm_vars g T : forall n, ptm g n T = true -> forall v, In v (vars T) -> exists k, g v = Some k /\ is_type_param_kind k = true.
Proof.
  induction T as [[i|i|s]|f IHf a IHa|k A IHA b IHb]; simpl; intros n H v Hv; try discriminate.
  - destruct Hv as [->|[]]. destruct (g v) as [k|] eqn:E; [|discriminate]. apply andb_true_iff in H. exists k. tauto.
  - destruct Hv.
  - apply andb_true_iff in H. rewrite vars_app, in_app_iff in Hv. destruct Hv; [eapply IHf|eapply IHa]; try apply H; auto.
  - destruct k; try discriminate. apply andb_true_iff in H. destruct H as [_ H]. apply andb_true_iff in H. rewrite vars_bind, in_app_iff in Hv. destruct Hv; [eapply IHA|eapply IHb]; try apply H; auto.
Qed.
Lemma ptype_vars g T : ptype g T = true -> forall v, In v (vars T) -> exists k, g v = Some k /\ is_type_param_kind k = true.
Proof. apply ptm_vars. Qed.
Lemma ptm_env g g' T : forall n, ptm g n T = true ->
  (forall v k, In v (vars T) -> g v = Some k -> is_type_param_kind k = true -> g' v = Some k) -> ptm g' n T = true.
Proof.
  induction T as [[i|i|s]|f IHf a IHa|k A IHA b IHb]; simpl; intros n H Hg; try discriminate; auto.
  - destruct (g i) as [k|] eqn:E; [|discriminate]. apply andb_true_iff in H. rewrite (Hg i k); simpl; try tauto. apply andb_true_iff. auto.
  - apply andb_true_iff in H. apply andb_true_iff. split; [apply IHf|apply IHa]; try tauto; intros; apply Hg; auto;
    rewrite vars_app, in_app_iff; auto.
  - destruct k; try discriminate. apply andb_true_iff in H. destruct H as [H0 H]. apply andb_true_iff in H. rewrite H0. simpl. apply andb_true_iff. split; [apply IHA|apply IHb]; try tauto; intros; apply Hg; auto;
    rewrite vars_bind, in_app_iff; auto.
Qed.
Lemma ptype_env g g' T : ptype g T = true ->
  (forall v k, In v (vars T) -> g v = Some k -> is_type_param_kind k = true -> g' v = Some k) -> ptype g' T = true.
Proof. apply ptm_env. Qed.
Definition gsub (g g' : tenv) : Prop := forall i T, g i = Some T -> g' i = Some T.
Lemma ptype_sub g g' T : gsub g g' -> ptype g T = true -> ptype g' T = true.
Proof. intros S H. eapply ptype_env; eauto. Qed.
Lemma ptype_not_kind g T : ptype g T = true -> is_type_param_kind T = false.
Proof. destruct T as [[i|i|[]]|?|?]; simpl; auto; discriminate. Qed.
Lemma ptype_down g v A T : ptype g A = true \/ ptype (gupd g v A) A = true -> ptype (gupd g v A) T = true -> ptype g T = true.
Proof.
  intros HA H. assert (KA : is_type_param_kind A = false) by (destruct HA; eapply ptype_not_kind; eauto).
  eapply ptype_env; [exact H|]. intros w k _ Hw Hk. unfold gupd in Hw. destruct (Nat.eqb w v); auto. congruence.
Qed.
Lemma ptype_fresh g v A T : ptype g A = true -> ptype (gupd g v A) T = true -> ~ In v (vars T).
Proof.
  intros HA H Hv. apply (ptype_vars _ _ H) in Hv. destruct Hv as (k & Hk & Kk). unfold gupd in Hk. rewrite Nat.eqb_refl in Hk.
  injection Hk as <-. apply ptype_not_kind in HA. congruence.
Qed.

Definition okty (g : tenv) (T : term) : Prop := lc T /\ forall v, In v (vars T) -> exists k, g v = Some k /\ is_type_param_kind k = true.
Lemma ptype_okty g T : ptype g T = true -> okty g T.
Proof. intros H. split; [apply (ptype_lc g T H)|apply ptype_vars; auto]. Qed.
Lemma okty_pi g A B : okty g (TBind KPi A B) -> okty g A /\ lc_at 1 B /\ forall v, In v (vars B) -> exists k, g v = Some k /\ is_type_param_kind k = true.
Proof.
  intros [L V]. apply lc_bind in L. destruct L as [L1 L2]. split; [split; auto|split; auto]; intros v Hv; apply V; rewrite vars_bind, in_app_iff; auto.
Qed.

Lemma open_vars_sub t : forall d r v, In v (vars (open_at d r t)) -> In v (vars r) \/ In v (vars t).
Proof.
  assert (SV : forall t c k v, In v (vars (shift_up c k t)) -> In v (vars t)).
  { induction t0 as [[i|i|s]|f IHf a IHa|k A IHA b IHb]; intros c j v; simpl; auto.
    - destruct (Nat.leb c i); auto.
    - rewrite !vars_app, !in_app_iff. intros [H|H]; eauto.
    - rewrite !vars_bind, !in_app_iff. intros [H|H]; eauto. }
  induction t as [[i|i|s]|f IHf a IHa|k A IHA b IHb]; intros d r v; simpl; auto.
  - destruct (Nat.ltb i d); auto. destruct (Nat.eqb i d); auto. intros H. left. eapply SV; eauto.
  - rewrite !vars_app, !in_app_iff. intros [H|H]; [destruct (IHf _ _ _ H)|destruct (IHa _ _ _ H)]; auto.
  - rewrite !vars_bind, !in_app_iff. intros [H|H]; [destruct (IHA _ _ _ H)|destruct (IHb _ _ _ H)]; auto.
Qed.

Lemma typed_okty g bs t T : typed g bs t T -> okty g T.
Proof.
  induction 1; try (apply ptype_okty; auto; fail).
  - destruct (CT s) as [V L]. split; auto. rewrite V. intros v [].
  - apply ptype_okty. simpl. rewrite H. auto.
  - apply ptype_okty. simpl. rewrite H. auto.
  - apply okty_pi in IHtyped1. split; [auto|apply IHtyped1].
  - apply okty_pi in IHtyped. destruct IHtyped as (_ & L & V). split.
    + apply open_at_lc0; auto. apply (ptype_lc g _ H1).
    + intros v Hv. apply open_vars_sub in Hv. destruct Hv as [Hv|Hv]; [eapply ptype_vars; eauto|auto].
  - apply ptype_okty. simpl. rewrite H, H0. auto.
Qed.

Lemma typed_lc g bs t T : typed g bs t T -> lc_at (length bs) t.
Proof.
  induction 1; try reflexivity; auto.
  - apply lc_bound. apply nth_error_Some. congruence.
  - apply lc_app. split; [reflexivity|eapply ptype_lc; eauto].
  - apply lc_app. split; [reflexivity|eapply ptype_lc; eauto].
  - apply lc_app. auto.
  - apply lc_app. split; auto. eapply ptype_lc; eauto.
  - apply lc_bind. split; [eapply ptype_lc; eauto|auto].
  - apply lc_bind. split; [eapply ptype_lc; eauto|auto].
Qed.
Lemma typed_lc0 g t T : typed g [] t T -> lc t. Proof. apply typed_lc. Qed.

Lemma typed_vars g bs t T v : typed g bs t T -> In v (vars t) -> exists U, g v = Some U.
Proof.
  assert (PV : forall T, ptype g T = true -> In v (vars T) -> exists U, g v = Some U).
  { intros U HU Hv. destruct (ptype_vars _ _ HU _ Hv) as (k & E & _). eauto. }
  induction 1; intros Hv; try (destruct Hv; fail).
  - destruct Hv as [->|[]]. eauto.
  - rewrite vars_app, in_app_iff in Hv. destruct Hv as [[]|Hv]; eauto.
  - rewrite vars_app, in_app_iff in Hv. destruct Hv as [[]|Hv]; eauto.
  - rewrite vars_app, in_app_iff in Hv. tauto.
  - rewrite vars_app, in_app_iff in Hv. destruct Hv; eauto.
  - rewrite vars_bind, in_app_iff in Hv. destruct Hv; eauto.
  - rewrite vars_bind, in_app_iff in Hv. destruct Hv; eauto.
Qed.

Lemma typed_sub g g' bs t T : gsub g g' -> typed g bs t T -> typed g' bs t T.
Proof.
  intros S. induction 1.
  - apply ty_var; [auto|eapply ptype_sub; eauto].
  - apply ty_bound; [auto|eapply ptype_sub; eauto].
  - apply ty_sym; auto.
  - apply ty_eq. eapply ptype_sub; eauto.
  - apply ty_ite. eapply ptype_sub; eauto.
  - eapply ty_app; eauto. eapply ptype_sub; eauto.
  - eapply ty_inst; eauto. eapply ptype_sub; eauto.
  - eapply ty_lam; eauto; eapply ptype_sub; eauto.
  - eapply ty_quant; eauto; eapply ptype_sub; eauto.
Qed.

Lemma typed_bs g bs bs' t T : typed g bs t T -> (forall i U, nth_error bs i = Some U -> nth_error bs' i = Some U) -> typed g bs' t T.
Proof.
  intros H. revert bs'. induction H; intros bs' Hb; try (constructor; auto; fail).
  - eapply ty_app; eauto.
  - eapply ty_inst; eauto.
  - apply ty_lam; auto. apply IHtyped. intros [|i] U; simpl; auto.
  - apply ty_quant; auto. apply IHtyped. intros [|i] U; simpl; auto.
Qed.
Lemma typed_nil g bs t T : typed g [] t T -> typed g bs t T.
Proof. intros H. eapply typed_bs; eauto. intros [|i] U; discriminate. Qed.

Lemma typed_shift g t : forall b1 b b2 T, typed g (b1 ++ b2) t T ->
  typed g (b1 ++ b ++ b2) (shift_up (length b1) (length b) t) T.
Proof.
  intros b1 b b2 T H. remember (b1 ++ b2) as bs eqn:E. revert b1 E. induction H; intros b1 ->.
  - apply ty_var; auto.
  - simpl. destruct (Nat.leb_spec (length b1) i).
    + apply ty_bound; auto. rewrite nth_error_app2 in H by lia.
      rewrite !nth_error_app2 by lia. rewrite <- H. f_equal. lia.
    + apply ty_bound; auto. rewrite nth_error_app1 in * by lia. auto.
  - apply ty_sym; auto.
  - simpl. rewrite shift_up_lc by (eapply ptype_lc; eauto). apply ty_eq; auto.
  - simpl. rewrite shift_up_lc by (eapply ptype_lc; eauto). apply ty_ite; auto.
  - simpl. eapply ty_app; eauto.
  - simpl. rewrite (shift_up_lc T) by (eapply ptype_lc; eauto). eapply ty_inst; eauto.
  - simpl. rewrite (shift_up_lc A) by (eapply ptype_lc; eauto). apply ty_lam; auto. apply (IHtyped (A :: b1)); auto.
  - simpl. rewrite (shift_up_lc A) by (eapply ptype_lc; eauto). apply ty_quant; auto. apply (IHtyped (A :: b1)); auto.
Qed.

Lemma typed_open_at g t : forall b1 b2 A r T, typed g (b1 ++ A :: b2) t T -> typed g b2 r A ->
  typed g (b1 ++ b2) (open_at (length b1) r t) T.
Proof.
  intros b1 b2 A r T H Hr. remember (b1 ++ A :: b2) as bs eqn:E. revert b1 E. induction H; intros b1 ->.
  - apply ty_var; auto.
  - simpl. destruct (Nat.ltb_spec i (length b1)).
    + apply ty_bound; auto. rewrite nth_error_app1 in * by lia. auto.
    + destruct (Nat.eqb_spec i (length b1)) as [->|].
      * rewrite nth_error_app2, Nat.sub_diag in H by lia. injection H as <-.
        apply (typed_shift g r [] b1 b2 A). exact Hr.
      * apply ty_bound; auto. rewrite nth_error_app2 in H by lia. rewrite nth_error_app2 by lia.
        replace (i - length b1) with (S (i - 1 - length b1)) in H by lia. exact H.
  - apply ty_sym; auto.
  - simpl. rewrite open_at_lc by (eapply ptype_lc; eauto). apply ty_eq; auto.
  - simpl. rewrite open_at_lc by (eapply ptype_lc; eauto). apply ty_ite; auto.
  - simpl. eapply ty_app; eauto.
  - simpl. rewrite (open_at_lc T) by (eapply ptype_lc; eauto). eapply ty_inst; eauto.
  - simpl. rewrite (open_at_lc A0) by (eapply ptype_lc; eauto). apply ty_lam; auto. apply (IHtyped (A0 :: b1)); auto.
  - simpl. rewrite (open_at_lc A0) by (eapply ptype_lc; eauto). apply ty_quant; auto. apply (IHtyped (A0 :: b1)); auto.
Qed.
Lemma typed_open g bs t A r T : typed g (A :: bs) t T -> typed g bs r A -> typed g bs (open_at 0 r t) T.
Proof. intros H Hr. exact (typed_open_at g t [] bs A r T H Hr). Qed.

(** contexts that give every variable the type of the environment *)
Definition gctx (g : tenv) (c : lctx) : Prop := forall i T, g i = Some T -> get_var_type c i = Some T.
Lemma get_var_len c i : length c <= i -> get_var_type c i = None.
Proof. intros H. unfold get_var_type. rewrite (proj2 (nth_error_None c i)); auto. Qed.
Lemma gctx_fresh g c i : gctx g c -> length c <= i -> g i = None.
Proof. intros G H. destruct (g i) as [T|] eqn:E; auto. apply G in E. rewrite get_var_len in E by auto. discriminate. Qed.
Lemma gctx_push g c A : gctx g c -> gctx (gupd g (length c) A) (push_type c A).
Proof. intros G i T. unfold gupd. rewrite get_push. destruct (Nat.eqb i (length c)); auto. Qed.
Lemma gctx_more g c c' : gctx g c -> (exists r, c' = c ++ r) -> gctx g c'.
Proof.
  intros G [r ->] i T H. apply G in H. unfold get_var_type in *. destruct (nth_error c i) eqn:E; [|discriminate].
  rewrite nth_error_app1 by (apply nth_error_Some; congruence). rewrite E. auto.
Qed.
Lemma gsub_upd g v A : g v = None -> gsub g (gupd g v A).
Proof. intros H i T Hi. unfold gupd. destruct (Nat.eqb_spec i v) as [->|]; auto. congruence. Qed.

Lemma typed_push g v A b B : g v = None -> ptype g A = true -> typed g [A] b B -> typed (gupd g v A) [] (open_at 0 (TVar v) b) B.
Proof.
  intros N HA H. pose proof (gsub_upd g v A N) as S. eapply typed_open.
  - eapply typed_sub; [exact S|exact H].
  - apply ty_var; [unfold gupd; rewrite Nat.eqb_refl; auto|eapply ptype_sub; eauto].
Qed.

Lemma abstract_fresh T : forall v d, ~ In v (vars T) -> lc_at d T -> abstract_var v d T = T.
Proof.
  induction T as [[i|i|s]|f IHf a IHa|k A IHA b IHb]; intros v d H L; simpl; auto.
  - destruct (Nat.eqb_spec i v) as [->|]; auto. exfalso. apply H. simpl. auto.
  - apply lc_bound in L. destruct (Nat.leb_spec d i); auto. lia.
  - rewrite vars_app, in_app_iff in H. apply lc_app in L. rewrite IHf, IHa; tauto.
  - rewrite vars_bind, in_app_iff in H. apply lc_bind in L. rewrite IHA, IHb; tauto.
Qed.

(** The type computed by the code is the type of the judgement. *)
Lemma typed_get_type n : forall g c t T, tsize t <= n -> gctx g c -> typed g [] t T -> get_type K c t = Some T.
Proof.
  induction n as [|n IH]; intros g c t T Hn G H; [pose proof (tsize_pos t); lia|].
  inversion H; subst; simpl in Hn; auto.
  - unfold get_type. simpl. auto.
  - destruct i; discriminate.
  - rewrite get_type_app. change (get_type K c (TSym SEq)) with (Some (symbol_type K SEq)). cbn [symbol_type tarrow].
    rewrite type_apply_pi. cbn. rewrite !(shift_up_lc T0) by (eapply ptype_lc; eauto). auto.
  - rewrite get_type_app. change (get_type K c (TSym SIte)) with (Some (symbol_type K SIte)). cbn [symbol_type tarrow].
    rewrite type_apply_pi. cbn. rewrite !(shift_up_lc T0) by (eapply ptype_lc; eauto). auto.
  - rewrite get_type_app, (IH g c f (TBind KPi A T)) by (auto; lia). rewrite type_apply_pi. f_equal. apply open_at_lc; auto.
  - rewrite get_type_app, (IH g c f (TBind KPi k B)) by (auto; lia). apply type_apply_pi.
  - unfold get_type. cbn [tsize get_type_fuel]. rewrite open_bound_spec.
    assert (N : g (length c) = None) by (eapply gctx_fresh; eauto).
    pose proof (typed_push g (length c) A b B N H0 H2) as Hp.
    apply (IH _ (push_type c A)) in Hp; [|rewrite tsize_open; lia|apply gctx_push; auto]. unfold get_type in Hp.
    rewrite (get_type_more _ (tsize (open_at 0 (TVar (length c)) b))) by (rewrite tsize_open; lia).
    rewrite Hp. simpl. rewrite abstract_fresh; auto.
    + intros Hv. destruct (ptype_vars _ _ H1 _ Hv) as (k & E & _). congruence.
    + eapply ptype_lc; eauto.
  - destruct H0; subst; auto.
Qed.
Lemma typed_type g c t T : gctx g c -> typed g [] t T -> get_type K c t = Some T.
Proof. apply typed_get_type with (tsize t). lia. Qed.

Lemma typed_unique g t : forall bs T U, typed g bs t T -> typed g bs t U -> T = U.
Proof.
  induction t as [a|f IHf a IHa|k A IHA b IHb]; intros bs T U H1 H2.
  - inversion H1; inversion H2; subst; congruence.
  - inversion H1; subst; inversion H2; subst; auto; try (match goal with [H : typed _ _ (TSym _) _ |- _] => inversion H; subst; discriminate end);
    match goal with [H3 : typed _ _ f ?X, H4 : typed _ _ f ?Y |- _] => pose proof (IHf _ _ _ H3 H4) as E; injection E as -> -> end; auto;
    match goal with [H : is_type_param_kind _ = true, H' : ptype _ _ = true |- _] => try (apply ptype_not_kind in H'; congruence) end;
    match goal with [H : is_type_param_kind ?k = true, H' : ptype _ ?k = true |- _] => apply ptype_not_kind in H'; congruence end.
  - inversion H1; subst; inversion H2; subst; auto.
    + f_equal. eauto.
    + match goal with [H : KLam = _ \/ KLam = _ |- _] => destruct H; discriminate end.
    + match goal with [H : KLam = _ \/ KLam = _ |- _] => destruct H; discriminate end.
Qed.

Lemma typed_abstract g v A : ptype g A = true -> forall bs t T, typed (gupd g v A) bs t T ->
  typed g (bs ++ [A]) (abstract_var v (length bs) t) T.
Proof.
  intros HA. assert (PD : forall T, ptype (gupd g v A) T = true -> ptype g T = true) by (intros T H; exact (ptype_down g v A T (or_introl HA) H)).
  assert (AF : forall T d, ptype (gupd g v A) T = true -> abstract_var v d T = T).
  { intros T d H. apply abstract_fresh; [exact (ptype_fresh g v A T HA H)|eapply ptype_lc; eauto]. }
  intros bs t T H. induction H; cbn [abstract_var].
  - unfold gupd in H. destruct (Nat.eqb i v); [|apply ty_var; auto]. injection H as <-. apply ty_bound; auto.
    rewrite nth_error_app2, Nat.sub_diag by lia. auto.
  - assert (i < length bs) by (apply nth_error_Some; congruence).
    destruct (Nat.leb_spec (length bs) i); [lia|]. apply ty_bound; auto. rewrite nth_error_app1; auto.
  - apply ty_sym; auto.
  - rewrite (AF T) by auto. apply ty_eq; auto.
  - rewrite (AF T) by auto. apply ty_ite; auto.
  - eapply ty_app; [exact IHtyped1|apply PD; auto|auto|exact IHtyped2].
  - rewrite (AF T) by auto. eapply ty_inst; [exact IHtyped|auto|apply PD; auto].
  - rewrite (AF A0) by auto. apply ty_lam; auto.
  - rewrite (AF A0) by auto. apply ty_quant; auto.
Qed.

Lemma typed_replace g v A r : ptype g A = true -> typed g [] r A -> forall bs t T, typed (gupd g v A) bs t T ->
  typed g bs (replace_variable v r t) T.
Proof.
  intros HA Hr. assert (PD : forall T, ptype (gupd g v A) T = true -> ptype g T = true) by (intros T H; exact (ptype_down g v A T (or_introl HA) H)).
  assert (RF : forall T, ptype (gupd g v A) T = true -> replace_variable v r T = T).
  { intros T H. apply replace_variable_notin. exact (ptype_fresh g v A T HA H). }
  intros bs t T H. induction H; cbn [replace_variable].
  - unfold gupd in H. destruct (Nat.eqb_spec i v) as [->|E].
    + injection H as <-. apply typed_nil; auto.
    + apply ty_var; auto.
  - apply ty_bound; auto.
  - apply ty_sym; auto.
  - rewrite (RF T) by auto. apply ty_eq; auto.
  - rewrite (RF T) by auto. apply ty_ite; auto.
  - eapply ty_app; [exact IHtyped1|apply PD; auto|auto|exact IHtyped2].
  - rewrite (RF T) by auto. eapply ty_inst; [exact IHtyped|auto|apply PD; auto].
  - rewrite (RF A0) by auto. apply ty_lam; auto.
  - rewrite (RF A0) by auto. apply ty_quant; auto.
Qed.
End Typed.
Arguments ptype_lc {K}.
Arguments ptype_vars {K}.
Arguments ptype_env {K}.
Arguments ptype_sub {K}.
Arguments ptype_not_kind {K}.
Arguments ptype_down {K}.
Arguments ptype_fresh {K}.
Arguments ptype_okty {K}.
