(** The computed type of a well-formed term contains its value. *)
From Coq Require Import List Arith NArith Bool Lia.
Import ListNotations.
From Verif Require Import Term LocalContext Semantics TermProofs SemFacts Typing.

Lemma type_apply_some T a U : type_apply_with_arg T a = Some U ->
  exists A B, T = TBind KPi A B /\ U = open_at 0 a B.
Proof.
  destruct T as [|?|[] A B]; simpl; try discriminate. intros H. exists A, B. split; auto.
  destruct (has_bound_variable B) eqn:E.
  - rewrite open_bound_spec in H. congruence.
  - injection H as <-. symmetry. apply open_at_lc, no_bound_lc; auto.
Qed.

Lemma type_apply_pi A B a : type_apply_with_arg (TBind KPi A B) a = Some (open_at 0 a B).
Proof.
  simpl. destruct (has_bound_variable B) eqn:E; [apply open_bound_spec|].
  f_equal. symmetry. apply open_at_lc, no_bound_lc; auto.
Qed.

Lemma checked_get n : forall K c t T, checked_type_fuel n K c t = Some T -> get_type_fuel n K c t = Some T.
Proof.
  induction n as [|n IH]; intros K c t T; simpl; [discriminate|].
  destruct t as [[i|i|s]|f a|[] A b]; auto.
  - destruct (checked_type_fuel n K c f) as [Tf|] eqn:Ef; [|discriminate]. apply IH in Ef. rewrite Ef.
    destruct Tf as [|?|[] inp out]; try discriminate.
    destruct (checked_type_fuel n K c a) as [Ta|] eqn:Ea; [|discriminate].
    destruct (validate_application_argument K inp Ta a c); [auto|discriminate].
  - destruct (open_bound b (TVar (length c))); [|discriminate].
    destruct (checked_type_fuel n K (push_type c A) t) as [Tb|] eqn:Eb; simpl; [|discriminate].
    apply IH in Eb. rewrite Eb. auto.
Qed.
Lemma checked_type_get K c t T : checked_type K c t = Some T -> get_type K c t = Some T.
Proof. apply checked_get. Qed.

Lemma tsize_open t : forall d v, tsize (open_at d (TVar v) t) = tsize t.
Proof.
  induction t as [[i|i|s]|f IHf a IHa|k A IHA b IHb]; intros d v; simpl; auto.
  destruct (Nat.ltb i d); auto. destruct (Nat.eqb i d); auto.
Qed.
Lemma tsize_pos t : 1 <= tsize t.
Proof. destruct t; simpl; lia. Qed.

Lemma get_type_more n : forall m K c t, tsize t <= n -> tsize t <= m ->
  get_type_fuel n K c t = get_type_fuel m K c t.
Proof.
  induction n as [|n IH]; intros m K c t Hn Hm; [pose proof (tsize_pos t); lia|].
  destruct m as [|m]; [pose proof (tsize_pos t); lia|]. simpl.
  destruct t as [[i|i|s]|f a|[] A b]; simpl in *; auto.
  - rewrite (IH m) by lia. auto.
  - rewrite open_bound_spec. rewrite (IH m); auto; rewrite tsize_open; lia.
Qed.
Lemma checked_type_more n : forall m K c t, tsize t <= n -> tsize t <= m ->
  checked_type_fuel n K c t = checked_type_fuel m K c t.
Proof.
  induction n as [|n IH]; intros m K c t Hn Hm; [pose proof (tsize_pos t); lia|].
  destruct m as [|m]; [pose proof (tsize_pos t); lia|]. simpl.
  destruct t as [[i|i|s]|f a|[] A b]; simpl in *; auto.
  - rewrite (IH m K c f), (IH m K c a) by lia. auto.
  - rewrite open_bound_spec. rewrite (IH m); auto; rewrite tsize_open; lia.
Qed.

Lemma get_type_app K c f a : get_type K c (TApp f a) =
  match get_type K c f with Some T => type_apply_with_arg T a | None => None end.
Proof.
  unfold get_type. cbn [tsize get_type_fuel]. rewrite (get_type_more _ (tsize f)) by lia. reflexivity.
Qed.

(** Abstracting a free variable: it is read from the new binder. *)
Section Sem.
Context (M : Model).
Definition del (d : nat) (bs : nat -> D M) : nat -> D M := fun i => if Nat.ltb i d then bs i else bs (S i).
Lemma eval_abstract t : forall v d rho bs,
  eval M rho bs (abstract_var v d t) = eval M (upd M rho v (bs d)) (del d bs) t.
Proof.
  induction t as [[i|i|s]|f IHf a IHa|k A IHA b IHb]; intros v d rho bs; simpl; auto.
  - unfold upd. destruct (Nat.eqb i v); auto.
  - unfold del. destruct (Nat.leb_spec d i), (Nat.ltb_spec i d); simpl; auto; lia.
  - rewrite IHf, IHa; auto.
  - rewrite IHA. apply bind_ext. intros x _. rewrite IHb. apply eval_bs.
    intros [|i]; unfold del; simpl; auto.
Qed.

(** ** interpretations that respect the declared types *)
Definition arrowd (A B : D M) : D M := dbind M KPi A (fun _ => B).
Definition bbool : D M := dsym M SBool.

Record respects (K : kctx) : Prop := {
  r_sym : forall s, match s with SEq | SIte | SType0 | STypeclass _ _ => False | _ => True end ->
          forall rho, mem M (dsym M s) (ev M rho (symbol_type K s));
  r_eq : forall T, appok M (dsym M SEq) T -> mem M (dapp M (dsym M SEq) T) (arrowd T (arrowd T bbool));
  r_ite : forall T, appok M (dsym M SIte) T ->
          mem M (dapp M (dsym M SIte) T) (arrowd bbool (arrowd T (arrowd T T)));
  r_wt : forall s rho, wt M rho (symbol_type K s)
}.

(** Terms other than kinds, product types and the bare [eq] and [ite]: those the code types with
    [Type0] although they are no elements of it, or with a product over all types. *)
Fixpoint valterm (t : term) : bool :=
  match t with
  | TAtom (Sym (SType0 | STypeclass _ _ | SEq | SIte)) => false
  | TAtom _ => true
  | TApp (TAtom (Sym (SEq | SIte))) _ => true
  | TApp f _ => valterm f
  | TBind KPi _ _ => false
  | TBind KLam _ b => valterm b
  | TBind _ _ _ => true
  end.

Lemma valterm_open t : forall d v, valterm (open_at d (TVar v) t) = valterm t.
Proof.
  induction t as [[i|i|s]|f IHf a IHa|k A IHA b IHb]; intros d v; simpl; auto.
  - destruct (Nat.ltb i d); auto. destruct (Nat.eqb i d); auto.
  - specialize (IHf d v). destruct f as [[i|i|s]|?|?]; auto. simpl in *.
    destruct (Nat.ltb i d); auto. destruct (Nat.eqb i d); auto.
  - destruct k; auto.
Qed.

Definition ctx_closed (c : lctx) : Prop := forall i T v, get_var_type c i = Some T -> In v (vars T) -> v < length c.

Lemma vars_open t : forall d v w, In w (vars (open_at d (TVar v) t)) -> w = v \/ In w (vars t).
Proof.
  induction t as [[i|i|s]|f IHf a IHa|k A IHA b IHb]; intros d v w; simpl; auto.
  - destruct (Nat.ltb i d); auto. destruct (Nat.eqb i d); auto. simpl. unfold vars; simpl. intuition.
  - rewrite !vars_app, !in_app_iff. intros [H|H]; [destruct (IHf _ _ _ H)|destruct (IHa _ _ _ H)]; auto.
  - rewrite !vars_bind, !in_app_iff. intros [H|H]; [destruct (IHA _ _ _ H)|destruct (IHb _ _ _ H)]; auto.
Qed.

Lemma get_push c A i : get_var_type (push_type c A) i =
  if Nat.eqb i (length c) then Some A else get_var_type c i.
Proof.
  unfold get_var_type, push_type. destruct (Nat.eqb_spec i (length c)) as [->|E].
  - rewrite nth_error_app2 by lia. rewrite Nat.sub_diag. reflexivity.
  - destruct (Nat.lt_ge_cases i (length c)).
    + rewrite nth_error_app1; auto.
    + rewrite (proj2 (nth_error_None (c ++ [Some A]) i)) by (rewrite app_length; simpl; lia).
      rewrite (proj2 (nth_error_None c i)) by lia. reflexivity.
Qed.

Lemma ev_upd_fresh rho v d t : (forall w, In w (vars t) -> w <> v) -> ev M (upd M rho v d) t = ev M rho t.
Proof.
  intros H. apply eval_ext; auto. intros i Hi. unfold upd.
  destruct (Nat.eqb_spec i v) as [->|]; auto. exfalso. apply (H v); auto.
Qed.

Lemma push_valid c A rho d : ctx_closed c -> (forall w, In w (vars A) -> w < length c) ->
  valid_env M c rho -> mem M d (ev M rho A) -> valid_env M (push_type c A) (upd M rho (length c) d).
Proof.
  intros Hc HA Hv Hd i T HT. rewrite get_push in HT.
  destruct (Nat.eqb_spec i (length c)) as [->|E].
  - injection HT as <-. unfold upd at 1. rewrite Nat.eqb_refl.
    rewrite ev_upd_fresh; auto. intros w Hw. specialize (HA w Hw). lia.
  - unfold upd at 1. destruct (Nat.eqb_spec i (length c)); [contradiction|].
    rewrite ev_upd_fresh; [apply Hv; auto|]. intros w Hw. specialize (Hc _ _ _ HT Hw). lia.
Qed.

Lemma push_closed c A : ctx_closed c -> (forall w, In w (vars A) -> w < length c) -> ctx_closed (push_type c A).
Proof.
  intros Hc HA i T v HT Hv. unfold push_type. rewrite app_length. simpl. rewrite get_push in HT.
  destruct (Nat.eqb i (length c)).
  - injection HT as <-. specialize (HA v Hv). lia.
  - specialize (Hc _ _ _ HT Hv). lia.
Qed.

Lemma swt_upd_fresh P rho v d bs t : (forall w, In w (vars t) -> w <> v) ->
  swtg M P rho bs t -> swtg M P (upd M rho v d) bs t.
Proof.
  revert bs. induction t as [[i|i|s]|f IHf a IHa|k A IHA b IHb]; intros bs H; simpl; auto.
  - rewrite vars_app in H. intros (H1 & H2 & H3).
    assert (Hf : forall w, In w (vars f) -> w <> v) by (intros; apply H, in_or_app; auto).
    assert (Ha : forall w, In w (vars a) -> w <> v) by (intros; apply H, in_or_app; auto).
    repeat split; auto.
    assert (E : forall t, (forall w, In w (vars t) -> w <> v) -> eval M (upd M rho v d) bs t = eval M rho bs t).
    { intros t Ht. apply eval_ext; auto. intros i Hi. unfold upd. destruct (Nat.eqb_spec i v) as [->|]; auto.
      exfalso. apply (Ht v); auto. }
    rewrite !E; auto.
  - rewrite vars_bind in H. intros (H1 & H2 & H3).
    assert (HA : forall w, In w (vars A) -> w <> v) by (intros; apply H, in_or_app; auto).
    assert (Hb : forall w, In w (vars b) -> w <> v) by (intros; apply H, in_or_app; auto).
    assert (E : forall t bs, (forall w, In w (vars t) -> w <> v) -> eval M (upd M rho v d) bs t = eval M rho bs t).
    { intros t bs' Ht. apply eval_ext; auto. intros i Hi. unfold upd. destruct (Nat.eqb_spec i v) as [->|]; auto.
      exfalso. apply (Ht v); auto. }
    split; [auto|]. rewrite !E by auto. split; auto. intros x Hx. destruct (H3 x Hx) as [H4 H5]. split; auto.
    destruct k; auto; rewrite E; auto.
Qed.

Lemma typing_sound n : forall K c t T, get_type_fuel n K c t = Some T -> respects K -> ctx_closed c ->
  (forall w, In w (vars t) -> w < length c) -> valterm t = true ->
  forall rho, valid_env M c rho -> wt M rho t -> mem M (ev M rho t) (ev M rho T).
Proof.
  induction n as [|n IH]; intros K c t T HT R Hc Hs Hval rho Hv Hw; simpl in HT; [discriminate|].
  destruct t as [[i|i|s]|f a|k A b].
  - apply Hv; auto.
  - discriminate.
  - injection HT as <-. apply (r_sym K R). destruct s; simpl in Hval; auto; discriminate.
  - destruct (get_type_fuel n K c f) as [Tf|] eqn:Ef; [|discriminate].
    apply type_apply_some in HT. destruct HT as (A & B & -> & ->).
    rewrite vars_app in Hs. destruct Hw as (Wf & Wa & Wo).
    unfold ev at 2. rewrite eval_open. fold (ev M rho a).
    assert (G : valterm f = true -> mem M (ev M rho (TApp f a)) (eval M rho (scons (ev M rho a) (nobs M)) B)).
    { intros Hvf. assert (Hf : mem M (ev M rho f) (ev M rho (TBind KPi A B))).
      { eapply IH; eauto. intros; apply Hs, in_or_app; auto. }
      unfold ev at 2 in Hf. cbn [eval] in Hf. pose proof (pi_dom M _ _ _ _ Hf Wo) as Ha.
      exact (pi_app M _ _ _ _ Hf Ha). }
    destruct f as [[i|i|s]|f1 f2|k A' b]; try (apply G; exact Hval).
    destruct s; try (apply G; exact Hval); simpl in Hval; clear G.
    + destruct n; [discriminate|]. simpl in Ef. injection Ef as <- <-.
      exact (r_eq K R _ Wo).
    + destruct n; [discriminate|]. simpl in Ef. injection Ef as <- <-.
      exact (r_ite K R _ Wo).
  - destruct Hw as (WA & WT & Wb). rewrite vars_bind in Hs. destruct k.
    + discriminate.
    + rewrite open_bound_spec in HT.
      destruct (get_type_fuel n K (push_type c A) (open_at 0 (TVar (length c)) b)) as [U|] eqn:Eb; [|discriminate].
      injection HT as <-. unfold ev. cbn [eval]. apply lam_pi. intros x Hx.
      assert (HA : forall w, In w (vars A) -> w < length c) by (intros; apply Hs, in_or_app; auto).
      assert (Hb : forall w, In w (vars b) -> w < length c) by (intros; apply Hs, in_or_app; auto).
      pose proof (IH _ _ _ _ Eb R (push_closed c A Hc HA)) as Hm.
      assert (Hsb : forall w, In w (vars (open_at 0 (TVar (length c)) b)) -> w < length (push_type c A)).
      { intros w Hw'. unfold push_type. rewrite app_length. simpl. apply vars_open in Hw'.
        destruct Hw' as [->|Hw']; [lia|]. specialize (Hb w Hw'). lia. }
      specialize (Hm Hsb). rewrite valterm_open in Hm. specialize (Hm Hval (upd M rho (length c) x)).
      assert (Ex : eval M (upd M rho (length c) x) (nobs M) (TVar (length c)) = x).
      { simpl. unfold upd. rewrite Nat.eqb_refl. auto. }
      assert (Eb' : forall bs, eval M (upd M rho (length c) x) bs b = eval M rho bs b).
      { intros bs. apply eval_ext; auto. intros i Hi. unfold upd. destruct (Nat.eqb_spec i (length c)) as [->|]; auto.
        specialize (Hb _ Hi). lia. }
      unfold ev in Hm. rewrite eval_open, Ex, Eb' in Hm.
      rewrite eval_abstract.
      rewrite (eval_bs M _ (del 0 (scons x (nobs M))) (nobs M)) by (intros i; reflexivity).
      simpl scons in *. apply Hm.
      * apply push_valid; auto.
      * apply swt_open; [exact I|]. rewrite Ex. apply swt_upd_fresh; [intros w Hw'; specialize (Hb w Hw'); lia|].
        apply Wb; auto.
    + injection HT as <-. unfold ev. cbn [eval]. apply all_val. intros x Hx. apply (Wb x Hx).
    + injection HT as <-. unfold ev. cbn [eval]. apply ex_val. intros x Hx. apply (Wb x Hx).
Qed.

(** computed types are themselves well typed *)
Definition ctx_wt (c : lctx) : Prop :=
  forall rho, valid_env M c rho -> forall i T, get_var_type c i = Some T -> wt M rho T.

Lemma swt_abstract P t : forall v d rho bs,
  swtg M P (upd M rho v (bs d)) (del d bs) t -> swtg M P rho bs (abstract_var v d t).
Proof.
  induction t as [[i|i|s]|f IHf a IHa|k A IHA b IHb]; intros v d rho bs; simpl; auto.
  - intros _. destruct (Nat.eqb i v); exact I.
  - intros _. destruct (Nat.leb d i); exact I.
  - intros (H1 & H2 & H3). rewrite !eval_abstract. auto.
  - intros (H1 & HT & H2). split; auto. rewrite eval_abstract. split; auto. intros x Hx.
    destruct (H2 x Hx) as [H3 H4].
    assert (E : forall i, scons x (del d bs) i = del (S d) (scons x bs) i).
    { intros [|i]; unfold del; simpl; auto. }
    split.
    + apply IHb. simpl. eapply swt_bs; [|exact H3]. exact E.
    + destruct k; auto; rewrite eval_abstract; simpl; (erewrite eval_bs; [exact H4|]); intros; symmetry; apply E.
Qed.

Definition tctx_wt (c : lctx) (rho : nat -> D M) : Prop :=
  forall i T, get_var_type c i = Some T -> wt M rho T.

Lemma typing_wt n : forall K c t T, get_type_fuel n K c t = Some T -> respects K -> ctx_closed c ->
  (forall w, In w (vars t) -> w < length c) -> valterm t = true ->
  forall rho, valid_env M c rho -> tctx_wt c rho -> wt M rho t -> wt M rho T.
Proof.
  induction n as [|n IH]; intros K c t T HT R Hc Hs Hval rho Hv Hcw Hw; simpl in HT; [discriminate|].
  destruct t as [[i|i|s]|f a|k A b].
  - eapply Hcw; eauto.
  - discriminate.
  - injection HT as <-. apply (r_wt K R).
  - destruct (get_type_fuel n K c f) as [Tf|] eqn:Ef; [|discriminate].
    apply type_apply_some in HT. destruct HT as (A & B & -> & ->).
    rewrite vars_app in Hs. destruct Hw as (Wf & Wa & Wo).
    assert (G : valterm f = true -> wt M rho (open_at 0 a B)).
    { intros Hvf. assert (Hfv : forall w, In w (vars f) -> w < length c) by (intros; apply Hs, in_or_app; auto).
      pose proof (typing_sound n K c f _ Ef R Hc Hfv Hvf rho Hv Wf) as Hf.
      pose proof (IH K c f _ Ef R Hc Hfv Hvf rho Hv Hcw Wf) as (W1 & W2 & W3).
      unfold ev in Hf at 2. cbn [eval] in Hf. pose proof (pi_dom M _ _ _ _ Hf Wo) as Ha.
      apply swt_open; [exact Wa|]. apply W3. exact Ha. }
    assert (GE : forall s, isty M (ev M rho a) -> f = TSym s -> s = SEq \/ s = SIte ->
                 wt M rho (open_at 0 a B)).
    { intros s Hi -> Hs'. destruct n; [discriminate|]. simpl in Ef. injection Ef as E.
      assert (HB : isty M (dsym M SBool)) by (apply (mem_isty M (dsym M STrue)), bool_mem; auto).
      assert (TB : bindty M (anydom M) KPi (dsym M SBool)) by (split; [exact HB|discriminate]).
      assert (TA : bindty M (anydom M) KPi (eval M rho (nobs M) a)) by (split; [exact Hi|discriminate]).
      destruct Hs' as [-> | ->]; simpl in E; injection E as <- <-; apply swt_open; try exact Wa; simpl; intuition. }
    destruct f as [[i|i|s]|f1 f2|k A' b]; try (apply G; exact Hval).
    destruct s; try (apply G; exact Hval); simpl in Hval; clear G.
    + apply (GE SEq); auto. apply isty_eq. exact Wo.
    + apply (GE SIte); auto. apply isty_ite. exact Wo.
  - destruct Hw as (WA & WT & Wb). rewrite vars_bind in Hs. 
    assert (HB : forall rho, wt M rho tbool) by (intros; exact I).
    destruct k; try (injection HT as <-; apply HB); [discriminate|].
    rewrite open_bound_spec in HT.
    destruct (get_type_fuel n K (push_type c A) (open_at 0 (TVar (length c)) b)) as [U|] eqn:Eb; [|discriminate].
    injection HT as <-. split; [exact WA|]. split; [split; [apply WT|discriminate]|]. intros x Hx. split; [|exact I].
    assert (HA : forall w, In w (vars A) -> w < length c) by (intros; apply Hs, in_or_app; auto).
    assert (Hb : forall w, In w (vars b) -> w < length c) by (intros; apply Hs, in_or_app; auto).
    pose proof (IH _ _ _ _ Eb R (push_closed c A Hc HA)) as Hm.
    assert (Hsb : forall w, In w (vars (open_at 0 (TVar (length c)) b)) -> w < length (push_type c A)).
    { intros w Hw'. unfold push_type. rewrite app_length. simpl. apply vars_open in Hw'.
      destruct Hw' as [->|Hw']; [lia|]. specialize (Hb w Hw'). lia. }
    specialize (Hm Hsb). rewrite valterm_open in Hm. specialize (Hm Hval (upd M rho (length c) x)).
    assert (Ex : eval M (upd M rho (length c) x) (nobs M) (TVar (length c)) = x).
    { simpl. unfold upd. rewrite Nat.eqb_refl. auto. }
    apply swt_abstract. simpl scons.
    eapply swt_bs with (bs1 := nobs M); [intros i; reflexivity|]. apply Hm.
    + apply push_valid; auto.
    + intros i T HT. rewrite get_push in HT. destruct (Nat.eqb_spec i (length c)) as [->|].
      * injection HT as <-. apply swt_upd_fresh; auto. intros w Hw'. specialize (HA w Hw'). lia.
      * apply swt_upd_fresh; [|eapply Hcw; eauto]. intros w Hw'. specialize (Hc _ _ _ HT Hw'). lia.
    + apply swt_open; [exact I|]. rewrite Ex. apply swt_upd_fresh; [intros w Hw'; specialize (Hb w Hw'); lia|].
      apply Wb; auto.
Qed.
End Sem.
