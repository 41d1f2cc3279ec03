(** Conversion of typed terms by the clausifier keeps types and values. *)
From Coq Require Import List Arith NArith Bool Lia.
Import ListNotations.
From Verif Require Import Term LocalContext Semantics TermProofs SemFacts Typing TypingProofs Monomorphic PolyTyped Literal Clause TermNorm Clausifier.

Definition isb (M : Model) (d : D M) : Prop := mem M d (dsym M SBool).
Definition bnot (M : Model) (d : D M) : D M := dapp M (dsym M SNot) d.

(** [u] can stand for [t]: well-typed with the same value wherever [t] is well-typed. *)
Definition same (t u : term) : Prop := forall M rho, wt M rho t -> wt M rho u /\ ev M rho u = ev M rho t.
Lemma same_refl t : same t t. Proof. intros M rho H. auto. Qed.
Lemma same_trans t u w : same t u -> same u w -> same t w.
Proof. intros H1 H2 M rho H. destruct (H1 M rho H) as [W E]. destruct (H2 M rho W). split; congruence. Qed.

Lemma open_body_eq b r : open_body b r = open_at 0 r b.
Proof. unfold open_body. rewrite open_bound_spec. reflexivity. Qed.

Lemma swt_abstract_inv M P t : forall v d rho bs,
  swtg M P rho bs (abstract_var v d t) -> swtg M P (upd M rho v (bs d)) (del M d bs) t.
Proof.
  induction t as [[i|i|s]|f IHf a IHa|k A IHA b IHb]; intros v d rho bs; simpl; auto.
  - intros (H1 & H2 & H3). rewrite !eval_abstract in H3. auto.
  - intros (H1 & HT & H2). rewrite eval_abstract in HT, H2. split; auto. split; auto. intros x Hx.
    destruct (H2 x Hx) as [H3 H4].
    assert (E : forall i, del M (S d) (scons x bs) i = scons x (del M d bs) i).
    { intros [|i]; unfold del; simpl; auto. }
    split.
    + apply IHb in H3. simpl in H3. eapply swt_bs; [|exact H3]. exact E.
    + destruct k; auto; rewrite eval_abstract in H4; simpl in H4; (erewrite eval_bs; [exact H4|]); intros; symmetry; apply E.
Qed.

Lemma Forall2_rev {A B} (R : A -> B -> Prop) l l' : Forall2 R l l' -> Forall2 R (rev l) (rev l').
Proof. induction 1; simpl; [constructor|]. apply Forall2_app; auto. Qed.

Lemma Forall2_impl {A B} (R S : A -> B -> Prop) l l' : (forall x y, R x y -> S x y) -> Forall2 R l l' -> Forall2 S l l'.
Proof. intros H. induction 1; constructor; auto. Qed.

(** ** spines *)
Lemma apply_snoc h l a : apply h (l ++ [a]) = TApp (apply h l) a.
Proof. unfold apply. rewrite fold_left_app. reflexivity. Qed.
Lemma apply_app h l r : apply h (l ++ r) = apply (apply h l) r.
Proof. unfold apply. apply fold_left_app. Qed.
Lemma spine t : t = apply (spine_head t) (args t).
Proof. apply spine_eq. Qed.
Lemma is_app_args t : is_app t = true -> args t <> [].
Proof. destruct t; try discriminate. intros _ E. pose proof (args_length_app t1 t2). rewrite E in H. discriminate. Qed.
Lemma spine_not_app t : is_app (spine_head t) = false.
Proof. induction t; auto. Qed.
Lemma args_not_app t : is_app t = false -> args t = [].
Proof. destruct t; auto; discriminate. Qed.
Lemma args_apply h l : is_app h = false -> args (apply h l) = l.
Proof.
  intros H. assert (G : forall l h acc, args_acc (apply h l) acc = args_acc h (l ++ acc)).
  { induction l0 as [|x l0 IH]; intros h0 acc; simpl; auto. unfold apply in *. simpl. rewrite IH. reflexivity. }
  unfold args. rewrite G. destruct h; try discriminate; simpl; apply app_nil_r.
Qed.

Section Spines.
Context (K : kctx).
Notation typed := (typed K).
Notation ptype g := (ptm K g 0).

Lemma head_atom_ptm g T : forall n, ptm K g n T = true ->
  head_atom T = Sym SBool \/ (exists m i, head_atom T = Sym (SType m i)) \/ (exists v, head_atom T = FreeVar v).
Proof.
  induction T as [[i|i|[]]|f IHf a IHa|k A IHA b IHb]; simpl; intros n H; try discriminate; eauto 6.
  - apply andb_true_iff in H. eapply IHf. apply H.
  - destruct k; try discriminate. apply andb_true_iff in H. destruct H as [_ H]. apply andb_true_iff in H. eapply IHA. apply H.
Qed.
Lemma head_atom_ptype g T : ptype g T = true ->
  head_atom T = Sym SBool \/ (exists m i, head_atom T = Sym (SType m i)) \/ (exists v, head_atom T = FreeVar v).
Proof. apply head_atom_ptm. Qed.

Lemma ptm_spine g t : forall n, ptm K g n t = true -> is_app t = true ->
  Forall (fun a => ptype g a = true) (args t) /\ exists a, spine_head t = TAtom a.
Proof.
  induction t as [x|f IHf a _|k A _ b _]; intros n P Ap; try discriminate. cbn [ptm] in P. apply andb_true_iff in P. destruct P as [P1 P2].
  assert (AA : args (TApp f a) = args f ++ [a]).
  { change (TApp f a) with (apply f [a]). rewrite (spine f) at 1. rewrite <- apply_app. apply args_apply. apply spine_not_app. }
  rewrite AA. simpl. destruct f as [x|f2 a2|k A b].
  - split; [simpl; auto|exists x; auto].
  - destruct (IHf _ P1 eq_refl) as [F [x Hx]]. split; [apply Forall_app; auto|exists x; auto].
  - simpl in P1. destruct k; discriminate.
Qed.
Lemma ptype_spine g t : ptype g t = true -> is_app t = true ->
  Forall (fun a => ptype g a = true) (args t) /\ exists a, spine_head t = TAtom a.
Proof. apply ptm_spine. Qed.

Definition is_value (s : symbol) : bool := match s with SEq | SIte => true | _ => value_symbol s end.

(** the head of a typed application is an atom or a lambda *)
Lemma typed_head g bs t T : typed g bs t T -> is_app t = true ->
  (exists a, spine_head t = TAtom a) \/
  (exists A b, spine_head t = TBind KLam A b /\ exists F, typed g bs (spine_head t) F /\ ptype g F = true).
Proof.
  induction 1; simpl; intros E; try discriminate; eauto.
  - destruct f as [x|f' x|k A0 b0]; simpl in *; eauto. inversion H; subst. right. exists A, b0. split; auto.
    exists (tarrow A B). split; auto. simpl. repeat match goal with [X : ptype _ _ = true |- _] => rewrite X; clear X end. auto.
  - destruct f as [x|f' x|k0 A0 b0]; simpl in *; eauto. inversion H; subst. right. exists k, b0. split; auto.
    exists (tarrow k B). split; auto. simpl. repeat match goal with [X : ptype _ ?Y = true |- _] => rewrite X; clear X end. auto.
Qed.

Lemma typed_spine_sym g bs t T s : typed g bs t T -> is_app t = true -> head_atom (spine_head t) = Sym s -> is_value s = true ->
  spine_head t = TSym s.
Proof.
  intros H A E V. destruct (typed_head g bs t T H A) as [[a Ha]|(A0 & b & Ha & F & HF & PF)].
  - rewrite Ha in *. simpl in E. congruence.
  - exfalso. rewrite Ha in *. inversion HF; subst.
    + simpl in E. match goal with [P : ptype g A0 = true |- _] => apply head_atom_ptype in P; destruct P as [P|[(m & i & P)|(v & P)]]; rewrite P in E end;
      try discriminate; injection E as <-; discriminate.
    + match goal with [X : KLam = _ \/ KLam = _ |- _] => destruct X; discriminate end.
Qed.

Lemma split_typed g bs t T s n l : typed g bs t T -> split_symbol_application t s n = Some l -> is_value s = true ->
  t = apply (TSym s) l /\ length l = n.
Proof.
  unfold split_symbol_application. intros H E V. destruct (is_app t) eqn:A; [|discriminate].
  destruct (Nat.eqb_spec (length (args t)) n); [|discriminate]. simpl in E.
  destruct (head_atom (spine_head t)) as [| |s'] eqn:Hs; try discriminate.
  destruct (symbol_eq_dec s' s) as [->|]; [|discriminate]. injection E as <-. split; auto.
  rewrite (spine t) at 1. f_equal. eapply typed_spine_sym; eauto.
Qed.
Lemma split_ptype g t s n : ptype g t = true -> is_value s = true -> split_symbol_application t s n = None.
Proof.
  unfold split_symbol_application. intros H V. destruct (is_app t && Nat.eqb (length (args t)) n) eqn:A; auto. simpl.
  rewrite <- head_spine. destruct (head_atom_ptype g t H) as [E|[(m & i & E)|(v & E)]]; rewrite E; auto;
  destruct (symbol_eq_dec _ s) as [<-|]; auto; discriminate.
Qed.
Lemma split_not_app t s n : is_app t = false -> split_symbol_application t s n = None.
Proof. unfold split_symbol_application. intros ->. reflexivity. Qed.

(** inversion of the connectives *)
Lemma typed_not g bs x T : typed g bs (tnot x) T -> T = tbool /\ typed g bs x tbool.
Proof.
  intros H. inversion H; subst.
  - inversion H2; subst. auto.
  - inversion H2; subst. discriminate.
Qed.
Lemma typed_bin g bs s a b T : s = SAnd \/ s = SOr -> typed g bs (TApp (TApp (TSym s) a) b) T -> T = tbool /\ typed g bs a tbool /\ typed g bs b tbool.
Proof.
  intros Hs H. assert (G : forall F, typed g bs (TApp (TSym s) a) F -> F = tarrow tbool tbool /\ typed g bs a tbool).
  { intros F HF. destruct Hs as [->| ->]; inversion HF; subst; match goal with [X : typed _ _ (TSym _) _ |- _] => inversion X; subst end; auto; discriminate. }
  inversion H; subst;
  match goal with [X : typed _ _ (TApp (TSym s) a) _ |- _] => apply G in X; destruct X as [E Ha]; injection E as -> -> end; auto; discriminate.
Qed.
Lemma typed_bin_intro g bs s a b : s = SAnd \/ s = SOr -> typed g bs a tbool -> typed g bs b tbool -> typed g bs (TApp (TApp (TSym s) a) b) tbool.
Proof.
  intros Hs Ha Hb. apply (ty_app K) with tbool; auto. apply (ty_app K) with tbool; auto.
  destruct Hs; subst; [apply (ty_sym K g bs SAnd)|apply (ty_sym K g bs SOr)]; auto.
Qed.
Lemma typed_arrow_app g bs f a A B F : typed g bs (TApp f a) F -> (forall G, typed g bs f G -> G = tarrow A B) -> ptype g A = true -> lc B ->
  f <> TSym SEq -> f <> TSym SIte -> F = B /\ typed g bs a A.
Proof.
  intros H HG PA LB N1 N2. inversion H; subst; try congruence.
  - match goal with [X : typed g bs f _ |- _] => apply HG in X; injection X as <- <- end. auto.
  - match goal with [X : typed g bs f _ |- _] => apply HG in X; injection X as <- <- end. apply ptype_not_kind in PA. congruence.
Qed.
Lemma typed_eq g bs U a b T : typed g bs (teq U a b) T -> T = tbool /\ ptype g U = true /\ typed g bs a U /\ typed g bs b U.
Proof.
  intros H.
  assert (PU : exists F, typed g bs (TApp (TSym SEq) U) F) by (inversion H; subst; match goal with [X : typed g bs (TApp (TApp _ _) _) _ |- _] => inversion X; eauto end).
  assert (P1 : ptype g U = true /\ forall F, typed g bs (TApp (TSym SEq) U) F -> F = tarrow U (tarrow U tbool)).
  { assert (G : forall F, typed g bs (TApp (TSym SEq) U) F -> ptype g U = true /\ F = tarrow U (tarrow U tbool)).
    { intros F HF. inversion HF; subst; auto; match goal with [X : typed g bs (TSym SEq) _ |- _] => inversion X; subst; discriminate end. }
    destruct PU as [F HF]. split; [apply G in HF; tauto|intros; apply G; auto]. }
  destruct P1 as [PT HF].
  assert (L : lc (tarrow U tbool)) by (apply (@ptype_lc K g (tarrow U tbool)); simpl; rewrite PT; auto).
  assert (G : forall F, typed g bs (TApp (TApp (TSym SEq) U) a) F -> F = tarrow U tbool /\ typed g bs a U).
  { intros F HF'. eapply typed_arrow_app; eauto; discriminate. }
  assert (HH : exists F, typed g bs (TApp (TApp (TSym SEq) U) a) F) by (inversion H; eauto).
  destruct HH as [F2 HF2]. destruct (G _ HF2) as [_ Ta].
  destruct (typed_arrow_app g bs (TApp (TApp (TSym SEq) U) a) b U tbool T H) as [-> Tb]; auto; try discriminate; try reflexivity.
  intros F3 HF3. apply G in HF3. tauto.
Qed.
Lemma typed_eq_intro g bs U a b : ptype g U = true -> typed g bs a U -> typed g bs b U -> typed g bs (teq U a b) tbool.
Proof.
  intros P Ha Hb. apply (ty_app K) with U; auto. apply (ty_app K) with U; auto; [apply ty_eq; auto|].
  apply (@ptype_lc K g (tarrow U tbool)). simpl. rewrite P. auto.
Qed.
Lemma typed_ite g bs U p a b T : typed g bs (tite U p a b) T -> T = U /\ ptype g U = true /\ typed g bs p tbool /\ typed g bs a U /\ typed g bs b U.
Proof.
  intros H.
  assert (G0 : forall F, typed g bs (TApp (TSym SIte) U) F -> ptype g U = true /\ F = tarrow tbool (tarrow U (tarrow U U))).
  { intros F HF. inversion HF; subst; auto; match goal with [X : typed g bs (TSym SIte) _ |- _] => inversion X; subst; discriminate end. }
  assert (PT : ptype g U = true).
  { inversion H; subst; match goal with [X : typed g bs (TApp (TApp (TApp _ _) _) _) _ |- _] => inversion X; subst end;
    match goal with [X : typed g bs (TApp (TApp (TSym SIte) U) p) _ |- _] => inversion X; subst end;
    match goal with [X : typed g bs (TApp (TSym SIte) U) _ |- _] => apply G0 in X; tauto end. }
  assert (L : forall X, ptype g X = true -> lc X) by (intros X HX; apply (@ptype_lc K g X HX)).
  assert (L1 : lc (tarrow U (tarrow U U))) by (apply L; simpl; rewrite PT; auto).
  assert (L2 : lc (tarrow U U)) by (apply L; simpl; rewrite PT; auto).
  assert (G1 : forall F, typed g bs (TApp (TApp (TSym SIte) U) p) F -> F = tarrow U (tarrow U U) /\ typed g bs p tbool).
  { intros F HF'. eapply typed_arrow_app; eauto; try discriminate; try reflexivity. intros G HG. apply G0 in HG. tauto. }
  assert (G2 : forall F, typed g bs (TApp (TApp (TApp (TSym SIte) U) p) a) F -> F = tarrow U U /\ typed g bs a U).
  { intros F HF'. eapply typed_arrow_app; eauto; try discriminate. intros G HG. apply G1 in HG. tauto. }
  destruct (typed_arrow_app g bs _ b U U T H) as [-> Tb]; auto; try discriminate; try reflexivity.
  { intros F3 HF3. apply G2 in HF3. tauto. }
  assert (H2 : exists F, typed g bs (TApp (TApp (TApp (TSym SIte) U) p) a) F) by (inversion H; eauto).
  destruct H2 as [F2 HF2]. destruct (G2 _ HF2) as [_ Ta].
  assert (H3 : exists F, typed g bs (TApp (TApp (TSym SIte) U) p) F) by (inversion HF2; eauto).
  destruct H3 as [F3 HF3]. destruct (G1 _ HF3) as [_ Tp]. auto.
Qed.
Lemma typed_ite_intro g bs U p a b : ptype g U = true -> typed g bs p tbool -> typed g bs a U -> typed g bs b U -> typed g bs (tite U p a b) U.
Proof.
  intros P Hp Ha Hb. assert (L : forall X, ptype g X = true -> lc X) by (intros X HX; apply (@ptype_lc K g X HX)).
  apply (ty_app K) with U; auto; [|apply L; auto]. apply (ty_app K) with U; auto; [|apply L; simpl; rewrite P; auto].
  apply (ty_app K) with tbool; auto; [apply ty_ite; auto|apply L; simpl; rewrite P; auto].
Qed.

(** ** replacing arguments *)
Definition arg_rel g bs (a a' : term) : Prop := (forall A, typed g bs a A -> typed g bs a' A) /\ (ptype g a = true -> a' = a).
Lemma apply_typed g bs h l l' : Forall2 (arg_rel g bs) l l' -> forall T, typed g bs (apply h l) T -> typed g bs (apply h l') T.
Proof.
  intros H. apply Forall2_rev in H. rewrite <- (rev_involutive l), <- (rev_involutive l').
  induction H as [|a a' m m' [R1 R2] H IH]; intros T HT; auto. simpl rev in *. rewrite apply_snoc in *.
  assert (NE : forall s, apply h (rev m) = TSym s -> apply h (rev m') = TSym s).
  { intros s Hs. destruct H; auto. simpl rev in Hs. rewrite apply_snoc in Hs. discriminate. }
  inversion HT; subst.
  - rewrite (NE SEq), R2 by congruence. apply ty_eq; auto.
  - rewrite (NE SIte), R2 by congruence. apply ty_ite; auto.
  - eapply ty_app; eauto.
  - rewrite R2 by auto. eapply ty_inst; eauto.
Qed.
Lemma typed_args g bs h l T : typed g bs (apply h l) T -> Forall (fun a => (exists A, typed g bs a A) \/ ptype g a = true) l.
Proof.
  rewrite <- (rev_involutive l). generalize (rev l). clear l. intros l. revert T. induction l as [|a l IH]; intros T; [constructor|].
  simpl rev. rewrite apply_snoc. intros H. apply Forall_app.
  assert (forall s, apply h (rev l) = TSym s -> l = []).
  { intros s. destruct l; auto. simpl rev. rewrite apply_snoc. discriminate. }
  inversion H; subst.
  - rewrite (H0 SEq) by congruence. simpl. auto.
  - rewrite (H0 SIte) by congruence. simpl. auto.
  - split; eauto.
  - split; eauto.
Qed.
Lemma apply_same h l l' : Forall2 same l l' -> same (apply h l) (apply h l').
Proof.
  intros H. apply Forall2_rev in H. rewrite <- (rev_involutive l), <- (rev_involutive l').
  induction H as [|a a' m m' R H IH]; [apply same_refl|]. simpl rev. rewrite !apply_snoc.
  intros M rho (W1 & W2 & W3). destruct (IH M rho W1) as [V1 E1]. destruct (R M rho W2) as [V2 E2].
  unfold ev in *. split; [|simpl; congruence]. split; [exact V1|]. split; [exact V2|]. rewrite E1, E2. exact W3.
Qed.
Lemma same_not a a' : same a a' -> same (tnot a) (tnot a').
Proof. intros H. apply (apply_same (TSym SNot) [a] [a']). auto. Qed.
End Spines.
