(** Inlining and conversion to extended terms keep types and values. *)
From Coq Require Import List Arith NArith Bool Lia.
Import ListNotations.
From Verif Require Import Term LocalContext Semantics TermProofs SemFacts Typing TypingProofs Monomorphic PolyTyped Literal Clause TermNorm Clausifier ClausifierProofs.

Lemma map_opt_Forall2 {A B} (f : A -> option B) l : forall r, map_opt f l = Some r -> Forall2 (fun x y => f x = Some y) l r.
Proof.
  induction l as [|x l IH]; intros r; simpl; [intros [= <-]; constructor|].
  unfold obind. destruct (f x) as [y|] eqn:E; [|discriminate]. destruct (map_opt f l) as [r'|] eqn:E'; [|discriminate].
  intros [= <-]. constructor; auto.
Qed.

Section Inline.
Context (K : kctx).
Notation typed := (typed K).
Notation ptype g := (ptm K g 0).
Notation lists := (list term).

(** what inlining with sign [false] returns: the negation *)
Definition negated (t u : term) : Prop :=
  forall M rho, wt M rho t -> wt M rho u /\ isb M (ev M rho u) /\ ev M rho t = bnot M (ev M rho u).

Lemma inline_atom n a u : inline_fuel n (TAtom a) = Some (u, true) -> u = TAtom a.
Proof.
  destruct n as [|n]; [discriminate|]. cbn [inline_fuel]. rewrite !split_not_app by reflexivity.
  destruct (term_eqb (TAtom a) ttrue) eqn:E1.
  - unfold term_eqb in E1. destruct (term_eq_dec (TAtom a) ttrue) as [->|]; [|discriminate]. intros [= <-]. auto.
  - destruct (term_eqb (TAtom a) tfalse); [discriminate|]. simpl. intros [= <-]. auto.
Qed.
Lemma inline_ptype n : forall g t u s, ptype g t = true -> inline_fuel n t = Some (u, s) -> u = t /\ s = true.
Proof.
  induction n as [|n IH]; intros g t u s P; [discriminate|]. cbn [inline_fuel]. rewrite !(split_ptype K g t) by auto.
  assert (Et : term_eqb t ttrue = false).
  { unfold term_eqb. destruct (term_eq_dec t ttrue) as [->|]; [discriminate|auto]. }
  assert (Ef : term_eqb t tfalse = false).
  { unfold term_eqb. destruct (term_eq_dec t tfalse) as [->|]; [discriminate|auto]. }
  rewrite Et, Ef.
  assert (MM : (if is_app t then
            let positive x := obind (inline_fuel n x) (fun '(u, s) => if (s : bool) then Some u else None) in
            obind (positive (spine_head t)) (fun f => obind (map_opt positive (args t)) (fun l =>
            Some (apply (TAtom (head_atom f)) (args f ++ l), true)))
          else Some (t, true)) = Some (u, s) -> u = t /\ s = true).
  { destruct (is_app t) eqn:A; [|intros [= <- <-]; auto]. cbv zeta.
    destruct (ptype_spine K g t P A) as (H2 & a & Ha). unfold obind. rewrite Ha.
    destruct (inline_fuel n (TAtom a)) as [[f' s']|] eqn:E1; [|discriminate]. destruct s'; [|discriminate].
    apply inline_atom in E1. subst f'. destruct (map_opt _ (args t)) as [l|] eqn:E2; [|discriminate]. intros [= <- <-]. split; auto.
    pose proof (spine t) as St. rewrite Ha in St. rewrite St. simpl app. f_equal.
    apply map_opt_Forall2 in E2. clear - IH H2 E2. induction E2; auto.
    inversion H2; subst. f_equal; auto. destruct (inline_fuel n x) as [[u' s']|] eqn:Ei; [|discriminate]. destruct s'; [|discriminate].
    injection H as <-. destruct (IH g x u' true) as [-> _]; auto. }
  destruct t as [a|f a|k A b]; auto. simpl in P. destruct k; try discriminate. auto.
Qed.

Lemma bool_cases (x : bool) : {x = true} + {x = false}. Proof. destruct x; auto. Qed.

Lemma inline_ok n : forall g t T u s, typed g [] t T -> inline_fuel n t = Some (u, s) ->
  (if s then typed g [] u T /\ same t u else T = tbool /\ typed g [] u tbool /\ negated t u).
Proof.
  induction n as [|n IH]; intros g t T u s HT; [discriminate|]. cbn [inline_fuel].
  destruct (split_symbol_application t SNot 1) as [[|x [|]]|] eqn:EN.
  - apply (split_typed K g [] t T) in EN; auto. destruct EN. discriminate.
  - apply (split_typed K g [] t T) in EN; auto. destruct EN as [-> _]. change (apply (TSym SNot) [x]) with (tnot x) in *.
    apply typed_not in HT. destruct HT as [-> Hx]. unfold obind. destruct (inline_fuel n x) as [[u' s']|] eqn:Ex; [|discriminate].
    intros [= <- <-]. specialize (IH g x tbool u' s' Hx Ex). destruct s'; simpl.
    + destruct IH as [I1 I2]. split; auto. split; auto. intros M rho W. apply swt_not in W. destruct W as [W B].
      destruct (I2 M rho W) as [W' E']. unfold ev in *. rewrite E'. split; [exact W'|]. split; [exact B|reflexivity].
    + destruct IH as (_ & I1 & I2). split; auto. intros M rho W. apply swt_not in W. destruct W as [W B].
      destruct (I2 M rho W) as (W' & B' & E'). split; auto. unfold ev in *. simpl. change (eval M rho (nobs M) u' = bnot M (eval M rho (nobs M) x)).
      rewrite E'. symmetry. apply bnot_invol; auto.
  - apply (split_typed K g [] t T) in EN; auto. destruct EN. discriminate.
  - assert (G : (if term_eqb t ttrue then Some (ttrue, true)
        else if term_eqb t tfalse then Some (ttrue, false)
        else
        match split_symbol_application t SAnd 2, split_symbol_application t SOr 2,
              split_symbol_application t SEq 3, split_symbol_application t SIte 4 with
        | None, None, None, None =>
          if is_app t then
            let positive x := obind (inline_fuel n x) (fun '(u, s) => if (s : bool) then Some u else None) in
            obind (positive (spine_head t)) (fun f => obind (map_opt positive (args t)) (fun l =>
            Some (apply (TAtom (head_atom f)) (args f ++ l), true)))
          else Some (t, true)
        | _, _, _, _ => None
        end) = Some (u, s) -> if s then typed g [] u T /\ same t u else T = tbool /\ typed g [] u tbool /\ negated t u).
    { unfold term_eqb. destruct (term_eq_dec t ttrue) as [->|_]; [intros [= <- <-]; split; auto; apply same_refl|].
      destruct (term_eq_dec t tfalse) as [->|_].
      { intros [= <- <-]. inversion HT; subst. split; auto. split; [apply (ty_sym K g [] STrue); auto|].
        intros M rho W. split; [exact I|]. split; [apply isb_true|]. unfold ev. simpl. unfold bnot. symmetry. apply not_true. }
      destruct (split_symbol_application t SAnd 2), (split_symbol_application t SOr 2), (split_symbol_application t SEq 3), (split_symbol_application t SIte 4);
        try discriminate.
      destruct (is_app t) eqn:A; [|intros [= <- <-]; split; auto; apply same_refl]. cbv zeta.
      assert (HA : exists a, spine_head t = TAtom a \/ inline_fuel n (spine_head t) = None).
      { destruct (typed_head K g [] t T HT A) as [[a Ha]|(A0 & b & Ha & _)]; [eauto|]. exists (BoundVar 0). right. rewrite Ha. destruct n; auto. }
      destruct HA as [a [Ha|Ha]]; [|rewrite Ha; discriminate]. unfold obind. rewrite Ha.
      destruct (inline_fuel n (TAtom a)) as [[f' s']|] eqn:E1; [|discriminate]. destruct s'; [|discriminate].
      apply inline_atom in E1. subst f'. destruct (map_opt _ (args t)) as [l|] eqn:E2; [|discriminate]. intros [= <- <-].
      simpl. apply map_opt_Forall2 in E2.
      assert (HT' : typed g [] (apply (TAtom a) (args t)) T) by (rewrite <- Ha, <- spine; auto).
      pose proof (typed_args K g [] _ _ _ HT') as TA.
      assert (R : Forall2 (fun x y => arg_rel K g [] x y /\ same x y) (args t) l).
      { clear - IH TA E2. induction E2; constructor.
        - destruct (inline_fuel n x) as [[u' s']|] eqn:Ei; [|discriminate]. destruct s'; [|discriminate]. injection H as <-.
          pose proof (Forall_inv TA) as [[A HA]|P].
          + split; [split|].
            * intros B HB. apply (IH g x B u' true); auto.
            * intros P. apply (inline_ptype n g x u' true); auto.
            * apply (IH g x A u' true); auto.
          + destruct (inline_ptype n g x u' true P Ei) as [-> _]. split; [split; auto|apply same_refl].
        - apply IHE2. inversion TA; auto. }
      split.
      - eapply apply_typed; [|exact HT']. eapply Forall2_impl; [|exact R]. intros ? ? [? ?]; assumption.
      - pose proof (spine t) as St. rewrite Ha in St. rewrite St. apply apply_same. eapply Forall2_impl; [|exact R]. intros ? ? [? ?]; assumption. }
    destruct t as [a|f a|k A b]; auto. destruct k; auto; discriminate.
Qed.

Lemma inline_positive_ok g t T u : typed g [] t T -> inline_positive t = Some u -> typed g [] u T /\ same t u.
Proof.
  unfold inline_positive. intros HT H. destruct (inline t) as [[u' s]|] eqn:E; [|discriminate]. destruct s; [|discriminate].
  injection H as <-. exact (inline_ok _ g t T u' true HT E).
Qed.
Lemma inline_positive_ptype g t u : ptype g t = true -> inline_positive t = Some u -> u = t.
Proof.
  unfold inline_positive. intros HT H. destruct (inline t) as [[u' s]|] eqn:E; [|discriminate]. destruct s; [|discriminate].
  injection H as <-. apply (inline_ptype _ g t u' true HT E).
Qed.
End Inline.

Lemma Forall2_len {A B} (R : A -> B -> Prop) l l' : Forall2 R l l' -> length l = length l'.
Proof. induction 1; simpl; auto. Qed.

(** ** lambdas opened with free variables *)
Definition lam_of (vs : list (nat * term)) (b : term) : term :=
  lambdas (map snd vs) (abstract_all 0 (rev (map fst vs)) b).
Fixpoint genv (g : tenv) (vs : list (nat * term)) : tenv :=
  match vs with [] => g | (v, A) :: r => gupd (genv g r) v A end.
Fixpoint arrows (l : list term) (B : term) : term := match l with [] => B | A :: l => tarrow A (arrows l B) end.

Lemma abstract_lambdas v X : forall l d, Forall (fun A => ~ In v (vars A) /\ forall d, lc_at d A) l ->
  abstract_var v d (lambdas l X) = lambdas l (abstract_var v (d + length l) X).
Proof.
  induction l as [|A l IH]; intros d H; simpl; [rewrite Nat.add_0_r; auto|]. inversion H; subst. destruct H2.
  rewrite abstract_fresh by auto. f_equal. rewrite IH by auto. do 2 f_equal. lia.
Qed.
Lemma abstract_all_snoc v X : forall l d, abstract_all d (l ++ [v]) X = abstract_var v (d + length l) (abstract_all d l X).
Proof.
  intros l. revert X. induction l as [|w l IH]; intros X d; simpl; [rewrite Nat.add_0_r; auto|].
  rewrite IH. f_equal. lia.
Qed.
Lemma lam_of_cons v A r b : Forall (fun A => ~ In v (vars A) /\ forall d, lc_at d A) (map snd r) ->
  lam_of ((v, A) :: r) b = TBind KLam A (abstract_var v 0 (lam_of r b)).
Proof.
  intros H. unfold lam_of. simpl. f_equal. rewrite abstract_lambdas by auto. f_equal.
  rewrite abstract_all_snoc. rewrite rev_length, !map_length. reflexivity.
Qed.

Lemma replace_abstract v a w : lc a -> ~ In w (vars a) -> v <> w -> forall t d,
  replace_variable v a (abstract_var w d t) = abstract_var w d (replace_variable v a t).
Proof.
  intros L N E. induction t as [[i|i|s]|f IHf x IHx|k A IHA b IHb]; intros d; simpl; auto.
  - destruct (Nat.eqb_spec i w) as [->|Ew].
    + destruct (Nat.eqb_spec w v); [congruence|]. simpl. rewrite Nat.eqb_refl. auto.
    + simpl. destruct (Nat.eqb_spec i v) as [->|].
      * symmetry. apply abstract_fresh; auto. eapply lc_weaken; [|exact L]. lia.
      * simpl. destruct (Nat.eqb_spec i w); [congruence|auto].
  - destruct (Nat.leb d i); auto.
  - rewrite IHf, IHx; auto.
  - rewrite IHA, IHb; auto.
Qed.
Lemma replace_lambdas v a X : forall l, Forall (fun A => ~ In v (vars A)) l ->
  replace_variable v a (lambdas l X) = lambdas l (replace_variable v a X).
Proof.
  induction l as [|A l IH]; intros H; simpl; auto. inversion H; subst. rewrite replace_variable_notin by auto. f_equal. auto.
Qed.
Lemma replace_abstract_all v a : lc a -> forall l d t, Forall (fun w => ~ In w (vars a) /\ v <> w) l ->
  replace_variable v a (abstract_all d l t) = abstract_all d l (replace_variable v a t).
Proof.
  intros L. induction l as [|w l IH]; intros d t H; simpl; auto. inversion H; subst. destruct H2.
  rewrite IH by auto. rewrite replace_abstract; auto.
Qed.
Lemma replace_lam_of v a r b : lc a -> Forall (fun p => ~ In (fst p) (vars a) /\ v <> fst p /\ ~ In v (vars (snd p))) r ->
  replace_variable v a (lam_of r b) = lam_of r (replace_variable v a b).
Proof.
  intros L H. unfold lam_of. rewrite replace_lambdas.
  - f_equal. apply replace_abstract_all; auto. apply Forall_rev, Forall_map. eapply Forall_impl; [|exact H]. simpl. tauto.
  - apply Forall_map. eapply Forall_impl; [|exact H]. simpl. tauto.
Qed.

Lemma lam_same v A b0 X' : ~ In v (vars b0) -> same (open_at 0 (TVar v) b0) X' ->
  same (TBind KLam A b0) (TBind KLam A (abstract_var v 0 X')).
Proof.
  intros N S M rho (W1 & W2 & W3).
  assert (G : forall x, mem M x (eval M rho (nobs M) A) -> swtg M (anydom M) rho (scons x (nobs M)) (abstract_var v 0 X') /\
    eval M rho (scons x (nobs M)) (abstract_var v 0 X') = eval M rho (scons x (nobs M)) b0).
  { intros x Hx. destruct (W3 x Hx) as [W4 _].
    assert (E : forall i, In i (vars b0) -> rho i = upd M rho v x i).
    { intros i Hi. unfold upd. destruct (Nat.eqb_spec i v) as [->|]; auto. contradiction. }
    assert (U : upd M rho v x v = x) by (unfold upd; rewrite Nat.eqb_refl; auto).
    assert (WX : wt M (upd M rho v x) (open_at 0 (TVar v) b0)).
    { apply swt_open; [exact I|]. simpl. rewrite U. apply swt_upd_fresh; auto. intros w Hw ->. contradiction. }
    destruct (S M _ WX) as [W5 E5]. split.
    - apply swt_abstract. simpl. eapply swt_bs; [|exact W5]. intros i. reflexivity.
    - rewrite eval_abstract. simpl. unfold ev in E5. rewrite eval_open in E5. simpl in E5. rewrite U in E5.
      rewrite (eval_bs M _ (del M 0 (scons x (nobs M))) (nobs M)) by reflexivity. rewrite E5. symmetry. apply eval_ext; auto. }
  split.
  - split; [exact W1|]. split; [exact W2|]. intros x Hx. split; auto. apply G; auto.
  - unfold ev. simpl. apply bind_ext. intros x Hx. apply G; auto.
Qed.

Lemma beta_same t v A X a : same t (TBind KLam A (abstract_var v 0 X)) -> lc a -> same (TApp t a) (replace_variable v a X).
Proof.
  intros S L M rho (W1 & W2 & W3). destruct (S M rho W1) as [(V1 & V2 & V3) E]. unfold ev in *. simpl in E. rewrite <- E in W3.
  destruct (lam_beta M _ _ _ W3) as [Hm Eb]. destruct (V3 _ Hm) as [V4 _]. split.
  - apply (swt_replace M (anydom M) v a X L rho (nobs M) (nobs M)); [exact W2|]. apply swt_abstract_inv in V4. simpl in V4. eapply swt_bs; [|exact V4]. reflexivity.
  - rewrite (eval_replace M v a X L rho (nobs M) (nobs M)). simpl. rewrite <- E, Eb, eval_abstract. simpl. apply eval_bs. reflexivity.
Qed.

Section Convert.
Context (K : kctx).
Notation typed := (typed K).
Notation ptype g := (ptm K g 0).

Definition fresh_list (g : tenv) (c : lctx) (vs : list (nat * term)) : Prop :=
  Forall (fun p => g (fst p) = None /\ fst p < length c /\ ptype g (snd p) = true) vs /\ NoDup (map fst vs).
Definition lamok (g : tenv) (c : lctx) (t T : term) (vs : list (nat * term)) (b : term) : Prop :=
  fresh_list g c vs /\ exists B, typed (genv g vs) [] b B /\ (vs = [] \/ ptype g B = true) /\ T = arrows (map snd vs) B /\ same t (lam_of vs b).
Definition ext_ok (g : tenv) (c : lctx) (t T : term) (e : extended) : Prop :=
  match e with
  | ETerm u => typed g [] u T /\ same t u
  | EIf _ _ _ => False
  | ELam vs b => lamok g c t T vs b
  end.

Lemma genv_notin g vs i : ~ In i (map fst vs) -> genv g vs i = g i.
Proof.
  induction vs as [|[v A] r IH]; simpl; intros H; auto. unfold gupd. destruct (Nat.eqb_spec i v) as [->|]; [tauto|]. apply IH. tauto.
Qed.
Lemma genv_swap g vs v A i : ~ In v (map fst vs) -> genv (gupd g v A) vs i = gupd (genv g vs) v A i.
Proof.
  induction vs as [|[w B] r IH]; simpl; intros H; auto. unfold gupd at 1. destruct (Nat.eqb_spec i w) as [->|E].
  - unfold gupd. destruct (Nat.eqb_spec w v); [tauto|]. rewrite Nat.eqb_refl. auto.
  - rewrite IH by tauto. unfold gupd. destruct (Nat.eqb_spec i v); auto. destruct (Nat.eqb_spec i w); [congruence|auto].
Qed.
Lemma genv_sub g vs : (forall v, In v (map fst vs) -> g v = None) -> gsub g (genv g vs).
Proof.
  intros H i T Hi. destruct (in_dec Nat.eq_dec i (map fst vs)) as [Hn|Hn]; [rewrite (H i Hn) in Hi; discriminate|]. rewrite genv_notin; auto.
Qed.
Lemma fresh_in g c vs : fresh_list g c vs -> forall v, In v (map fst vs) -> g v = None.
Proof. intros [F _] v Hv. apply in_map_iff in Hv. destruct Hv as (p & <- & Hp). rewrite Forall_forall in F. apply F in Hp. tauto. Qed.
Lemma ptype_novar g v A : g v = None -> ptype g A = true -> ~ In v (vars A).
Proof. intros N P H. apply (ptype_vars _ _ P) in H. destruct H as (k & E & _). congruence. Qed.
Lemma fresh_types g c vs v : fresh_list g c vs -> g v = None -> Forall (fun A => ~ In v (vars A) /\ forall d, lc_at d A) (map snd vs).
Proof.
  intros [F _] N. apply Forall_map. eapply Forall_impl; [|exact F]. intros [w A] (H1 & H2 & H3). simpl in *. split; [eapply ptype_novar; eauto|apply (@ptype_lc K g A H3)].
Qed.
Lemma fresh_tail g c v A r : fresh_list g c ((v, A) :: r) -> fresh_list g c r /\ g v = None /\ ptype g A = true /\ ~ In v (map fst r).
Proof. intros [F N]. inversion F; inversion N; subst. simpl in *. repeat split; auto; tauto. Qed.
Lemma fresh_upd g c v A r : fresh_list g c r -> g v = None -> ptype g A = true -> ~ In v (map fst r) -> fresh_list (gupd g v A) c r.
Proof.
  intros [F N] Hv HA Hn. split; auto. rewrite Forall_forall in *. intros [w B] Hp. destruct (F _ Hp) as (H1 & H2 & H3). simpl in *.
  repeat split; auto.
  - unfold gupd. destruct (Nat.eqb_spec w v) as [->|]; auto. exfalso. apply Hn. apply in_map_iff. exists (v, B). auto.
  - eapply ptype_sub; [|exact H3]. apply gsub_upd. auto.
Qed.
Lemma typed_pointwise g g' bs t T : (forall i, g i = g' i) -> typed g bs t T -> typed g' bs t T.
Proof. intros E. apply typed_sub. intros i U. rewrite E. auto. Qed.

Lemma typed_lam_of c vs : forall g b B, fresh_list g c vs -> typed (genv g vs) [] b B -> (vs = [] \/ ptype g B = true) ->
  typed g [] (lam_of vs b) (arrows (map snd vs) B).
Proof.
  induction vs as [|[v A] r IH]; intros g b B F Hb PB; [exact Hb|]. simpl arrows.
  destruct (fresh_tail _ _ _ _ _ F) as (F' & N & PA & NI). destruct PB as [PB|PB]; [discriminate|].
  rewrite lam_of_cons by (eapply fresh_types; eauto).
  assert (PA' : Forall (fun p => ptype g (snd p) = true) r) by (destruct F' as [F' _]; eapply Forall_impl; [|exact F']; simpl; tauto).
  apply ty_lam; auto.
  - clear - PA' PB. induction r as [|[w C] r IH]; simpl; auto. inversion PA'; subst. simpl in *. rewrite H1. simpl. auto.
  - apply (typed_abstract K g v A PA [] (lam_of r b)). apply IH.
    + apply fresh_upd; auto.
    + eapply typed_pointwise; [|exact Hb]. intros i. simpl. symmetry. apply genv_swap; auto.
    + right. eapply ptype_sub; [|exact PB]. apply gsub_upd; auto.
Qed.

Lemma ext_to_term_ok g c t T e c' u : ext_ok g c t T e -> ext_to_term K c' e = Some u -> typed g [] u T /\ same t u.
Proof.
  destruct e as [u'|p a b|vs b]; simpl.
  - intros H [= <-]. auto.
  - intros [].
  - intros (F & B & HB & PB & -> & S) H. unfold obind in H. destruct (get_type K c' _); [|discriminate]. injection H as <-.
    split; auto. eapply typed_lam_of; eauto.
Qed.
Lemma ext_ok_same g c t t' T e : same t t' -> ext_ok g c t' T e -> ext_ok g c t T e.
Proof.
  intros S. destruct e as [u|? ? ?|vs b]; simpl; auto.
  - intros [H1 H2]. split; auto. exact (same_trans _ _ _ S H2).
  - intros (F & B & H1 & H2 & H3 & H4). split; auto. exists B. split; [exact H1|]. split; [exact H2|]. split; [exact H3|]. exact (same_trans _ _ _ S H4).
Qed.

(** applying a converted lambda *)
Lemma lam_step g c t A T v r b a : lamok g c t (tarrow A T) ((v, A) :: r) b -> typed g [] a A ->
  lamok g c (TApp t a) T r (replace_variable v a b).
Proof.
  intros (F & B & HB & PB & ET & S) Ha. destruct (fresh_tail _ _ _ _ _ F) as (F' & N & PA & NI).
  destruct PB as [PB|PB]; [discriminate|]. injection ET as ->. split; auto. exists B. split; [|split; [|split]]; auto.
  - simpl in HB. assert (GS : gsub g (genv g r)) by (apply genv_sub; eapply fresh_in; eauto).
    eapply typed_replace; [|eapply typed_sub; [exact GS|exact Ha]|exact HB]. eapply ptype_sub; eauto.
  - rewrite lam_of_cons in S by (eapply fresh_types; eauto).
    assert (La : lc a) by (eapply typed_lc0; eauto).
    rewrite <- replace_lam_of; auto.
    + eapply beta_same; eauto.
    + destruct F' as [F' N']. rewrite Forall_forall in *. intros [w C] Hp. destruct (F' _ Hp) as (H1 & H2 & H3). simpl in *. repeat split.
      * intros Hw. destruct (typed_vars K g [] a A w Ha Hw). congruence.
      * intros ->. apply NI. apply in_map_iff. exists (w, C). auto.
      * eapply ptype_novar; eauto.
Qed.
Lemma lam_steps g c l : forall t vs b As T, Forall2 (typed g []) l As -> lamok g c t (arrows As T) vs b -> length l <= length vs ->
  lamok g c (apply t l) T (skipn (length l) vs) (replace_variables (combine (firstn (length l) (map fst vs)) l) b).
Proof.
  induction l as [|a l IH]; intros t vs b As T H; inversion H; subst; simpl; intros Ho Hl; auto.
  destruct vs as [|[v A] r]; simpl in *; [lia|]. apply (IH (TApp t a) r (replace_variable v a b) l'); auto; [|lia].
  pose proof Ho as (F & B & HB & PB & ET & S). simpl in ET. injection ET as -> ET. eapply lam_step; eauto.
Qed.

Lemma ptype_arrows g l B : ptype g (arrows l B) = true <-> Forall (fun A => ptype g A = true) l /\ ptype g B = true.
Proof.
  induction l as [|A l IH]; simpl; [intuition|]. rewrite andb_true_iff, IH. split; [intros (H1 & H2 & H3); auto|].
  intros [H1 H2]. inversion H1; auto.
Qed.
Lemma typed_apply_arrows g l : forall u As T, typed g [] u (arrows As T) -> ptype g (arrows As T) = true -> Forall2 (typed g []) l As ->
  typed g [] (apply u l) T.
Proof.
  induction l as [|a l IH]; intros u As T H P H2; inversion H2; subst; auto. simpl in *. apply andb_true_iff in P. destruct P as [P1 P2].
  apply (IH (TApp u a) l'); auto. eapply ty_app; eauto. apply (@ptype_lc K g _ P2 0).
Qed.
Lemma apply_arrows_inv g f F l : typed g [] f F -> ptype g F = true -> forall T, typed g [] (apply f l) T ->
  exists As, F = arrows As T /\ Forall2 (typed g []) l As.
Proof.
  intros HF PF. rewrite <- (rev_involutive l). generalize (rev l). clear l. intros l.
  assert (AS : forall As B C, arrows (As ++ [B]) C = arrows As (tarrow B C)) by (induction As; simpl; intros; f_equal; auto).
  induction l as [|a l IH]; simpl rev; intros T HT.
  - exists []. split; auto. simpl. apply (typed_unique K g f [] F T); auto.
  - rewrite apply_snoc in HT.
    assert (NS : forall s, TSym s = apply f (rev l) -> value_symbol s = true).
    { intros s Hs. destruct l as [|x l]; [|simpl rev in Hs; rewrite apply_snoc in Hs; discriminate]. simpl in Hs. subst f. inversion HF; auto. }
    inversion HT; subst.
    + exfalso. assert (X : value_symbol SEq = true) by (apply NS; congruence); discriminate X.
    + exfalso. assert (X : value_symbol SIte = true) by (apply NS; congruence); discriminate X.
    + match goal with [X : typed g [] (apply f (rev l)) _ |- _] => destruct (IH _ X) as (As & EF & HAs) end; rewrite EF in *.
      exists (As ++ [A]). split; [symmetry; apply AS|]. apply Forall2_app; auto.
    + exfalso. match goal with [X : typed g [] (apply f (rev l)) _ |- _] => destruct (IH _ X) as (As & EF & HAs) end; rewrite EF in *.
      apply ptype_arrows in PF. destruct PF as [_ PF]. simpl in PF. apply andb_true_iff in PF. destruct PF as [PF _]. apply ptype_not_kind in PF. congruence.
Qed.

Lemma apply_same_head l : forall f f', same f f' -> same (apply f l) (apply f' l).
Proof.
  induction l as [|a l IH]; intros f f' S; simpl; auto. apply IH. intros M rho (W1 & W2 & W3). destruct (S M rho W1) as [V1 E1]. unfold ev in *.
  split; [|simpl; congruence]. split; [exact V1|]. split; [exact W2|]. rewrite E1. exact W3.
Qed.

Lemma ext_apply_ok g c t e l As T : ext_ok g c t (arrows As T) e -> ptype g (arrows As T) = true -> Forall2 (typed g []) l As ->
  ext_ok g c (apply t l) T (ext_apply e l).
Proof.
  intros H P HA. pose proof (Forall2_len _ _ _ HA) as LA. destruct e as [u|? ? ?|vs b]; simpl in H; [|destruct H|].
  - destruct H as [H S]. simpl. split; [eapply typed_apply_arrows; eauto|apply apply_same_head; auto].
  - cbn [ext_apply]. destruct (Nat.ltb_spec (length l) (length vs)) as [L|L].
    + apply (lam_steps g c l t vs b As T); auto. lia.
    + destruct (Nat.eqb_spec (length l) (length vs)) as [E|E].
      * pose proof (lam_steps g c l t vs b As T HA H ltac:(lia)) as (F & B & HB & PB & ET & S).
        rewrite E, skipn_all, firstn_all2 in * by (rewrite ?map_length; lia). simpl in *. subst. auto.
      * set (k := length vs) in *. assert (HA' := HA). rewrite <- (firstn_skipn k l), <- (firstn_skipn k As) in HA'.
        apply Forall2_app_inv_l in HA'. destruct HA' as (A1 & A2 & H1 & H2 & EA).
        assert (L1 : length A1 = length (firstn k As)). { rewrite <- (Forall2_len _ _ _ H1), !firstn_length. lia. }
        assert (EAB : A1 = firstn k As /\ A2 = skipn k As).
        { clear - EA L1. revert L1 EA. generalize (firstn k As) (skipn k As). intros X Y L E. revert X L E. induction A1 as [|x A1 IH]; intros [|y X] L E; simpl in *; try discriminate; [auto|].
          injection E as -> E. destruct (IH X) as [-> ->]; auto. }
        destruct EAB as [-> ->].
        assert (AP : forall l1 l2, arrows (l1 ++ l2) T = arrows l1 (arrows l2 T)) by (induction l1; simpl; intros; f_equal; auto).
        rewrite <- (firstn_skipn k As), AP in H.
        pose proof (lam_steps g c (firstn k l) t vs b (firstn k As) (arrows (skipn k As) T) H1 H ltac:(rewrite firstn_length; lia)) as (F & B & HB & PB & ET & S).
        assert (Lf : length (firstn k l) = k) by (rewrite firstn_length; lia). rewrite Lf in *. unfold k in HB, PB, ET, S.
        rewrite skipn_all, firstn_all2 in * by (rewrite ?map_length; lia). simpl in HB, ET, S. subst B. fold k in S, HB.
        simpl. split.
        -- eapply typed_apply_arrows; [exact HB| |exact H2]. rewrite <- (firstn_skipn k As), AP in P. apply ptype_arrows in P. tauto.
        -- rewrite <- (firstn_skipn k l) at 1. rewrite apply_app. apply apply_same_head.
           unfold lam_of in S. simpl in S. rewrite (firstn_all2 (map fst vs)) in S by (rewrite map_length; unfold k; lia). exact S.
Qed.
End Convert.
