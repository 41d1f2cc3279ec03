(** The conversion to extended terms keeps types and values. *)
From Coq Require Import List Arith NArith Bool Lia.
Import ListNotations.
From Verif Require Import Term LocalContext Semantics TermProofs SemFacts Typing TypingProofs Monomorphic PolyTyped Literal Clause TermNorm Clausifier ClausifierProofs ClausifierConv.

Section Ext.
Context (K : kctx).
Notation typed := (typed K).
Notation ptype g := (ptm K g 0).
Notation ext_ok := (ext_ok K).
Notation lamok := (lamok K).

(** the new variables of a context have types over the type variables of [g] *)
Definition more (g : tenv) (c c' : lctx) : Prop := exists r, c' = c ++ map Some r /\ Forall (fun A => ptype g A = true) r.
Lemma more_refl g c : more g c c. Proof. exists []. split; [symmetry; apply app_nil_r|constructor]. Qed.
Lemma more_trans g a b c : more g a b -> more g b c -> more g a c.
Proof. intros (r & -> & F) (s & -> & F'). exists (r ++ s). rewrite map_app, app_assoc. split; auto. apply Forall_app. auto. Qed.
Lemma more_push g c A : ptype g A = true -> more g c (push_type c A).
Proof. exists [A]. split; [reflexivity|auto]. Qed.
Lemma more_len g c c' : more g c c' -> length c <= length c'.
Proof. intros (r & -> & _). rewrite app_length. lia. Qed.
Lemma more_ctx g g' c c' : gctx g c -> more g' c c' -> gctx g c'.
Proof. intros G (r & -> & _). eapply gctx_more; [exact G|]. eexists; reflexivity. Qed.
Lemma more_down g g' c c' : (forall T, ptype g' T = true -> ptype g T = true) -> more g' c c' -> more g c c'.
Proof. intros H (r & -> & F). exists r. split; auto. eapply Forall_impl; [|exact F]. auto. Qed.

Lemma typed_lam_inv g bs A b F : typed g bs (TBind KLam A b) F -> exists B, F = tarrow A B /\ ptype g A = true /\ ptype g B = true /\ typed g (A :: bs) b B.
Proof.
  intros H. inversion H; subst; [eauto 6|]. match goal with [X : KLam = KAll \/ KLam = KEx |- _] => destruct X; discriminate end.
Qed.
Lemma open_lambdas_ok n : forall c t vs b c1 g T, open_lambdas_fuel n c t = (vs, b, c1) -> gctx g c -> typed g [] t T ->
  more g c c1 /\ fresh_list K g c1 vs /\ Forall (fun p => length c <= fst p) vs /\ gctx (genv g vs) c1 /\
  exists B, typed (genv g vs) [] b B /\ (vs = [] \/ ptype g B = true) /\ T = arrows (map snd vs) B /\
    forall b', same b b' -> same t (lam_of vs b').
Proof.
  assert (base : forall c t g T, gctx g c -> typed g [] t T -> more g c c /\ fresh_list K g c [] /\ Forall (fun p : nat * term => length c <= fst p) [] /\
    gctx (genv g []) c /\ exists B, typed (genv g []) [] t B /\ ([] = @nil (nat * term) \/ ptype g B = true) /\ T = arrows (map snd (@nil (nat * term))) B /\
    forall b', same t b' -> same t (lam_of [] b')).
  { intros c t g T G H. split; [apply more_refl|]. split; [split; constructor|]. split; [constructor|]. split; [exact G|].
    exists T. split; [exact H|]. split; [auto|]. split; [auto|]. intros b' S. exact S. }
  induction n as [|n IH]; intros c t vs b c1 g T E G H; simpl in E; [injection E as <- <- <-; apply base; auto|].
  destruct t as [a|f a|k A t0]; try (injection E as <- <- <-; apply base; auto; fail).
  destruct k; try (injection E as <- <- <-; apply base; auto; fail).
  rewrite open_body_eq in E. destruct (open_lambdas_fuel n (push_type c A) _) as [[vs1 b1] c2] eqn:E1. injection E as <- <- <-.
  assert (N : g (length c) = None) by (eapply gctx_fresh; eauto).
  destruct (typed_lam_inv _ _ _ _ _ H) as (B & -> & PA & PB & Ht0).
  pose proof (typed_push K g (length c) A t0 B N PA Ht0) as Hp.
  destruct (IH _ _ _ _ _ _ _ E1 (gctx_push _ _ _ G) Hp) as (I1 & I2 & I3 & I4 & B1 & I5 & I6 & I7 & I8).
  assert (LP : length (push_type c A) = S (length c)) by (unfold push_type; rewrite app_length; simpl; lia).
  assert (NI : ~ In (length c) (map fst vs1)).
  { intros Hin. apply in_map_iff in Hin. destruct Hin as (p & Ep & Hp'). rewrite Forall_forall in I3. apply I3 in Hp'. lia. }
  assert (NV : forall X, ptype (gupd g (length c) A) X = true -> ptype g X = true).
  { intros X HX. eapply ptype_env; [exact HX|]. intros v k _ Hv Hk. unfold gupd in Hv. destruct (Nat.eqb_spec v (length c)); auto.
    exfalso. injection Hv as <-. apply ptype_not_kind in PA. congruence. }
  assert (F : fresh_list K g c2 ((length c, A) :: vs1)).
  { destruct I2 as [I2 I2']. split; [|simpl; constructor; auto]. constructor.
    - simpl. repeat split; auto. apply more_len in I1. lia.
    - rewrite Forall_forall in *. intros [w C] Hw. destruct (I2 _ Hw) as (J1 & J2 & J3). simpl in *. repeat split; auto.
      unfold gupd in J1. destruct (Nat.eqb w (length c)); [discriminate|auto]. }
  split; [eapply more_trans; [apply more_push; exact PA|eapply more_down; eauto]|]. split; [exact F|].
  split. { constructor; simpl; [lia|]. eapply Forall_impl; [|exact I3]. simpl. intros; lia. }
  assert (SW : forall i, genv (gupd g (length c) A) vs1 i = genv g ((length c, A) :: vs1) i) by (intros; simpl; apply genv_swap; auto).
  split. { intros i X Hi. rewrite <- SW in Hi. auto. }
  exists B1. split; [eapply typed_pointwise; [|exact I5]; auto|]. split.
  { right. destruct I6 as [->|I6]; [simpl in I7; congruence|auto]. }
  split; [simpl; congruence|]. intros b' Sb. rewrite lam_of_cons.
  - apply lam_same; auto. intros Hv. destruct (typed_vars K g [A] t0 B _ Ht0 Hv) as [X HX]. congruence.
  - destruct (fresh_tail _ _ _ _ _ _ F) as (F' & _). eapply fresh_types; eauto.
Qed.

Lemma genv_down g c vs : fresh_list K g c vs -> forall T, ptype (genv g vs) T = true -> ptype g T = true.
Proof.
  intros [F _] T P. eapply ptype_env; [exact P|]. intros v k _ Hv Hk. clear P.
  induction vs as [|[w A] r IH]; simpl in Hv; auto. inversion F; subst. unfold gupd in Hv. destruct (Nat.eqb v w); auto.
  exfalso. injection Hv as <-. destruct H1 as (_ & _ & P). apply ptype_not_kind in P. simpl in P. congruence.
Qed.
Lemma ext_ok_more g0 g c c' t T e : more g0 c c' -> ext_ok g c t T e -> ext_ok g c' t T e.
Proof.
  intros M. destruct e as [u|? ? ?|vs b]; simpl; auto. intros ([F N] & R). split; auto. split; auto.
  eapply Forall_impl; [|exact F]. intros p (H1 & H2 & H3). apply more_len in M. repeat split; auto. lia.
Qed.

(** what the conversion of [t] in environment [g] guarantees *)
Definition conv (g : tenv) (c : lctx) (t : term) (e : extended) : Prop :=
  (forall T, typed g [] t T -> ext_ok g c t T e) /\ (ptype g t = true -> e = ETerm t).
Definition can (g : tenv) (t : term) : Prop := (exists T, typed g [] t T) \/ ptype g t = true.

Lemma conv_more g0 g c c' t e : more g0 c c' -> conv g c t e -> conv g c' t e.
Proof. intros M [H1 H2]. split; auto. intros T H. eapply ext_ok_more; eauto. Qed.
Lemma conv_id g c t : conv g c t (ETerm t).
Proof. split; auto. intros T H. split; auto. apply same_refl. Qed.

Lemma map_state_ok (f : lctx -> term -> option (extended * lctx)) g :
  (forall c t e c', f c t = Some (e, c') -> gctx g c -> can g t -> more g c c' /\ conv g c' t e) ->
  forall l c r c', map_state f c l = Some (r, c') -> gctx g c -> Forall (can g) l -> more g c c' /\ Forall2 (conv g c') l r.
Proof.
  intros H. induction l as [|x l IH]; intros c r c'; simpl; [intros [= <- <-] _ _; split; [apply more_refl|constructor]|].
  unfold obind. destruct (f c x) as [[e c1]|] eqn:E; [|discriminate]. destruct (map_state f c1 l) as [[r' c2]|] eqn:E2; [|discriminate].
  intros [= <- <-] G F. inversion F; subst. destruct (H _ _ _ _ E G H2) as [M1 C1]. destruct (IH _ _ _ E2 (more_ctx _ _ _ _ G M1) H3) as [M2 C2].
  split; [eapply more_trans; eauto|]. constructor; auto. eapply conv_more; eauto.
Qed.

(** the terms that stand for converted arguments *)
Definition conv_term (g : tenv) (t u : term) : Prop := (forall T, typed g [] t T -> typed g [] u T) /\ (ptype g t = true -> u = t) /\ (can g t -> same t u).
Lemma conv_to_term g c t e c' u : conv g c t e -> ext_to_term K c' e = Some u -> conv_term g t u.
Proof.
  intros [H1 H2] E. split; [|split].
  - intros T H. eapply ext_to_term_ok; eauto.
  - intros P. rewrite (H2 P) in E. injection E as <-. auto.
  - intros [[T HT]|P]; [eapply ext_to_term_ok; eauto|]. rewrite (H2 P) in E. injection E as <-. apply same_refl.
Qed.
Lemma add_spine_ok g c l r : Forall2 (conv g c) l r -> Forall (can g) l -> forall s1 x, add_spine K c None s1 [] r = Some x ->
  exists us, x = (None, s1 ++ us, []) /\ Forall2 (conv_term g) l us.
Proof.
  induction 1 as [|t e l r H HF IH]; intros F s1 x E; [injection E as <-; exists []; rewrite app_nil_r; auto|]. pose proof (Forall_inv F) as Fx. apply Forall_inv_tail in F.
  assert (exists u, ext_to_term K c e = Some u /\ add_spine K c None (s1 ++ [u]) [] r = Some x) as (u & E1 & E2).
  { destruct e as [u|p a b|vs b].
    - exists u. auto.
    - exfalso. destruct H as [H1 H2]. destruct Fx as [[T HT]|P]; [destruct (H1 T HT)|specialize (H2 P); discriminate].
    - cbn [add_spine] in E. unfold obind in E. destruct (ext_to_term K c (ELam vs b)) as [u|]; [exists u; auto|discriminate]. }
  destruct (IH F _ _ E2) as (us & -> & HU). exists (u :: us). rewrite <- app_assoc. split; auto. constructor; auto. eapply conv_to_term; eauto.
Qed.
Lemma map_opt_conv g c l r : Forall2 (conv g c) l r -> forall ts c', map_opt (ext_to_term K c') r = Some ts -> Forall2 (conv_term g) l ts.
Proof.
  induction 1 as [|t e l r H HF IH]; intros ts c'; simpl; [intros [= <-]; constructor|].
  unfold obind. destruct (ext_to_term K c' e) as [u|] eqn:E; [|discriminate]. destruct (map_opt _ r) as [us|] eqn:E2; [|discriminate]. intros [= <-].
  constructor; eauto. eapply conv_to_term; eauto.
Qed.
Lemma conv_term_args g l us : Forall2 (conv_term g) l us -> Forall (can g) l -> Forall2 (arg_rel K g []) l us /\ Forall2 same l us.
Proof.
  induction 1 as [|t u l us (H1 & H2 & H3) HF IH]; intros F; [split; constructor|]. inversion F; subst. destruct IH; auto.
  split; constructor; auto. split; auto.
Qed.

Lemma arg_to_ext_ok rec g :
  (forall c t e c', rec c t = Some (e, c') -> gctx g c -> can g t -> more g c c' /\ conv g c' t e) ->
  forall c t e c', arg_to_ext K rec c t = Some (e, c') -> gctx g c -> can g t -> more g c c' /\ conv g c' t e.
Proof.
  intros H c t e c'. unfold arg_to_ext. destruct (is_lambda t); [apply H|]. unfold obind. destruct (get_type K c t) as [T|]; [|discriminate].
  destruct (term_eqb T tbool && _); [|apply H]. intros [= <- <-] _ _. split; [apply more_refl|apply conv_id].
Qed.

Lemma inline_positive_atom a u : inline_positive (TAtom a) = Some u -> u = TAtom a.
Proof.
  unfold inline_positive, inline. destruct (inline_fuel _ _) as [[v []]|] eqn:E; try discriminate. intros [= <-]. eapply inline_atom; eauto.
Qed.
Lemma to_ext_atom n c a e c' : to_ext K n c (TAtom a) = Some (e, c') -> e = ETerm (TAtom a) /\ c' = c.
Proof.
  destruct n as [|n]; [discriminate|]. cbn [to_ext]. rewrite split_not_app by reflexivity. cbn [is_app].
  unfold term_eqb. destruct (term_eq_dec (TAtom a) ttrue) as [->|]; [intros [= <- <-]; auto|].
  destruct (term_eq_dec (TAtom a) tfalse) as [->|]; [intros [= <- <-]; auto|].
  unfold obind. destruct (get_type K c (TAtom a)) as [T|]; [|discriminate]. destruct (term_eq_dec T tbool).
  - destruct (inline_positive (TAtom a)) as [u|] eqn:E; intros [= <- <-]; auto. apply inline_positive_atom in E. subst. auto.
  - intros [= <- <-]. auto.
Qed.

Lemma to_ext_ok n : forall g c t e c', to_ext K n c t = Some (e, c') -> gctx g c -> can g t -> more g c c' /\ conv g c' t e.
Proof.
  induction n as [|n IH]; intros g c t e c' E G C; [discriminate|]. cbn [to_ext] in E.
  assert (MAIN : (if is_app t then
        obind (map_state (arg_to_ext K (to_ext K n)) c (args t)) (fun '(l, c) =>
        app_to_ext K (to_ext K n) c (spine_head t) l)
      else
      match t with
      | TBind KLam _ _ =>
        let '(vs, b, c) := open_lambdas c t in
        obind (to_ext K n c b) (fun '(e, c) => obind (ext_to_term K c e) (fun b' =>
        Some (ELam vs b', c)))
      | TBind KAll _ _ | TBind KEx _ _ => Some (ETerm t, c)
      | _ =>
        if term_eqb t ttrue then Some (ETerm ttrue, c)
        else if term_eqb t tfalse then Some (ETerm tfalse, c)
        else
          obind (get_type K c t) (fun T =>
          if term_eqb T tbool then
            match inline_positive t with Some u => Some (ETerm u, c) | None => Some (ETerm t, c) end
          else Some (ETerm t, c))
      end) = Some (e, c') -> more g c c' /\ conv g c' t e).
  { clear E. destruct (is_app t) eqn:A.
    - unfold obind at 1. destruct (map_state _ c (args t)) as [[l c1]|] eqn:E1; [|discriminate].
      assert (CA : Forall (can g) (args t)).
      { destruct C as [[T HT]|P].
        - rewrite (spine t) in HT. apply typed_args in HT. exact HT.
        - destruct (ptype_spine K g t P A) as (P2 & _). eapply Forall_impl; [|exact P2]. intros; right; auto. }
      destruct (map_state_ok _ g (arg_to_ext_ok _ g (IH g)) _ _ _ _ E1 G CA) as [M1 F1].
      assert (G1 : gctx g c1) by (eapply more_ctx; eauto).
      unfold app_to_ext, obind. destruct (to_ext K n c1 (spine_head t)) as [[e1 c2]|] eqn:E2; [|discriminate].
      destruct (is_lambda (spine_head t)) eqn:IL.
      + destruct (map_opt _ l) as [ts|] eqn:E3; [|discriminate]. intros [= <- <-].
        destruct C as [[T HT]|P].
        2:{ exfalso. destruct (ptype_spine K g t P A) as (_ & a & Ha). rewrite Ha in IL. discriminate. }
        destruct (typed_head K g [] t T HT A) as [[a Ha]|(A0 & b & Ha & F & HF & PF)]; [rewrite Ha in IL; discriminate|].
        destruct (IH _ _ _ _ _ E2 G1) as [M2 [C2 _]]; [left; eauto|]. split; [eapply more_trans; eauto|].
        pose proof (map_opt_conv _ _ _ _ F1 _ _ E3) as FC.
        destruct (conv_term_args _ _ _ FC CA) as [R1 R2].
        split; [|intros P; destruct (ptype_spine K g t P A) as (_ & a & Ha'); congruence].
        intros T' HT'. clear T HT. pose proof HT' as HT. rewrite (spine t) in HT.
        pose proof (apply_typed K g [] _ _ _ R1 _ HT) as HT2.
        destruct (apply_arrows_inv K g _ _ _ HF PF _ HT2) as (As & -> & HA).
        eapply ext_ok_same; [rewrite (spine t) at 1; exact (apply_same _ _ _ R2)|]. apply (ext_apply_ok K) with As; auto.
      + assert (HA : exists a, spine_head t = TAtom a).
        { destruct C as [[T HT]|P]; [|destruct (ptype_spine K g t P A) as (_ & Ha); auto].
          destruct (typed_head K g [] t T HT A) as [Ha|(A0 & b & Ha & _)]; auto. rewrite Ha in IL. discriminate. }
        destruct HA as [a Ha]. rewrite Ha in E2. apply to_ext_atom in E2. destruct E2 as [-> ->].
        destruct (add_spine K c1 None [TAtom a] [] l) as [x|] eqn:E3; [|discriminate].
        destruct (add_spine_ok _ _ _ _ F1 CA _ _ E3) as (us & -> & FC). simpl. intros [= <- <-]. split; auto.
        destruct (conv_term_args _ _ _ FC CA) as [R1 R2]. split.
        * intros T HT. rewrite (spine t), Ha in HT. split; [eapply apply_typed; eauto|].
          rewrite (spine t), Ha. apply apply_same. auto.
        * intros P. f_equal. rewrite (spine t) at 1. rewrite Ha. f_equal. destruct (ptype_spine K g t P A) as (P2 & _).
          clear - FC P2. induction FC as [|x y l us (_ & H & _)]; auto. inversion P2; subst. f_equal; auto.
    - destruct t as [a|f a|k A0 b]; [|discriminate|].
      + intros H. assert (X : e = ETerm (TAtom a) /\ c' = c).
        { apply (to_ext_atom (S n)). cbn [to_ext]. rewrite split_not_app by reflexivity. exact H. }
        destruct X as [-> ->]. split; [apply more_refl|apply conv_id].
      + destruct k.
        * destruct C as [[T HT]|P]; [inversion HT; subst; match goal with [X : KPi = KAll \/ KPi = KEx |- _] => destruct X; discriminate end|].
          unfold term_eqb, obind. destruct (term_eq_dec _ ttrue); [discriminate|]. destruct (term_eq_dec _ tfalse); [discriminate|].
          destruct (get_type K c _) as [T|]; [|discriminate]. destruct (term_eq_dec T tbool).
          -- unfold inline_positive, inline. destruct (inline_fuel _ _) as [[u []]|] eqn:EI.
             ++ destruct (inline_ptype _ _ _ _ _ _ P EI) as [-> _]. intros [= <- <-]. split; [apply more_refl|apply conv_id].
             ++ intros [= <- <-]. split; [apply more_refl|apply conv_id].
             ++ intros [= <- <-]. split; [apply more_refl|apply conv_id].
          -- intros [= <- <-]. split; [apply more_refl|apply conv_id].
        * destruct (open_lambdas c (TBind KLam A0 b)) as [[vs b1] c1] eqn:EO. unfold obind.
          destruct (to_ext K n c1 b1) as [[e1 c2]|] eqn:E1; [|discriminate]. destruct (ext_to_term K c2 e1) as [b'|] eqn:E2; [|discriminate].
          intros [= <- <-]. destruct C as [[T HT]|P]; [|discriminate].
          destruct (open_lambdas_ok _ _ _ _ _ _ _ _ EO G HT) as (O1 & O2 & O3 & O4 & B & O5 & O6 & O7 & O8).
          destruct (IH _ _ _ _ _ E1 O4) as [M2 [C2 _]]; [left; eauto|]. specialize (C2 B O5).
          destruct (ext_to_term_ok _ _ _ _ _ _ _ _ C2 E2) as [TB SB].
          assert (DN : forall T0, ptype (genv g vs) T0 = true -> ptype g T0 = true) by (apply (genv_down g c1); auto).
          assert (M3 : more g c1 c2) by (eapply more_down; eauto). split; [eapply more_trans; eauto|].
          split; [|discriminate]. intros T' HT'. apply (ext_ok_more g) with c1; auto. rewrite <- (typed_unique K g _ _ _ _ HT HT').
          split; [exact O2|]. exists B. split; [exact TB|]. split; [exact O6|]. split; [exact O7|]. apply O8. exact SB.
        * intros [= <- <-]. split; [apply more_refl|apply conv_id].
        * intros [= <- <-]. split; [apply more_refl|apply conv_id]. }
  destruct (split_symbol_application t SIte 4) as [sl|] eqn:ES; [|auto].
  destruct C as [[T HT]|P]; [|rewrite (split_ptype K g t) in ES by auto; discriminate].
  destruct (split_typed K _ _ _ _ _ _ _ HT ES eq_refl) as [-> L].
  destruct sl as [|U [|p [|a [|b [|]]]]]; try discriminate. change (apply (TSym SIte) [U; p; a; b]) with (tite U p a b) in *.
  destruct (typed_ite K _ _ _ _ _ _ _ HT) as (-> & PU & Hp & Ha & Hb). unfold obind in E.
  destruct (to_ext K n c a) as [[ea c1]|] eqn:E1; [|discriminate]. destruct (IH _ _ _ _ _ E1 G) as [M1 [C1 _]]; [left; eauto|].
  destruct (ext_to_term K c1 ea) as [a'|] eqn:E2; [|discriminate]. destruct (ext_to_term_ok _ _ _ _ _ _ _ _ (C1 _ Ha) E2) as [Ta Sa].
  assert (G1 : gctx g c1) by (eapply more_ctx; eauto).
  destruct (to_ext K n c1 b) as [[eb c2]|] eqn:E3; [|discriminate]. destruct (IH _ _ _ _ _ E3 G1) as [M2 [C2 _]]; [left; eauto|].
  destruct (ext_to_term K c2 eb) as [b'|] eqn:E4; [|discriminate]. destruct (ext_to_term_ok _ _ _ _ _ _ _ _ (C2 _ Hb) E4) as [Tb Sb].
  assert (G2 : gctx g c2) by (eapply more_ctx; eauto).
  rewrite (typed_type K g c2 a' U G2 Ta) in E. injection E as <- <-. split; [eapply more_trans; eauto|]. split.
  - intros T' HT'. destruct (typed_ite K _ _ _ _ _ _ _ HT') as (-> & _). split; [apply typed_ite_intro; auto|].
    apply (apply_same (TSym SIte) [U; p; a; b] [U; p; a'; b']). exact (Forall2_cons _ _ (same_refl U) (Forall2_cons _ _ (same_refl p) (Forall2_cons _ _ Sa (Forall2_cons _ _ Sb (Forall2_nil _))))).
  - intros P. assert (X : split_symbol_application (tite U p a b) SIte 4 = None) by (apply (split_ptype K g); auto). rewrite X in ES. discriminate.
Qed.

Lemma to_inline_ok n g c t T u c' : to_inline_term K n c t = Some (u, c') -> gctx g c -> typed g [] t T ->
  more g c c' /\ typed g [] u T /\ same t u.
Proof.
  unfold to_inline_term, obind. intros E G HT. destruct (inline_positive t) as [v|] eqn:EI.
  - injection E as <- <-. split; [apply more_refl|]. unfold inline_positive, inline in EI. destruct (inline_fuel _ t) as [[w []]|] eqn:EF; try discriminate.
    injection EI as <-. exact (inline_ok K _ _ _ _ _ _ HT EF).
  - destruct (to_ext K n c t) as [[e c1]|] eqn:E1; [|discriminate]. destruct (ext_to_term K c1 e) as [v|] eqn:E2; [|discriminate]. injection E as <- <-.
    destruct (to_ext_ok _ _ _ _ _ _ E1 G) as [M [C _]]; [left; eauto|]. split; auto. eapply ext_to_term_ok; eauto.
Qed.
End Ext.
