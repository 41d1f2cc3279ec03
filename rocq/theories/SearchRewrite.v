(** Rewriting of concrete literals with monomorphic equations. *)
From Coq Require Import List Arith NArith Bool Lia.
Import ListNotations.
From Verif Require Import VariableMap Unifier Inference ClauseSet EqualityGraph Checker.
From Verif Require Import Term LocalContext Semantics TermProofs SemFacts TermNorm TermNormProofs Typing TypingProofs Literal Clause ClauseSem RenumberProofs ClauseProofs ClauseWf InferenceProofs
  VariableMapProofs UnifierProofs CheckerProofs CheckerSem P_TermNorm P_Checker Monomorphic MonoProofs MonoNorm MonoReduce MonoUnify MonoRules MonoMatch SearchRules SearchProofs SearchSimplify.

(** The kinds of types: products that end in [Type0]. *)
Fixpoint kind_shape (k : term) : bool :=
  match k with
  | TBind KPi _ B => kind_shape B
  | TSym SType0 => true
  | _ => false
  end.
Definition type_kinds (K : kctx) : Prop := forall m i, kind_shape (k_type K m i) = true.

Lemma kind_open a k : forall d, kind_shape k = true -> kind_shape (open_at d a k) = true.
Proof. induction k as [[i|i|[]]|f IHf b IHb|[] A IHA b IHb]; intros d; simpl; try discriminate; auto. Qed.
Lemma kind_not_ground k : kind_shape k = true -> ground_type k = false.
Proof. induction k as [[i|i|[]]|f IHf b IHb|[] A IHA b IHb]; simpl; try discriminate; auto. intros H. rewrite IHb by auto. apply andb_false_r. Qed.

Section SR.
Context (M : Model) (K : kctx) (ts : tstore) (CT : closed_types K) (R : respects M K) (TK : type_kinds K).
Notation et := (element_type M).
Notation ht := (has_type M K).
Notation hq := (hq M K).
Notation ml := (mono_literal M K).
Notation mt := (mono_typed M K).
Notation ust := (ust M K).

Lemma ground_kind c g : forall n U, ground_type g = true -> get_type_fuel n K c g = Some U -> kind_shape U = true /\ vars U = [].
Proof.
  induction g as [[i|i|s]|f IHf a IHa|k A IHA b IHb]; intros [|n] U G H; try discriminate; cbn [get_type_fuel] in H.
  - injection H as <-. split; [|apply CT]. destruct s; try discriminate; auto. apply TK.
  - simpl in G. apply andb_prop in G. destruct G as [G1 G2]. destruct (get_type_fuel n K c f) as [T|] eqn:E; [|discriminate]. destruct (IHf _ _ G1 E) as [K1 K2].
    unfold type_apply_with_arg in H. destruct T as [[?|?|[]]|?|[] X Y]; try discriminate. simpl in K1. rewrite vars_bind in K2. apply app_eq_nil in K2. destruct K2 as [_ K2].
    destruct (has_bound_variable Y); [|injection H as <-; auto]. rewrite open_bound_spec in H. injection H as <-.
    split; [apply kind_open; auto|apply vars_open_closed; auto; apply ground_vars; auto].
  - simpl in G. destruct k; try discriminate. injection H as <-. auto.
Qed.

(** A term with a type never unifies with a type. *)
Lemma uni_no_type n : forall c bs s T g st', hq c bs s T -> mono_context M c -> ground_type g = true -> unify_internal K ts n (two_scopes c []) 1 s 2 g <> Some (Some st').
Proof.
  induction n as [|n IH]; intros c bs s T g st' Hs Hc G H; [discriminate|]. cbn [unify_internal] in H.
  assert (E1 : split_eq_args g = None).
  { destruct (split_eq_args g) as [[[W a] b]|] eqn:E; auto. apply split_eq_args_some in E. subst g. discriminate. }
  rewrite E1 in H. assert (Av : atomic_variable g = None) by (destruct g as [[]| |]; auto; discriminate). rewrite Av in H.
  destruct s as [[i|i|x]|f a|k A b]; cbn [atomic_variable] in H.
  - destruct Hs as [Hs|[[E _]|[E _]]]; try discriminate.
    assert (Gi : get_var_type c i = Some T) by (inversion Hs; auto). pose proof (mc_get M _ _ _ Hc Gi) as HT.
    destruct n as [|n]; [discriminate|]. cbn [unify_variable] in H. destruct (uapply n (two_scopes c []) 2 g) as [[g' st1]|] eqn:Ea; [|discriminate].
    apply uapply_closed in Ea; [|apply ground_vars; auto]. destruct Ea as [-> ->].
    destruct n as [|n]; [discriminate|]. assert (Z : vget (umap (two_scopes c []) 1) i = None) by (destruct i; reflexivity).
    destruct (compatible K ts n (two_scopes c []) 1 T g) as [[st1|]|] eqn:Ec.
    2,3: exfalso; change (match vget (umap (two_scopes c []) 1) i with Some e => unify_internal K ts n (two_scopes c []) 0 e 0 g
      | None => match get_var_type c i with None => None | Some T => if has_escaping_bound_variable g then Some None else
          match compatible K ts n (two_scopes c []) 1 T g with Some (Some st1) => match uapply n st1 0 g with None => None | Some (t', st2) => Some (Some (bind_input st2 1 i t')) end | r => r end end end = Some (Some st')) in H;
      rewrite Z, Gi, Ec in H; destruct (has_escaping_bound_variable g); discriminate.
    clear H.
    destruct n as [|n]; [discriminate|]. cbn [compatible] in Ec. apply (et_ground M) in HT.
    assert (Ec' : match get_type K (u_out (two_scopes c [])) g with None => None | Some U => unify_internal K ts n (two_scopes c []) 1 T 0 U end = Some (Some st1)).
    { destruct T as [[?|?|[]]|?|?]; try discriminate HT; exact Ec. }
    destruct (get_type K (u_out (two_scopes c [])) g) as [U|] eqn:Eg; [|discriminate]. apply ground_kind in Eg; auto. destruct Eg as [K1 K2].
    apply uni_ground in Ec'; auto. destruct Ec' as [-> _]. apply kind_not_ground in K1. congruence.
  - assert (Z : split_eq_args (TBound i) = None) by reflexivity. rewrite Z in H. destruct g as [[?|?|y]| |]; discriminate.
  - assert (Z : split_eq_args (TSym x) = None) by reflexivity. rewrite Z in H. destruct g as [[?|?|y]| |]; try discriminate.
    assert (Nx : value_symbol x = true \/ x = SEq \/ x = SIte). { destruct Hs as [Hs|[[E _]|[E _]]]; [inversion Hs; auto|right; left; congruence|right; right; congruence]. }
    destruct (atom_eq_dec (Sym x) (Sym y)) as [E|E].
    + injection E as ->. destruct Nx as [Nx|[Nx|Nx]]; [destruct y; discriminate|subst; discriminate|subst; discriminate].
    + destruct x; try discriminate; destruct y; discriminate.
  - destruct g as [|gf ga|]; try (destruct (split_eq_args (TApp f a)) as [[[? ?] ?]|]; discriminate).
    simpl in G. apply andb_prop in G.
    assert (H' : match unify_internal K ts n (two_scopes c []) 1 f 2 gf with Some (Some st1) => unify_internal K ts n st1 1 a 2 ga | r => r end = Some (Some st')).
    { destruct (split_eq_args (TApp f a)) as [[[? ?] ?]|]; exact H. }
    destruct (unify_internal K ts n (two_scopes c []) 1 f 2 gf) as [[st1|]|] eqn:E; try discriminate.
    apply (hq_app M K) in Hs. destruct Hs as [(A & F1 & _)|(k & B & F1 & _)]; eapply IH; eauto; tauto.
  - assert (Z : split_eq_args (TBind k A b) = None) by reflexivity. rewrite Z in H. destruct g as [| |k' A' b']; try discriminate.
    simpl in G. destruct k'; try discriminate. destruct (bkind_eq_dec k KPi) as [->|]; [|discriminate].
    destruct Hs as [Hs|[[E _]|[E _]]]; try discriminate. inversion Hs as [| | | | | | | |? ? ? ? X]. destruct X; discriminate.
Qed.

(** ** Terms that may stand for each other *)
Definition good (G : lctx) (bs : list term) (rho bv : nat -> D M) : Prop :=
  valid_env M G rho /\ forall i U, nth_error bs i = Some U -> mem M (bv i) (ev M (nobs M) U).
Definition bare (t : term) : Prop := ground_type t = true \/ t = TSym SEq \/ t = TSym SIte.
Definition req (G : lctx) (bs : list term) (a b : term) : Prop :=
  (forall T, ht G bs a T -> ht G bs b T /\ forall rho bv, good G bs rho bv -> eval M rho bv b = eval M rho bv a) /\ (bare a -> b = a).
Lemma req_refl G bs a : req G bs a a. Proof. split; auto. Qed.
Lemma req_trans G bs a b c : req G bs a b -> req G bs b c -> req G bs a c.
Proof.
  intros [A1 A2] [B1 B2]. split.
  - intros T H. destruct (A1 T H) as [H1 H2]. destruct (B1 T H1) as [H3 H4]. split; auto. intros rho bv Hg. rewrite H4, H2; auto.
  - intros H. pose proof (A2 H) as ->. auto.
Qed.
Lemma req_app G bs f f' a a' : req G bs f f' -> req G bs a a' -> req G bs (TApp f a) (TApp f' a').
Proof.
  intros [F1 F2] [A1 A2]. split.
  - intros T H. inversion H as [| | |? ? HT|? ? HT|? ? ? A B Hf EA Lb Ha|? ? k ? B Hf Ta ? Ho| |]; subst.
    + rewrite (F2 ltac:(right; left; auto)), (A2 ltac:(left; eapply et_ground; eauto)). split; [apply ht_eq; auto|auto].
    + rewrite (F2 ltac:(right; right; auto)), (A2 ltac:(left; eapply et_ground; eauto)). split; [apply ht_ite; auto|auto].
    + destruct (F1 _ Hf) as [X1 X2]. destruct (A1 _ Ha) as [Y1 Y2]. split; [eapply ht_app; eauto|]. intros rho bv Hg. simpl. rewrite X2, Y2; auto.
    + rewrite (A2 ltac:(left; apply Ta)). destruct (F1 _ Hf) as [X1 X2]. split; [eapply ht_inst; eauto|]. intros rho bv Hg. simpl. rewrite X2; auto.
  - intros [H|[H|H]]; try discriminate. simpl in H. apply andb_prop in H. rewrite F2, A2 by (left; tauto). auto.
Qed.
Lemma req_bind G bs k A b b' : (et A -> req G (A :: bs) b b') -> (ground_type b = true -> b' = b) -> req G bs (TBind k A b) (TBind k A b').
Proof.
  intros Hb Hg. split.
  - intros T H.
    assert (Gd : et A -> forall rho bv, good G bs rho bv -> forall x, mem M x (eval M rho bv A) -> good G (A :: bs) rho (scons x bv)).
    { intros HA rho bv [G1 G2] x Hx. split; auto. intros [|i] U E; simpl in *; [injection E as <-; rewrite (closed_eval M) in Hx by (eapply et_closed; eauto); auto|auto]. }
    inversion H as [| | | | | | |? ? ? B HA Hm HB Hbd|? ? ? ? Hk HA Hbd]; subst; destruct (proj1 (Hb HA) _ Hbd) as [X1 X2].
    + split; [apply ht_lam; auto|]. intros rho bv Hgd. simpl. apply bind_ext. intros x Hx. apply X2. apply Gd; auto.
    + split; [apply ht_quant; auto|]. intros rho bv Hgd. simpl. apply bind_ext. intros x Hx. apply X2. apply Gd; auto.
  - intros [H|[H|H]]; try discriminate. simpl in H. destruct k; try discriminate. apply andb_prop in H. rewrite Hg by tauto. auto.
Qed.
Lemma req_args G bs : forall args args' f f', req G bs f f' -> Forall2 (req G bs) args args' -> req G bs (apply_args f args) (apply_args f' args').
Proof.
  induction args as [|a r IH]; intros args' f f' Hf H; inversion H; subst; simpl; auto. apply IH; auto. apply req_app; auto.
Qed.

(** ** Instance aliases *)
Context (attribute : N -> N -> option nat) (alias : N -> N -> list term -> option symbol).
(** An alias has the type and the meaning of the attribute at the types of the instance. *)
Definition aliases_agree : Prop := forall m i args s, alias m i args = Some s ->
  value_symbol s = true /\ forall G bs T, ht G bs (apply_args (TSym (SGlobal m i)) args) T ->
    symbol_type K s = T /\ forall rho bv, good G bs rho bv -> eval M rho bv (apply_args (TSym (SGlobal m i)) args) = dsym M s.
Context (AA : aliases_agree).
Lemma global_not_bare m i args : ~ bare (apply_args (TSym (SGlobal m i)) args).
Proof.
  assert (N : forall args f, ground_type f = false -> f <> TSym SEq -> f <> TSym SIte -> ~ bare (apply_args f args)).
  { induction args0 as [|a r IH]; intros f H1 H2 H3; simpl; [intros [H|[H|H]]; congruence|]. apply IH; try discriminate. simpl. rewrite H1. auto. }
  apply N; auto; discriminate.
Qed.
Lemma req_atom G bs a args : req G bs (apply_args (TAtom a) args) (match typeclass_call attribute alias a args with Some r => r | None => apply_args (TAtom a) args end).
Proof.
  destruct (typeclass_call attribute alias a args) as [r|] eqn:E; [|apply req_refl]. unfold typeclass_call in E.
  destruct a as [| |[]]; try discriminate. destruct (attribute _ _) as [n|]; [|discriminate]. destruct (_ || _); [discriminate|].
  destruct (alias m i (firstn n args)) as [s|] eqn:Ea; [|discriminate]. injection E as <-. destruct (AA _ _ _ _ Ea) as [A1 A2].
  assert (S : apply_args (TSym (SGlobal m i)) args = apply_args (apply_args (TSym (SGlobal m i)) (firstn n args)) (skipn n args)).
  { unfold apply_args. rewrite <- fold_left_app, firstn_skipn. auto. }
  rewrite S. apply req_args; [|clear; induction (skipn n args); constructor; auto; apply req_refl].
  split.
  - intros T H. destruct (A2 _ _ _ H) as [<- V]. split; [apply ht_sym; auto|]. intros rho bv Hg. rewrite V by auto. reflexivity.
  - intros H. exfalso. eapply global_not_bare; eauto.
Qed.
Lemma canonical_ground t : forall args, ground_type t = true -> canonical_with attribute alias t args = apply_args t args.
Proof.
  induction t as [a|f IHf a IHa|k A IHA b IHb]; intros args H; simpl.
  - destruct args; auto. destruct a as [| |[]]; try discriminate; auto.
  - simpl in H. apply andb_prop in H. rewrite IHf, (IHa []) by tauto. reflexivity.
  - simpl in H. destruct k; try discriminate. apply andb_prop in H. rewrite (IHA []), (IHb []) by tauto. reflexivity.
Qed.
Lemma canonical_req t : forall G bs args0 args, Forall2 (req G bs) args0 args -> req G bs (apply_args t args0) (canonical_with attribute alias t args).
Proof.
  induction t as [a|f IHf a IHa|k A IHA b IHb]; intros G bs args0 args H.
  - eapply req_trans; [apply req_args; [apply req_refl|exact H]|]. cbn [canonical_with]. destruct args; [apply req_refl|]. apply req_atom.
  - change (apply_args (TApp f a) args0) with (apply_args f (a :: args0)). cbn [canonical_with]. apply IHf. constructor; auto. apply (IHa G bs [] []). constructor.
  - cbn [canonical_with]. apply req_args; auto. destruct (ground_type A) eqn:Ga.
    + rewrite (canonical_ground A [] Ga). change (apply_args A []) with A. apply req_bind; [intros; apply (IHb G (A :: bs) [] []); constructor|].
      intros Hb. rewrite (canonical_ground b [] Hb). reflexivity.
    + split.
      * intros T HT. exfalso. inversion HT as [| | | | | | |? ? ? B HA|? ? ? ? Hk HA]; subst; apply (et_ground M) in HA; congruence.
      * intros [E|[E|E]]; try discriminate. simpl in E. destruct k; try discriminate. rewrite Ga in E. discriminate.
Qed.

(** ** Replacing a subterm *)
Lemma at_nil t : term_at_path t [] = Some t. Proof. destruct t; reflexivity. Qed.
Lemma at_cons t s p sub : term_at_path t (s :: p) = Some sub -> exists f a, t = TApp f a /\ term_at_path (match s with PFun => f | PArg => a end) p = Some sub.
Proof. destruct t as [|f a|]; try discriminate. intros H. exists f, a. split; auto. destruct s; exact H. Qed.
Lemma replace_req G new sub : req G [] sub new -> forall p u u', term_at_path u p = Some sub -> replace_at_path u p new = Some u' -> req G [] u u'.
Proof.
  intros H. induction p as [|s p IH]; intros u u' Hs Hr; [rewrite at_nil in Hs|apply at_cons in Hs; destruct Hs as (f & a & -> & Hs)]; simpl in Hr.
  - assert (u = sub) by congruence. assert (u' = new) by (destruct u; cbn in Hr; congruence). subst. exact H.
  - destruct s.
    + destruct (replace_at_path f p new) as [f'|] eqn:E; [|discriminate]. injection Hr as <-. apply req_app; [eapply IH; eauto|apply req_refl].
    + destruct (replace_at_path a p new) as [f'|] eqn:E; [|discriminate]. injection Hr as <-. apply req_app; [apply req_refl|eapply IH; eauto].
Qed.
Lemma ground_app_no_path p : forall t sub, ground_type t = true -> term_at_path t p = Some sub -> ground_type sub = true.
Proof.
  induction p as [|s p IH]; intros t sub G H; [rewrite at_nil in H; injection H as <-; auto|]. apply at_cons in H. destruct H as (f & a & -> & H).
  simpl in G. apply andb_prop in G. destruct s; eapply IH; try exact H; tauto.
Qed.
Lemma sub_typed G p : forall u T sub, ht G [] u T -> term_at_path u p = Some sub -> (exists U, hq G [] sub U) \/ ground_type sub = true.
Proof.
  assert (Q : forall p u T sub, hq G [] u T -> term_at_path u p = Some sub -> (exists U, hq G [] sub U) \/ ground_type sub = true).
  { clear p. induction p as [|s p IH]; intros u T sub Hu H; [rewrite at_nil in H; injection H as <-; eauto|]. apply at_cons in H. destruct H as (f & a & -> & H).
    apply (hq_app M K) in Hu. destruct Hu as [(A & F1 & EA & HA)|(k & B & F1 & Hk & Ga & Ho)]; destruct s; try (eapply IH; eauto; fail).
    - eapply IH; [left; exact HA|exact H].
    - right. eapply ground_app_no_path; eauto. }
  intros u T sub Hu. apply (Q p u T sub). left; auto.
Qed.
Lemma sub_vars p : forall u sub, vars u = [] -> term_at_path u p = Some sub -> vars sub = [].
Proof.
  induction p as [|s p IH]; intros u sub V H; [rewrite at_nil in H; injection H as <-; auto|]. apply at_cons in H. destruct H as (f & a & -> & H).
  rewrite vars_app in V. apply app_eq_nil in V. destruct s; eapply IH; try exact H; tauto.
Qed.
Lemma overlay_get new : forall k c j, get_var_type (overlay k new c) j =
  match (if Nat.leb k j then get_var_type new (j - k) else None) with Some T => Some T | None => get_var_type c j end.
Proof.
  induction new as [|[T|] r IH]; intros k c j; cbn [overlay].
  - destruct (Nat.leb k j); auto. unfold get_var_type at 2. destruct (j - k); auto.
  - rewrite IH, get_var_set_type. destruct (Nat.leb_spec (S k) j), (Nat.leb_spec k j), (Nat.eqb_spec k j); try lia; subst.
    + replace (j - k) with (S (j - S k)) by lia. reflexivity.
    + replace (j - j) with 0 by lia. reflexivity.
    + reflexivity.
  - rewrite IH. destruct (Nat.leb_spec (S k) j), (Nat.leb_spec k j); try lia; auto.
    + replace (j - k) with (S (j - S k)) by lia. reflexivity.
    + assert (j = k) by lia. subst. rewrite Nat.sub_diag. reflexivity.
Qed.

Lemma concrete_sides c : clause_has_any_variable c = false -> forall l, In l (literals c) -> vars (left l) = [] /\ vars (right l) = [].
Proof.
  unfold clause_has_any_variable. intros H l Hl.
  assert (L : lit_has_any_variable l = false). { destruct (lit_has_any_variable l) eqn:E; auto. rewrite <- H. symmetry. apply existsb_exists. eauto. }
  unfold lit_has_any_variable in L. apply orb_false_iff in L. destruct L as [L1 L2].
  assert (V : forall t, has_any_variable t = false -> vars t = []).
  { intros t Ht. destruct (vars t) as [|v r] eqn:E; auto. exfalso.
    rewrite (CheckerProofs.ground_vars t Ht) in E. discriminate. }
  auto.
Qed.

Lemma mono_rewrite n pattern forwards target target_left p c : mt pattern -> mt target -> clause_has_any_variable target = false ->
  rewrite_with K ts attribute alias n pattern forwards target target_left p = Some (Some c) ->
  mt c /\ (valid M pattern -> (valid M target <-> valid M c)).
Proof.
  intros Hp Ht Cc H. pose proof (concrete_sides target Cc) as Vt. apply mt_in in Hp. apply mt_in in Ht. destruct Hp as [Gp Lp], Ht as [Gt Lt]. unfold rewrite_with in H.
  destruct (literals pattern) as [|pl [|]] eqn:Ep; try discriminate. destruct (literals target) as [|tl [|]] eqn:Et; try discriminate.
  destruct (positive pl) eqn:Pp; [|discriminate]. cbn [negb] in H.
  destruct (if forwards then (left pl, right pl) else (right pl, left pl)) as [s t] eqn:Ef.
  destruct (Lp pl (or_introl eq_refl)) as (T & HT & P1 & P2). destruct (Lt tl (or_introl eq_refl)) as (U & HU & Q1 & Q2). destruct (Vt tl (or_introl eq_refl)) as [V1 V2].
  assert (Ts : ht (context pattern) [] s T /\ ht (context pattern) [] t T) by (destruct forwards; injection Ef as <- <-; auto). destruct Ts as [Ts Tt].
  set (u := if target_left then left tl else right tl) in *.
  assert (Hu : ht (context target) [] u U /\ vars u = []) by (unfold u; destruct target_left; auto). destruct Hu as [Hu Vu].
  destruct (term_at_path u p) as [sub|] eqn:Es; [|discriminate]. cbn [unify] in H.
  destruct (unify_internal K ts n (two_scopes (context pattern) []) 1 s 2 sub) as [[st|]|] eqn:E1; try discriminate.
  pose proof (sub_vars _ _ _ Vu Es) as Vs.
  destruct (sub_typed _ _ _ _ _ Hu Es) as [[T' Hsub]|Gs]; [|exfalso; eapply uni_no_type; [left; exact Ts|exact Gp|exact Gs|exact E1]].
  assert (Hsub0 : hq [] [] sub T').
  { destruct Hsub as [X|X]; [left; eapply ht_weaken; [exact X|]|right; exact X]. rewrite Vs. intros ? ? []. }
  assert (Ge : mono_context M []) by (intros [|i] ?; discriminate).
  pose proof (two_ust M K _ _ Gp Ge) as U0. pose proof (two_wf (context pattern) []) as W0. set (st0 := two_scopes (context pattern) []) in *.
  assert (L1 : ulocal st0 1 = Some (context pattern)) by reflexivity. assert (L2 : ulocal st0 2 = Some []) by reflexivity.
  destruct (proj1 (unify_typed M K ts CT n) st0 1 s 2 sub st [] T T' U0) with (3 := E1) as (U1 & X1 & <-);
    [exists (context pattern); split; [exact L1|left; auto]|exists []; split; [exact L2|exact Hsub0]|].
  apply (hq_ground M K) in Hsub; [|eapply et_ground; eauto]. clear Hsub0.
  pose proof (local_in _ _ 1 _ X1 ltac:(lia) L1) as L1a.
  destruct (uapply n st 1 t) as [[new st1]|] eqn:E2; [|discriminate].
  destruct (uapply_typed M K n _ _ _ _ _ _ _ _ U1 L1a Tt E2) as (U2 & X2 & Tn). pose proof (local_in _ _ 1 _ X2 ltac:(lia) L1a) as L1b.
  destruct (match checked_type K [] sub with Some a => match checked_type K (u_out st1) new with Some b => term_eqb a b | None => false end | None => false end); [|discriminate]. cbn [negb] in H.
  destruct (replace_at_path u p new) as [u'|] eqn:Er; [|discriminate].
  set (G := overlay 0 (u_out st1) (context target)) in *.
  assert (Gget : forall j W, get_var_type (u_out st1) j = Some W -> get_var_type G j = Some W).
  { intros j W Hj. unfold G. rewrite overlay_get. simpl. rewrite Nat.sub_0_r, Hj. auto. }
  assert (Gm : mono_context M G).
  { apply mc_of. intros j W. unfold G. rewrite overlay_get. simpl. rewrite Nat.sub_0_r. pose proof (us_in _ _ _ U2 0 _ eq_refl) as Go. change (mono_context M (u_out st1)) in Go.
    destruct (get_var_type (u_out st1) j) eqn:Ej; intros E; [injection E as <-; eapply mc_get; eauto|]. eapply (mc_get M _ _ _ Gt); eauto. }
  assert (Cl : forall x W, vars x = [] -> ht (context target) [] x W -> ht G [] x W).
  { intros x W Vx Hx. eapply ht_weaken; [exact Hx|]. rewrite Vx. intros ? ? []. }
  destruct (proj1 (unify_spec K ts n) _ _ _ _ _ _ W0 E1 (us_clash _ _ _ U1)) as [W1 R1 C1 C2 Q].
  destruct (uapply_fresh _ _ _ _ _ _ W1 E2) as (F & -> & Cn). pose proof (ufresh_wf _ _ W1 F) as W2.
  set (u2 := sigma st1 1 t) in *.
  (* the equation makes both subterms equal *)
  assert (Val : valid M pattern -> forall rho, valid_env M G rho -> ev M rho u2 = ev M rho sub).
  { intros Vp rho Vr. assert (Vo : valid_env M (u_out st1) rho) by (intros j W Hj; apply Vr; auto).
    destruct (scope_env M K CT R st1 1 (context pattern) rho U2 L1b Vo) as (r1 & Vr1 & A1).
    assert (Val1 : forall x, cov st1 1 x -> ev M rho (sigma st1 1 x) = ev M r1 x) by (intros x Cx; eapply scope_value; eauto; apply (uw_lc _ W2)).
    pose proof (cov_keep _ _ _ _ F C1) as C1'. unfold u2. rewrite (Val1 t Cn).
    assert (Eq : ev M r1 s = ev M r1 t).
    { destruct (Vp r1 Vr1) as (x & Hx & Hh). rewrite Ep in Hx. destruct Hx as [<-|[]]. unfold lit_holds in Hh. rewrite Pp in Hh. destruct forwards; injection Ef as <- <-; auto. }
    rewrite <- Eq, <- (Val1 s C1'). rewrite (P_EqualityInferences.kept st st1 1 s) by auto.
    assert (S2 : sigma st 2 sub = sub) by (unfold sigma; apply apply_closed; auto).
    rewrite <- S2. eapply (sides_value M K CT R); [exact Q|eapply (scope_sigma M K st 1); eauto|].
    intros j W Hj. apply Vo. apply (ex_out _ _ X2). auto. }
  set (l := if target_left then lit_new (positive tl) u' (right tl) else lit_new (positive tl) (left tl) u') in *.
  destruct (normalize_with_trace _ G) as [[cl ids]|] eqn:En; [|discriminate].
  destruct (clause_is_well_typed K cl); [|discriminate]. assert (cl = c) by congruence. subst cl. clear H.
  assert (Nb : ~ bare sub).
  { intros [B|[B|B]]; [|subst sub; inversion Hsub; discriminate|subst sub; inversion Hsub; discriminate].
    eapply uni_no_type; [left; exact Ts|exact Gp|exact B|exact E1]. }
  assert (Un : forall W, ht G [] sub W -> W = T).
  { intros W HW. pose proof (ht_type M K CT _ _ _ HW) as Y1. pose proof (ht_type M K CT _ _ _ (Cl _ _ Vs Hsub)) as Y2. congruence. }
  assert (Tn' : ht G [] u2 T) by (eapply ht_weaken; [exact Tn|]; intros; auto).
  (* the types do not depend on the equation *)
  assert (Ty : ht G [] u' U).
  { clear - Hu Vu Es Er Cl Nb Un Tn'. specialize (Cl u U Vu Hu). clear Hu. revert u u' U Vu Es Er Cl. 
    assert (Z : forall p u u', term_at_path u p = Some sub -> replace_at_path u p u2 = Some u' -> (forall W, ht G [] u W -> ht G [] u' W) /\ (bare u -> False)).
    { intros p1. induction p1 as [|q p1 IH]; intros u u' Es Er; [rewrite at_nil in Es|apply at_cons in Es; destruct Es as (f & a & -> & Es)]; simpl in Er.
      - assert (u = sub) by congruence. assert (u' = u2) by (destruct u; cbn in Er; congruence). subst u u'. split; auto. intros W HW. rewrite (Un W HW). auto.
      - assert (Sb : bare (TApp f a) -> bare f /\ bare a). { intros [B|[B|B]]; try discriminate. simpl in B. apply andb_prop in B. split; left; tauto. }
        destruct q.
        + destruct (replace_at_path f p1 u2) as [f'|] eqn:E; [|discriminate]. injection Er as <-. destruct (IH f f' Es E) as [I1 I2]. split; [|intros B; apply I2, Sb, B].
          intros W HW. inversion HW; subst; try (exfalso; apply I2; unfold bare; auto; fail); [eapply ht_app; eauto|eapply ht_inst; eauto].
        + destruct (replace_at_path a p1 u2) as [f'|] eqn:E; [|discriminate]. injection Er as <-. destruct (IH a f' Es E) as [I1 I2]. split; [|intros B; apply I2, Sb, B].
          intros W HW. inversion HW as [| | |? ? HE|? ? HE| |? ? ? ? ? ? Ha| |]; subst; try (exfalso; apply I2; left; eapply et_ground; eauto; fail); [eapply ht_app; eauto|].
          exfalso. apply I2. left. apply Ha. }
    intros u u' U Vu Es Er Cl. apply (proj1 (Z p u u' Es Er)). auto. }
  assert (Ml : ml G l) by (unfold l; destruct target_left; apply ml_new with U; auto).
  destruct Ml as (U' & HU' & M1 & M2).
  assert (Can : forall x W, ht G [] x W -> ht G [] (canonical attribute alias x) W /\ forall rho, valid_env M G rho -> ev M rho (canonical attribute alias x) = ev M rho x).
  { intros x W Hx. destruct (proj1 (canonical_req x G [] [] [] (Forall2_nil _)) W Hx) as [X Y]. split; [exact X|].
    intros rho Vr. apply (Y rho (nobs M)). split; auto. intros [|i] ?; discriminate. }
  destruct (Can _ _ M1) as [N1 N2]. destruct (Can _ _ M2) as [N3 N4].
  set (l' := lit_new (positive l) (canonical attribute alias (left l)) (canonical attribute alias (right l))) in *.
  assert (Hm : mt (Clause [l'] G)). { apply mt_in. split; [exact Gm|]. simpl. intros x [<-|[]]. apply ml_new with U'; auto. }
  destruct (trace_keeps M K CT R _ _ _ _ En Hm) as [Z1 Z2]. split; auto. intros Vp. rewrite <- Z2.
  assert (Req : forall rho, valid_env M G rho -> ev M rho u' = ev M rho u).
  { intros rho Vr. assert (Rq : req G [] sub u2).
    { split; [|tauto]. intros W HW. rewrite (Un W HW). split; auto. intros r bv [Vr' _].
      assert (Lc : forall x X, ht G [] x X -> eval M r bv x = ev M r x).
      { intros x X Hx. unfold ev. apply (eval_agree M x 0); auto; [|intros; lia]. apply (ht_lc M K _ _ _ _ Hx). }
      rewrite (Lc u2 T), (Lc sub T) by auto. apply Val; auto. }
    destruct (proj1 (replace_req G u2 sub Rq p u u' Es Er) U (Cl u U Vu Hu)) as [_ Y]. apply (Y rho (nobs M)). split; auto. intros [|i] ?; discriminate. }
  assert (Lit : forall rho, valid_env M G rho -> (lit_holds M rho l' <-> lit_holds M rho tl)).
  { intros rho Vr. unfold l'. rewrite lit_new_holds. unfold lit_holds at 1. cbn [positive left right]. rewrite (N2 rho Vr), (N4 rho Vr).
    transitivity (lit_holds M rho l); [unfold lit_holds; tauto|]. unfold l, lit_holds. specialize (Req rho Vr). unfold u in Req.
    destruct target_left; fold (lit_holds M rho (lit_new (positive tl) u' (right tl))); fold (lit_holds M rho (lit_new (positive tl) (left tl) u')); rewrite lit_new_holds; unfold lit_holds; cbn [positive left right]; rewrite Req; tauto. }
  assert (Free : forall rho rho', lit_holds M rho tl <-> lit_holds M rho' tl).
  { intros r1 r2. assert (E : forall x, vars x = [] -> ev M r1 x = ev M r2 x). { intros x Vx. apply eval_ext; auto. rewrite Vx. intros ? []. }
    unfold lit_holds. rewrite (E _ V1), (E _ V2). tauto. }
  split.
  - intros Vt' rho Vr. exists l'. split; [simpl; auto|]. apply (Lit rho Vr).
    destruct (match_env M K CT R (context target) G [] rho Gt) as (r2 & Vr2 & _); auto; [intros [|i] ?; discriminate|intros [|i] ?; discriminate|].
    destruct (Vt' r2 Vr2) as (x & Hx & Hh). rewrite Et in Hx. destruct Hx as [<-|[]]. apply (Free r2 rho). exact Hh.
  - intros Vl r2 Vr2. exists tl. split; [rewrite Et; simpl; auto|].
    destruct (match_env M K CT R G (context target) [] r2 Gm) as (rho & Vr & _); auto; [intros [|i] ?; discriminate|intros [|i] ?; discriminate|].
    destruct (Vl rho Vr) as (x & [<-|[]] & Hh). apply (Free rho r2). apply (Lit rho Vr). exact Hh.
Qed.
End SR.
