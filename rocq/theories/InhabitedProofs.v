(** The terms that [find_inhabitant] returns are elements of the type. *)
From Coq Require Import List Arith NArith Bool Lia.
Import ListNotations.
From Verif Require Import Term LocalContext Semantics TermProofs SemFacts Typing TypingProofs EqualityGraph Inhabited.

(** *** which types are covered *)
(** types without kinds inside: atoms, applied type constructors and products *)
Fixpoint ty (t : term) : bool :=
  match t with
  | TAtom (Sym (SType0 | STypeclass _ _)) => false
  | TAtom _ => true
  | TApp f a => match spine_head f with TAtom (Sym (SType _ _)) => true | _ => false end && ty f && ty a
  | TBind KPi A B => ty A && ty B
  | TBind _ _ _ => false
  end.
(** the types of value arguments do not depend on earlier value arguments, and the result is no type parameter *)
Fixpoint plain (t : term) : bool :=
  match t with TBind KPi _ B => negb (references_bound 0 B) && plain B | TAtom (BoundVar _) => false | _ => true end.
(** a provider of type [T] asks of its type parameters what the constructor's kind [kd] does; it may have more of them *)
Fixpoint fits (kd T : term) {struct T} : bool :=
  match T with
  | TBind KPi A B =>
    if is_type_param_kind A then match kd with TBind KPi A' B' => term_eqb A' A && fits B' B | _ => is_type_param_kind kd end
    else ty T && plain T
  | _ => ty T && plain T
  end.

Lemma is_kind_spec A : is_type_param_kind A = true -> exists s, A = TSym s /\ (s = SType0 \/ exists m i, s = STypeclass m i).
Proof. destruct A as [[|?|[]]| |]; simpl; try discriminate; intros _; eexists; split; eauto. Qed.
Lemma ty_not_kind t : ty t = true -> is_type_param_kind t = false.
Proof. destruct t as [[|?|[]]| |[]]; simpl; auto. Qed.
Lemma spine_shift t : forall c k, spine_head (shift_up c k t) = shift_up c k (spine_head t).
Proof. induction t as [[i|i|s]|f IHf a IHa|kk A IHA b IHb]; intros c k; simpl; auto. destruct (Nat.leb c i); auto. Qed.
Lemma ty_shift t : forall c k, ty (shift_up c k t) = ty t.
Proof.
  induction t as [[i|i|s]|f IHf a IHa|[] A IHA b IHb]; intros c k; cbn [shift_up ty]; auto.
  - destruct (Nat.leb c i); auto.
  - rewrite IHf, IHa, spine_shift. destruct (spine_head f) as [[|i|]| |]; simpl; auto. destruct (Nat.leb c i); auto.
  - rewrite IHA, IHb. auto.
Qed.
Lemma spine_open t : forall d r s, spine_head t = TSym s -> spine_head (open_at d r t) = TSym s.
Proof. induction t as [[i|i|s0]|f IHf a IHa|k A IHA b IHb]; simpl; intros d r s H; try discriminate; auto. Qed.
Lemma ty_open t : forall d r, ty r = true -> ty t = true -> ty (open_at d r t) = true.
Proof.
  induction t as [[i|i|s]|f IHf a IHa|[] A IHA b IHb]; intros d r Hr; cbn [open_at ty]; auto; try discriminate.
  - destruct (Nat.ltb i d); auto. destruct (Nat.eqb i d); auto. intros _. rewrite ty_shift. auto.
  - rewrite !andb_true_iff. intros [[H1 H2] H3]. rewrite IHf, IHa by auto.
    destruct (spine_head f) as [[| |s]| |] eqn:E; try discriminate. rewrite (spine_open _ _ _ _ E). auto.
  - rewrite !andb_true_iff. intros [H1 H2]. auto.
Qed.
Lemma refs_shift t : forall i c d k, i + d < c -> references_bound_at i d (shift_up c k t) = references_bound_at i d t.
Proof.
  induction t as [[j|j|s]|f IHf a IHa|kk A IHA b IHb]; intros i c d k H; cbn [shift_up references_bound_at]; auto.
  - destruct (Nat.leb_spec c j); auto. cbn [references_bound_at]. destruct (Nat.eqb_spec (j + k) (i + d)), (Nat.eqb_spec j (i + d)); auto; lia.
  - rewrite IHf, IHa; auto.
  - rewrite IHA, IHb; auto; lia.
Qed.
Lemma refs_lc t : forall i d, lc_at d t -> references_bound_at i d t = false.
Proof.
  induction t as [[j|j|s]|f IHf a IHa|kk A IHA b IHb]; intros i d H; cbn [references_bound_at]; auto.
  - apply lc_bound in H. apply Nat.eqb_neq. lia.
  - apply lc_app in H. destruct H. rewrite IHf, IHa; auto.
  - apply lc_bind in H. destruct H. rewrite IHA, IHb; auto.
Qed.
Lemma refs_open t : forall d e r, d < e -> lc r -> references_bound_at 0 d (open_at e r t) = references_bound_at 0 d t.
Proof.
  induction t as [[j|j|s]|f IHf a IHa|kk A IHA b IHb]; intros d e r H Hr; cbn [open_at references_bound_at]; auto.
  - destruct (Nat.ltb_spec j e); auto. destruct (Nat.eqb_spec j e).
    + rewrite (shift_up_lc _ 0 e Hr). rewrite refs_lc; [|eapply lc_weaken; [|exact Hr]; lia]. symmetry. apply Nat.eqb_neq. lia.
    + cbn [references_bound_at]. destruct (Nat.eqb_spec (j - 1) (0 + d)), (Nat.eqb_spec j (0 + d)); auto; lia.
  - rewrite IHf, IHa; auto.
  - rewrite IHA, IHb; auto; lia.
Qed.
Lemma plain_open t : forall d r, lc r -> plain t = true -> plain (open_at d r t) = true.
Proof.
  induction t as [[i|i|s]|f IHf a IHa|[] A IHA b IHb]; intros d r Hr; cbn [open_at plain]; auto; try discriminate.
  rewrite !andb_true_iff. intros [H1 H2]. split; auto. unfold references_bound. rewrite refs_open by (auto; lia). auto.
Qed.
Lemma kind_open A d r : ty r = true -> is_type_param_kind (open_at d r A) = is_type_param_kind A.
Proof.
  intros Hr. destruct A as [[i|i|s]|f a|[] A b]; simpl; auto. destruct (Nat.ltb i d); auto. destruct (Nat.eqb i d); auto.
  apply ty_not_kind. rewrite ty_shift. auto.
Qed.
Lemma fits_open T : forall kd d r, lc r -> ty r = true -> fits kd T = true -> fits kd (open_at d r T) = true.
Proof.
  assert (G : forall U d r, lc r -> ty r = true -> ty U && plain U = true -> ty (open_at d r U) && plain (open_at d r U) = true).
  { intros U d r Hr Ht H. apply andb_true_iff in H. destruct H. rewrite ty_open, plain_open; auto. }
  induction T as [[i|i|s]|f IHf a IHa|[] A IHA b IHb]; intros kd d r Hr Ht H.
  - exact H.
  - discriminate.
  - exact H.
  - exact (G _ d r Hr Ht H).
  - cbn [fits] in H. cbn [open_at fits]. rewrite kind_open by auto. destruct (is_type_param_kind A) eqn:E.
    + destruct kd as [|?|[] A' B']; try discriminate; auto. apply andb_true_iff in H. destruct H as [H1 H2].
      rewrite (IHb _ _ _ Hr Ht H2), andb_true_r. apply term_eqb_eq in H1. subst A'. apply term_eqb_eq.
      destruct (is_kind_spec _ E) as (s & -> & _). reflexivity.
    + apply (G _ d r Hr Ht H).
  - discriminate.
  - discriminate.
  - discriminate.
Qed.
(** a product that does not use its variable *)
Lemma noref B : references_bound 0 B = false -> exists u, B = shift_up 0 1 u /\ (forall r, open_at 0 r B = u) /\ shift_down 1 1 B = Some u.
Proof.
  intros H. destruct (references_bound_open B 0 (TSym STrue) H) as (u & E & _). exists u. split; auto. split.
  - intros r. destruct (references_bound_open B 0 r H) as (v & E2 & E3). rewrite E3. 
    assert (X : Some u = Some v) by (rewrite <- (shift_down_up u 0 1), <- (shift_down_up v 0 1); congruence). congruence.
  - subst B. clear H. generalize 0 at 1 3. induction u as [[i|i|s]|f IHf a IHa|k A IHA b IHb]; intros c; cbn [shift_up shift_down]; auto.
    + destruct (Nat.leb_spec c i); cbn [shift_down].
      * destruct (Nat.leb_spec (S c) (i + 1)); [|lia]. destruct (Nat.leb_spec 1 (i + 1)); [|lia]. do 3 f_equal. lia.
      * destruct (Nat.leb_spec (S c) i); [lia|]. reflexivity.
    + rewrite IHf, IHa. auto.
    + rewrite IHA, IHb. auto.
Qed.
Lemma lc_shift_inv t : forall d, lc_at (S d) (shift_up d 1 t) -> lc_at d t.
Proof.
  induction t as [[i|i|s]|f IHf a IHa|k A IHA b IHb]; intros d; cbn [shift_up]; try (intros; reflexivity).
  - destruct (Nat.leb_spec d i); rewrite !lc_bound; lia.
  - rewrite !lc_app. intros []. auto.
  - rewrite !lc_bind. intros []. auto.
Qed.

(** *** what the tables and the type store have to say *)
Definition constant (s : symbol) : Prop := match s with SGlobal _ _ | SScoped _ => True | _ => False end.
Definition tclass (tc : tid) : symbol := STypeclass (fst tc) (snd tc).
Definition tground (g : tid) : symbol := SType (fst g) (snd g).
Record entries_right (K : kctx) (tb : tables) : Prop := {
  e_element : forall T s, elem_get T (t_element tb) = Some s -> constant s /\ T = symbol_type K s;
  e_class : forall tc s, tid_get tc (t_class tb) = Some s -> constant s /\ symbol_type K s = TBind KPi (TSym (tclass tc)) (TBound 0);
  e_ctor : forall g s, tid_get g (t_ctor tb) = Some s -> constant s /\ lc (symbol_type K s) /\ vars (symbol_type K s) = [] /\ fits (symbol_type K (tground g)) (symbol_type K s) = true
}.
Record store_right (M : Model) (K : kctx) (ts : store) : Prop := {
  s_base : forall tc b A, In b (bases ts tc) -> mem M A (dsym M (tclass tc)) -> mem M A (dsym M (tclass b));
  s_extends : forall tc b A, k_extends K tc b = true -> mem M A (dsym M (tclass tc)) -> mem M A (dsym M (tclass b));
  s_instance : forall tc g, class_instance ts tc = Some g -> mem M (dsym M (tground g)) (dsym M (tclass tc));
  s_arbitrary : forall g tc, arbitrary_class ts g = Some tc -> mem M (dsym M (tground g)) (dsym M (tclass tc));
  s_nofun : forall s A x, is_type_param_kind (TSym s) = true -> mem M A (dsym M s) -> ~ appok M A x
}.
Lemma tid_eqb_eq a b : tid_eqb a b = true <-> a = b.
Proof. unfold tid_eqb. rewrite andb_true_iff, !N.eqb_eq. destruct a, b; simpl. split; [intros []; congruence|intros H; injection H; auto]. Qed.
Lemma some_first_in {A B} (f : A -> option B) l b : some_first f l = Some b -> exists a, In a l /\ f a = Some b.
Proof.
  induction l as [|a l IH]; simpl; [discriminate|]. destruct (f a) eqn:E; [intros H; injection H as ->; eauto|].
  intros H. destruct (IH H) as (x & ? & ?). eauto.
Qed.

Lemma plain_shift t : forall c k, plain (shift_up c k t) = true -> plain t = true.
Proof.
  induction t as [[i|i|s]|f IHf a IHa|[] A IHA b IHb]; intros c k; cbn [shift_up plain]; auto; [destruct (Nat.leb c i); auto|].
  rewrite !andb_true_iff. intros [H1 H2]. split; eauto. unfold references_bound in *. rewrite refs_shift in H1 by lia. auto.
Qed.
Lemma vars_shift_up t : forall c k, vars (shift_up c k t) = vars t.
Proof.
  induction t as [[i|i|s]|f IHf a IHa|kk A IHA b IHb]; intros c k; cbn [shift_up]; auto.
  - destruct (Nat.leb c i); auto.
  - rewrite !vars_app, IHf, IHa; auto.
  - rewrite !vars_bind, IHA, IHb; auto.
Qed.
Lemma vars_open_at t : forall d r i, In i (vars (open_at d r t)) -> In i (vars t) \/ In i (vars r).
Proof.
  induction t as [[i|i|s]|f IHf a IHa|kk A IHA b IHb]; intros d r j; cbn [open_at]; auto.
  - destruct (Nat.ltb i d); [intros []|]. destruct (Nat.eqb i d); [rewrite vars_shift_up; auto|intros []].
  - rewrite !vars_app, !in_app_iff. intros [H|H]; [apply IHf in H|apply IHa in H]; tauto.
  - rewrite !vars_bind, !in_app_iff. intros [H|H]; [apply IHA in H|apply IHb in H]; tauto.
Qed.
Section Sound.
Context (M : Model) (K : kctx) (tb : tables) (ts : store) (al : bool).
Context (R : respects M K) (ER : entries_right K tb) (SR : store_right M K ts).
(** the variables whose types count *)
Context (P : nat -> Prop).
Definition tv (T : term) : Prop := forall i, In i (vars T) -> P i.

Lemma constant_mem s rho : constant s -> mem M (dsym M s) (ev M rho (symbol_type K s)).
Proof. intros H. apply (r_sym _ _ R). destruct s; simpl in *; tauto. Qed.
(** a class provider applied to a member *)
Lemma class_provider_mem tc p rho T : class_provider tb ts tc = Some p -> mem M (ev M rho T) (dsym M (tclass tc)) ->
  mem M (ev M rho (TApp (TSym p) T)) (ev M rho T).
Proof.
  intros H HT. apply some_first_in in H. destruct H as (b & Hb & Hp). destruct (e_class _ _ ER _ _ Hp) as [Hc Ht].
  pose proof (constant_mem p rho Hc) as Hm. rewrite Ht in Hm. unfold ev in *. cbn [eval] in *.
  apply (pi_app M _ (fun x => eval M rho (scons x (nobs M)) (TBound 0)) _ (eval M rho (nobs M) T) Hm).
  destruct Hb as [<-|Hb]; auto. eapply (s_base _ _ _ SR); eauto.
Qed.
Lemma swt_noref rho u x : swt M rho (scons x (nobs M)) (shift_up 0 1 u) <-> wt M rho u.
Proof. unfold wt, swt. rewrite swt_shift. split; apply swt_bs; intros i; unfold skip; simpl; rewrite Nat.add_1_r; auto. Qed.
Lemma eval_noref rho u x : eval M rho (scons x (nobs M)) (shift_up 0 1 u) = ev M rho u.
Proof. unfold ev. rewrite eval_shift. apply eval_bs. intros i. unfold skip. simpl. rewrite Nat.add_1_r. auto. Qed.

(** the arguments of the constructor are applied to its provider *)
Fixpoint accepts (rho : nat -> D M) (f : D M) (l : list term) : Prop :=
  match l with [] => True | a :: r => appok M f (ev M rho a) /\ accepts rho (dapp M f (ev M rho a)) r end.
Lemma type_args_sound rho : forall l w wT w' wT' kd f bs, fits kd wT = true -> lc wT -> wt M rho wT -> mem M (ev M rho w) (ev M rho wT) ->
  mem M f (eval M rho bs kd) -> accepts rho f l -> tv wT -> Forall (fun a => (ty a = true /\ tv a) /\ lc a /\ wt M rho a) l ->
  type_args w wT l = Some (w', wT') -> tv wT' /\ lc wT' /\ wt M rho wT' /\ mem M (ev M rho w') (ev M rho wT') /\ exists kd', fits kd' wT' = true.
Proof.
  induction l as [|a l IH]; intros w wT w' wT' kd f bs F L W Hm Hf Ha Pv Fl E; cbn [type_args] in E.
  - injection E as <- <-. eauto 10.
  - destruct wT as [|?|[] A B]; try (injection E as <- <-; now eauto 10).
    destruct (is_type_param_kind A) eqn:EA; [|injection E as <- <-; now eauto 10].
    cbn [fits] in F. rewrite EA in F. destruct kd as [k|?|[] A' B']; try discriminate.
    { destruct (is_kind_spec _ F) as (s & Hs & _). injection Hs as ->. destruct Ha as [Ha _]. destruct (s_nofun _ _ _ SR s f _ F Hf Ha). }
    apply andb_true_iff in F. destruct F as [F1 F2]. apply term_eqb_eq in F1. subst A'.
    rewrite type_apply_pi in E. inversion Fl as [|? ? ([Ta Pa] & La & Wa) Fl']; subst. destruct Ha as [Ha1 Ha2].
    destruct (is_kind_spec _ EA) as (s & -> & _). apply lc_bind in L. destruct L as [_ L].
    assert (Hk : mem M (ev M rho a) (dsym M s)) by (cbn [eval] in Hf; exact (pi_dom M _ _ _ _ Hf Ha1)).
    destruct W as (_ & _ & W). destruct (W _ Hk) as [W' _].
    eapply (IH _ _ _ _ B' (dapp M f (ev M rho a)) (scons (ev M rho a) bs)); try exact E; auto.
    + apply fits_open; auto.
    + apply open_at_lc0; auto.
    + apply swt_open; auto.
    + unfold ev at 2. rewrite eval_open. unfold ev in Hm. cbn [eval] in *. exact (pi_app M _ _ _ _ Hm Hk).
    + cbn [eval] in Hf. exact (pi_app M _ _ _ _ Hf Hk).
    + intros i Hi. apply vars_open_at in Hi. destruct Hi as [Hi|Hi]; [apply Pv; rewrite vars_bind, in_app_iff; auto|apply Pa; auto].
Qed.
Lemma value_args_sound rho find n : (forall T w, lc T -> ty T = true -> tv T -> wt M rho T -> find T = Ok (Some w) -> mem M (ev M rho w) (ev M rho T)) ->
  forall w wT target w', tv wT -> lc wT -> (exists kd, fits kd wT = true) -> wt M rho wT -> mem M (ev M rho w) (ev M rho wT) ->
  value_args find n w wT target = Ok (Some w') -> mem M (ev M rho w') (ev M rho target).
Proof.
  intros Hfind. induction n as [|n IH]; intros w wT target w' Pv L [kd F] W Hm E; [discriminate|].
  assert (G : forall t, (if term_eqb wT t then Some w else None) = Some w' -> mem M (ev M rho w') (ev M rho t)).
  { intros t Ht. destruct (term_eqb wT t) eqn:Et; [|discriminate]. apply term_eqb_eq in Et. congruence. }
  cbn [value_args] in E.
  destruct wT as [?|?|[] A B]; try (injection E as E; now apply G).
  destruct (is_type_param_kind A) eqn:EA; [discriminate|]. cbn [fits] in F. rewrite EA in F.
  destruct (find A) as [[a|]| |] eqn:Ef; cbn [rbind] in E; try discriminate. rewrite type_apply_pi in E.
  apply andb_true_iff in F. destruct F as [Ft Fp]. cbn [ty plain] in Ft, Fp. apply andb_true_iff in Ft, Fp. destruct Ft as [Ft1 Ft2]. destruct Fp as [Fp1 Fp2].
  apply negb_true_iff in Fp1. destruct (noref B Fp1) as (u & Eu & Ho & _). rewrite Ho in E.
  apply lc_bind in L. destruct L as [L1 L2]. destruct W as (W1 & _ & W2).
  assert (PA : tv A) by (intros i Hi; apply Pv; rewrite vars_bind, in_app_iff; auto).
  assert (Pu : tv u) by (intros i Hi; apply Pv; rewrite vars_bind, in_app_iff, Eu, vars_shift_up; auto).
  pose proof (Hfind A a L1 Ft1 PA W1 Ef) as Ha. destruct (W2 _ Ha) as [W3 _]. rewrite Eu in W3. apply swt_noref in W3.
  assert (Hm' : mem M (ev M rho (TApp w a)) (ev M rho u)).
  { rewrite <- (eval_noref rho u (ev M rho a)), <- Eu. unfold ev in *. cbn [eval] in *. exact (pi_app M _ _ _ _ Hm Ha). }
  destruct (term_eqb u target) eqn:Et; [injection E as <-; apply term_eqb_eq in Et; subst; auto|].
  apply (IH _ _ _ _ Pu (lc_shift_inv u 0 (eq_ind _ (lc_at 1) L2 _ Eu))) in E; auto.
  exists kd. assert (X : fits kd u = ty u && plain u).
  { assert (T : ty u = true) by (rewrite Eu, ty_shift in Ft2; auto). destruct u as [|?|[] A' B']; auto. cbn [fits].
    destruct (is_type_param_kind A') eqn:EA'; auto. cbn [ty] in T. apply andb_true_iff in T. destruct T as [T _]. apply ty_not_kind in T. congruence. }
  rewrite X, Eu in *. rewrite ty_shift in Ft2. rewrite Ft2. simpl.
  eapply plain_shift; eauto.
Qed.
(** the arguments of an applied constructor *)
Lemma args_acc_accepts rho t : forall l, wt M rho t -> accepts rho (ev M rho t) l -> accepts rho (ev M rho (spine_head t)) (args_acc t l).
Proof.
  induction t as [a|f IHf a IHa|k A IHA b IHb]; intros l W H; cbn [args_acc spine_head]; auto. destruct W as (W1 & W2 & W3). apply IHf; auto. split; auto.
Qed.
Lemma args_acc_forall (Q : term -> Prop) t : forall l, Forall Q l -> (forall f a, Q (TApp f a) -> Q a) -> (forall f a, Q (TApp f a) -> Q f \/ spine_head f = f) -> Q t \/ spine_head t = t -> Forall Q (args_acc t l).
Proof.
  induction t as [a|f IHf a IHa|k A IHA b IHb]; intros l Hl H1 H2 Ht; cbn [args_acc]; auto. destruct Ht as [Ht|Ht].
  - apply IHf; [constructor; [eapply H1; eauto|auto]|auto|auto|eapply H2; eauto].
  - exfalso. cbn in Ht. clear - Ht. assert (X : tsize (spine_head f) <= tsize f) by (clear; induction f; simpl; lia). rewrite Ht in X. simpl in X. lia.
Qed.
Lemma head_spine t : head_atom t = head_atom (spine_head t).
Proof. induction t; simpl; auto. Qed.
Lemma constructor_witness_sound rho find n p T w : (forall T w, lc T -> ty T = true -> tv T -> wt M rho T -> find T = Ok (Some w) -> mem M (ev M rho w) (ev M rho T)) ->
  forall g, spine_head T = TSym (tground g) -> tid_get g (t_ctor tb) = Some p -> lc T -> ty T = true -> tv T -> wt M rho T ->
  constructor_witness K find n p T = Ok (Some w) -> mem M (ev M rho w) (ev M rho T).
Proof.
  intros Hfind g Hs Hp L Ty Pv W E. unfold constructor_witness in E. destruct (e_ctor _ _ ER _ _ Hp) as (Hc & Lp & Vp & F).
  destruct (type_args (TSym p) (symbol_type K p) (args T)) as [[w1 wT]|] eqn:Ea; [|discriminate].
  assert (Hg : mem M (dsym M (tground g)) (ev M rho (symbol_type K (tground g)))) by (apply (r_sym _ _ R); exact Logic.I).
  assert (X : tv wT /\ lc wT /\ wt M rho wT /\ mem M (ev M rho w1) (ev M rho wT) /\ exists kd', fits kd' wT = true).
  { refine (type_args_sound rho (args T) (TSym p) (symbol_type K p) w1 wT _ (dsym M (tground g)) (nobs M) F Lp (r_wt _ _ R _ rho) (constant_mem p rho Hc) Hg _ _ _ Ea).
    - replace (dsym M (tground g)) with (ev M rho (spine_head T)) by (rewrite Hs; reflexivity). apply args_acc_accepts; simpl; auto.
    - intros i Hi. rewrite Vp in Hi. destruct Hi.
    - assert (PP : forall f a, tv (TApp f a) -> tv f /\ tv a) by (intros f a Hv; split; intros i Hi; apply Hv; rewrite vars_app, in_app_iff; auto).
      apply (args_acc_forall (fun a => (ty a = true /\ tv a) /\ lc a /\ wt M rho a)); auto.
      + intros f a ((A & Q) & B & C). apply lc_app in B. apply PP in Q. cbn [ty] in A. rewrite !andb_true_iff in A. destruct C as (C1 & C2 & C3). tauto.
      + intros f a ((A & Q) & B & C). left. apply lc_app in B. apply PP in Q. cbn [ty] in A. rewrite !andb_true_iff in A. destruct C as (C1 & C2 & C3). tauto. }
  destruct X as (X0 & X1 & X2 & X3 & X4). destruct (term_eqb wT T) eqn:Et.
  - injection E as <-. apply term_eqb_eq in Et. congruence.
  - eapply value_args_sound; eauto.
Qed.
Definition fine (T : term) : Prop := ty T = true \/ is_type_param_kind T = true.
(** an element of a kind may be any variable *)
Definition covered (T : term) : Prop := ty T = true /\ tv T \/ is_type_param_kind T = true /\ (forall i, P i).
Lemma covered_fine T : covered T -> fine T.
Proof. unfold covered, fine. tauto. Qed.
Lemma fine_shape T : fine T -> match T with TBind KPi _ _ => True | TBind _ _ _ => False
  | TApp _ _ => exists g, spine_head T = TSym (tground g) | TAtom _ => True end.
Proof.
  intros [H|H]; destruct T as [a|f a|[] A B]; simpl in *; try discriminate; auto.
  rewrite !andb_true_iff in H. destruct H as [[H _] _]. destruct (spine_head f) as [[| |[]]| |]; try discriminate. exists (m, i). reflexivity.
Qed.
Definition env_ok (c : option lctx) (rho : nat -> D M) : Prop := match c with Some c => forall i U, P i -> get_var_type c i = Some U -> mem M (rho i) (ev M rho U) | None => True end.
Lemma arbitrary_sound rho g T w : spine_head T = TSym (tground g) -> wt M rho T -> arbitrary_witness tb ts g T = Some w -> mem M (ev M rho w) (ev M rho T).
Proof.
  intros Hs W H. unfold arbitrary_witness in H. destruct (arbitrary_class ts g) as [tc|] eqn:E; [|discriminate].
  destruct (class_provider tb ts tc) as [p|] eqn:Ep; [|discriminate]. injection H as <-. apply (class_provider_mem tc p rho T Ep).
  pose proof (s_arbitrary _ _ _ SR _ _ E) as Hm. assert (A : forall t, spine_head t = TSym (tground g) -> wt M rho t -> t = TSym (tground g)).
  { clear - SR Hm. induction t as [a|f IHf a IHa|k A IHA b IHb]; simpl; intros Hs W; auto. destruct W as (W1 & _ & W3). rewrite (IHf Hs W1) in W3.
    destruct (s_nofun _ _ _ SR (tclass tc) _ _ eq_refl Hm W3). }
  rewrite (A T Hs W). exact Hm.
Qed.
Lemma local_class_sound rho tc c0 : forall c i w, local_class_from K i tc c = Some w -> (forall j T, get_var_type c j = Some T -> get_var_type c0 (i + j) = Some T) -> valid_env M c0 rho ->
  mem M (ev M rho w) (dsym M (tclass tc)).
Proof.
  induction c as [|o c IH]; intros i w H Hc V; [discriminate|]. cbn [local_class_from] in H.
  assert (Next : local_class_from K (S i) tc c = Some w -> mem M (ev M rho w) (dsym M (tclass tc))).
  { intros H'. apply (IH _ _ H'); auto. intros j T Hj. specialize (Hc (S j) T Hj). rewrite Nat.add_succ_r in Hc. exact Hc. }
  destruct o as [[[| |[]]| |]|]; auto. destruct (tid_eqb (m, i0) tc || k_extends K (m, i0) tc) eqn:E; auto. injection H as <-.
  assert (Hv : mem M (ev M rho (TVar i)) (dsym M (tclass (m, i0)))).
  { specialize (V i (TSym (STypeclass m i0))). apply V. specialize (Hc 0 (TSym (STypeclass m i0)) eq_refl). rewrite Nat.add_0_r in Hc. exact Hc. }
  apply orb_true_iff in E. destruct E as [E|E]; [apply tid_eqb_eq in E; subst tc; exact Hv|]. eapply (s_extends _ _ _ SR); eauto.
Qed.
Lemma constraint_class T c rho tc : (forall A B, T <> TBind KPi A B) -> covered T -> lc T -> env_ok c rho -> constraint_of K T c = Some (TSym (tclass tc)) -> mem M (ev M rho T) (dsym M (tclass tc)).
Proof.
  intros NP Co L V H. pose proof (covered_fine _ Co) as F. unfold constraint_of in H. destruct (head_atom T) as [i|i|s] eqn:Eh.
  - destruct T as [a|f a|[] A B]; cbn [head_atom] in Eh.
    + subst a. destruct c as [c|]; [|discriminate]. refine (V i _ _ H). destruct Co as [[_ Co]|[_ Co]]; [apply Co; left; reflexivity|apply Co].
    + destruct (fine_shape _ F) as [g Hg]. rewrite head_spine in Eh. cbn in Hg. rewrite Hg in Eh. discriminate.
    + destruct (NP A B eq_refl).
    + destruct (fine_shape _ F).
    + destruct (fine_shape _ F).
    + destruct (fine_shape _ F).
  - destruct T as [a|f a|[] A B]; cbn [head_atom] in Eh.
    + subst a. apply lc_bound in L. lia.
    + destruct (fine_shape _ F) as [g Hg]. rewrite head_spine in Eh. cbn in Hg. rewrite Hg in Eh. discriminate.
    + destruct (NP A B eq_refl).
    + destruct (fine_shape _ F).
    + destruct (fine_shape _ F).
    + destruct (fine_shape _ F).
  - destruct s; try discriminate. injection H as H. destruct T as [a|f a|[] A B]; cbn [head_atom] in Eh.
    + subst a. pose proof (r_sym _ _ R (SScoped i) Logic.I rho) as X. cbn [symbol_type] in X. rewrite H in X. exact X.
    + destruct (fine_shape _ F) as [g Hg]. rewrite head_spine in Eh. cbn in Hg. rewrite Hg in Eh. discriminate.
    + destruct (NP A B eq_refl).
    + destruct (fine_shape _ F).
    + destruct (fine_shape _ F).
    + destruct (fine_shape _ F).
Qed.

Lemma lam_member rho A u w : mem M (ev M rho w) (ev M rho u) -> mem M (ev M rho (TBind KLam A (shift_up 0 1 w))) (ev M rho (TBind KPi A (shift_up 0 1 u))).
Proof.
  intros Hm. unfold ev. cbn [eval]. apply lam_pi. intros x Hx. rewrite !eval_noref. auto.
Qed.
Theorem find_inhabitant_sound : forall n c seen T w rho, env_ok c rho -> lc T -> covered T -> wt M rho T ->
  find_inhabitant K tb ts al n c seen T = Ok (Some w) -> mem M (ev M rho w) (ev M rho T).
Proof.
  induction n as [|n IH]; intros c seen T w rho V L Co W E; [discriminate|]. pose proof (covered_fine _ Co) as F. cbn [find_inhabitant] in E.
  destruct (existsb _ seen); [discriminate|].
  assert (Pi : (exists A B, T = TBind KPi A B) \/ (forall A B, T <> TBind KPi A B)).
  { destruct T as [|?|[] A B]; [right|right|left|right|right|right]; try (intros; discriminate). eauto. }
  destruct Pi as [(A & B & ->)|NP].
  - destruct (references_bound 0 B) eqn:Er; [discriminate|]. destruct (noref B Er) as (u & Eu & Ho & Hs). rewrite Hs in E. cbn [unwrap rbind] in E.
    destruct F as [F|F]; [|discriminate]. cbn [ty] in F. apply andb_true_iff in F. destruct F as [F1 F2]. rewrite Eu, ty_shift in F2.
    apply lc_bind in L. destruct L as [L1 L2]. destruct (term_eqb A u) eqn:Et.
    + injection E as <-. apply term_eqb_eq in Et. subst A. rewrite Eu. unfold ev. cbn [eval]. apply lam_pi. intros x Hx. rewrite eval_noref. exact Hx.
    + destruct (find_inhabitant K tb ts al n c (TBind KPi A B :: seen) u) as [[v|]| |] eqn:Ef; try discriminate. cbn [rbind option_map] in E. injection E as <-.
      assert (Wu : (exists x, mem M x (ev M rho A)) -> wt M rho u).
      { intros [x Hx]. destruct W as (_ & _ & W). destruct (W x Hx) as [W' _]. rewrite Eu in W'. apply swt_noref in W'. exact W'. }
      rewrite Eu. unfold ev. cbn [eval]. apply lam_pi. intros x Hx. rewrite !eval_noref.
      apply (IH c (TBind KPi A B :: seen) u v rho V); auto; [|left; split; auto|apply Wu; exists x; exact Hx]; [rewrite Eu in L2; apply (lc_shift_inv u 0 L2)|].
      destruct Co as [[_ Co]|[Co _]]; [|discriminate]. intros i Hi. apply Co. rewrite vars_bind, in_app_iff, Eu, vars_shift_up. auto.
  - assert (E' : find_other K tb ts al (find_inhabitant K tb ts al n c (T :: seen)) n c T = Ok (Some w)).
    { destruct T as [|?|[] A B]; try exact E. destruct (NP _ _ eq_refl). }
    clear E. unfold find_other in E'.
    set (rest := match (match elem_get T (t_element tb) with Some s => _ | None => None end) with Some s => _ | None => _ end) in E'.
    assert (Rest : rest = Ok (Some w) -> mem M (ev M rho w) (ev M rho T)).
    { subst rest. clear E'. intros E. destruct (match elem_get T (t_element tb) with Some s => _ | None => None end) as [s|] eqn:Ee.
      - injection E as <-. destruct (elem_get T (t_element tb)) as [s'|] eqn:Eg; [|discriminate].
        assert (s' = s) as -> by (destruct (al || _); congruence).
        destruct (e_element _ _ ER _ _ Eg) as [Hc ->]. apply constant_mem; auto.
      - destruct (head_atom T) as [?|?|s] eqn:Eh; try discriminate.
        assert (Sh : T = TSym s \/ exists g, s = tground g /\ spine_head T = TSym (tground g)).
        { pose proof (fine_shape T F) as X. destruct T as [a|f a|[] A B]; try destruct (NP _ _ eq_refl); try destruct X.
          - left. simpl in Eh. congruence.
          - right. exists x. split; auto. rewrite head_spine, H in Eh. simpl in Eh. congruence. }
        destruct s; try discriminate.
        + destruct Sh as [->|(g & Hg & _)]; [|discriminate]. injection E as <-. apply (r_sym _ _ R STrue Logic.I rho).
        + destruct Sh as [->|(g & Hg & _)]; [|discriminate]. injection E as <-. apply (r_sym _ _ R SBool Logic.I rho).
        + assert (Sh' : spine_head T = TSym (tground (m, i))).
          { destruct Sh as [->|(g & Hg & ->)]; auto. unfold tground in *. simpl. congruence. }
          assert (Ty : ty T = true).
          { destruct F as [F|F]; auto. destruct (is_kind_spec _ F) as (s & -> & [->|(? & ? & ->)]); discriminate. }
          destruct (tid_get (m, i) (t_ctor tb)) as [p|] eqn:Ep.
          * destruct (constructor_witness K (find_inhabitant K tb ts al n c (T :: seen)) n p T) as [[v|]| |] eqn:Ec; cbn [rbind] in E; try discriminate.
            -- injection E as <-. refine (constructor_witness_sound rho _ n p T v _ (m, i) Sh' Ep L Ty _ W Ec).
               ++ intros T' w' L' Ty' Pv' W' E'. eapply IH; eauto. left; auto.
               ++ destruct Co as [[_ Co]|[_ Co]]; auto. intros j _; auto.
            -- injection E as E. apply (arbitrary_sound rho (m, i)); auto.
          * injection E as E. apply (arbitrary_sound rho (m, i)); auto.
        + destruct Sh as [->|(g & Hg & _)]; [|discriminate].
          assert (Inst : option_map (fun g : tid => TSym (SType (fst g) (snd g))) (class_instance ts (m, i)) = Some w -> mem M (ev M rho w) (ev M rho (TSym (STypeclass m i)))).
          { intros Hi. destruct (class_instance ts (m, i)) as [g|] eqn:Ei; [|discriminate]. injection Hi as <-. exact (s_instance _ _ _ SR _ _ Ei). }
          injection E as E. destruct c as [c|]; auto. destruct (local_class_witness K (m, i) c) as [v|] eqn:El; auto.
          injection E as <-. apply (local_class_sound rho (m, i) c c 0 v El); auto.
          destruct Co as [[Co _]|[_ Co]]; [discriminate|]. intros j U Hj. apply V; auto. }
    destruct (constraint_of K T c) as [[[|?|[]]| |]|] eqn:Ec; auto; try discriminate.
    injection E' as E'. destruct (class_provider tb ts (m, i)) as [p|] eqn:Ep; [|discriminate]. injection E' as <-.
    apply (class_provider_mem (m, i) p rho T Ep). apply (constraint_class T c rho (m, i)); auto.
Qed.
End Sound.

(** *** the tables are right when what is recorded is regular *)
Definition record_all (K : kctx) (ss : list symbol) : tables := fold_left (fun tb s => record_element tb s (symbol_type K s)) ss no_tables.
(** a class is only noted when its member is the first parameter *)
Fixpoint classes_first (depth : nat) (t : term) : bool :=
  match t with
  | TBind KPi A B =>
    match head_atom A with
    | Sym SType0 => classes_first (S depth) B
    | Sym (STypeclass _ _) =>
      match atomic_variable B with Some j => negb (Nat.eqb j depth) || (is_type_param_kind A && Nat.eqb depth 0 && term_eqb B (TBound 0)) | None => true end &&
      classes_first (S depth) B
    | _ => true
    end
  | _ => true
  end.
(** the depth and what is left after the type parameters *)
Fixpoint value_part (depth : nat) (t : term) : nat * term :=
  match t with
  | TBind KPi A B => match head_atom A with Sym (SType0 | STypeclass _ _) => value_part (S depth) B | _ => (depth, t) end
  | _ => (depth, t)
  end.
Definition regular (K : kctx) (s : symbol) : Prop :=
  constant s /\ lc (symbol_type K s) /\ vars (symbol_type K s) = [] /\ classes_first 0 (symbol_type K s) = true /\
  let '(depth, current) := value_part 0 (symbol_type K s) in
  0 < depth -> forall m i, head_atom (result_type current) = Sym (SType m i) -> fits (k_type K m i) (symbol_type K s) = true.
Lemma strip_value s : forall t d cl, fst (strip_kinds s d t cl) = value_part d t.
Proof.
  induction t as [a|f IHf a IHa|[] A IHA b IHb]; intros d cl; cbn [strip_kinds value_part]; auto.
  destruct (head_atom A) as [| |[]]; auto.
Qed.
Definition class_entry (K : kctx) (e : tid * symbol) : Prop := constant (snd e) /\ symbol_type K (snd e) = TBind KPi (TSym (tclass (fst e))) (TBound 0).
Lemma strip_classes K s : constant s -> forall t d cl, (d = 0 -> t = symbol_type K s) -> classes_first d t = true ->
  Forall (class_entry K) cl -> Forall (class_entry K) (snd (strip_kinds s d t cl)).
Proof.
  intros Hc. induction t as [a|f IHf a IHa|[] A IHA b IHb]; intros d cl Hd Hr Hcl; cbn [strip_kinds classes_first] in *; auto.
  destruct (head_atom A) as [| |[]] eqn:Eh; auto; try (apply IHb; auto; discriminate).
  apply andb_true_iff in Hr. destruct Hr as [Hr1 Hr2]. apply IHb; auto; try discriminate.
  destruct (atomic_variable b) as [j|]; auto. destruct (Nat.eqb j d) eqn:Ej; auto.
  simpl in Hr1. rewrite !andb_true_iff in Hr1. destruct Hr1 as [[H1 H2] H3]. apply Nat.eqb_eq in H2. apply term_eqb_eq in H3. subst.
  destruct (tid_get (m, i) cl); auto. constructor; auto. split; auto. simpl. rewrite <- (Hd eq_refl).
  destruct (is_kind_spec _ H1) as (s' & -> & [->|(? & ? & ->)]); simpl in Eh; [discriminate|]. injection Eh as -> ->. reflexivity.
Qed.
Lemma tid_get_in g l s : tid_get g l = Some s -> In (g, s) l.
Proof.
  induction l as [|[h t] l IH]; simpl; [discriminate|]. destruct (tid_eqb h g) eqn:E; [|auto]. apply tid_eqb_eq in E. intros H. left. congruence.
Qed.
Lemma elem_get_in T l s : elem_get T l = Some s -> In (T, s) l.
Proof.
  induction l as [|[h t] l IH]; simpl; [discriminate|]. destruct (term_eqb h T) eqn:E; [|auto]. apply term_eqb_eq in E. intros H. left. congruence.
Qed.
Definition ctor_entry (K : kctx) (e : tid * symbol) : Prop := constant (snd e) /\ lc (symbol_type K (snd e)) /\ vars (symbol_type K (snd e)) = [] /\ fits (symbol_type K (tground (fst e))) (symbol_type K (snd e)) = true.
Definition elem_entry (K : kctx) (e : term * symbol) : Prop := constant (snd e) /\ fst e = symbol_type K (snd e).
Lemma record_right K tb s : regular K s -> Forall (elem_entry K) (t_element tb) -> Forall (ctor_entry K) (t_ctor tb) -> Forall (class_entry K) (t_class tb) ->
  let tb' := record_element tb s (symbol_type K s) in Forall (elem_entry K) (t_element tb') /\ Forall (ctor_entry K) (t_ctor tb') /\ Forall (class_entry K) (t_class tb').
Proof.
  intros (Hc & L & Vs & Hf & Hv) He Ht Hl. cbv zeta. set (tb1 := record_constructor tb (symbol_type K s) s).
  assert (X : t_element tb1 = t_element tb /\ Forall (ctor_entry K) (t_ctor tb1) /\ Forall (class_entry K) (t_class tb1)).
  { subst tb1. unfold record_constructor. pose proof (strip_value s (symbol_type K s) 0 (t_class tb)) as Sv.
    pose proof (strip_classes K s Hc (symbol_type K s) 0 (t_class tb) (fun _ => eq_refl) Hf Hl) as Sc.
    destruct (strip_kinds s 0 (symbol_type K s) (t_class tb)) as [[depth current] cl]. simpl in Sv, Sc. rewrite <- Sv in Hv. cbn [t_element t_ctor t_class].
    split; auto. split; auto. destruct (head_atom (result_type current)) as [| |[]] eqn:Eh; auto. destruct (Nat.ltb_spec 0 depth); auto.
    assert (E : Forall (ctor_entry K) ((m, i, s) :: t_ctor tb)) by (constructor; auto; split; [|split; [|split]]; simpl; auto).
    destruct (tid_get (m, i) (t_ctor tb)); auto. destruct current as [| |[]]; auto. }
  destruct X as (X1 & X2 & X3). unfold record_element. fold tb1. destruct (elem_get (symbol_type K s) (t_element tb1)); cbn [t_element t_ctor t_class]; rewrite ?X1; auto.
  split; auto. constructor; auto. split; auto.
Qed.
Lemma record_all_right K ss : Forall (regular K) ss -> entries_right K (record_all K ss).
Proof.
  intros H. unfold record_all.
  assert (G : forall tb, Forall (elem_entry K) (t_element tb) -> Forall (ctor_entry K) (t_ctor tb) -> Forall (class_entry K) (t_class tb) ->
    let tb' := fold_left (fun tb s => record_element tb s (symbol_type K s)) ss tb in Forall (elem_entry K) (t_element tb') /\ Forall (ctor_entry K) (t_ctor tb') /\ Forall (class_entry K) (t_class tb')).
  { induction H as [|s ss Hs Hss IH]; intros tb H1 H2 H3; [simpl; auto|]. cbn [fold_left]. destruct (record_right K tb s Hs H1 H2 H3) as (A & B & C). apply IH; auto. }
  destruct (G no_tables) as (A & B & C); try constructor.
  - intros T s Hg. apply elem_get_in in Hg. rewrite Forall_forall in A. apply (A _ Hg).
  - intros tc s Hg. apply tid_get_in in Hg. rewrite Forall_forall in C. apply (C _ Hg).
  - intros g s Hg. apply tid_get_in in Hg. rewrite Forall_forall in B. apply (B _ Hg).
Qed.
