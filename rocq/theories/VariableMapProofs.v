From Coq Require Import List Arith NArith Bool Lia.
Import ListNotations.
From Verif Require Import Term LocalContext Semantics TermProofs SemFacts Kbo Literal Clause ClauseSem ClauseProofs
  Typing TypingProofs VariableMap.

(** ** maps *)
Lemma vget_vset m : forall i t j, vget (vset m i t) j = if Nat.eqb i j then Some t else vget m j.
Proof.
  unfold vget. induction m as [|x m IH]; intros i t j.
  - revert j. induction i as [|i IHi]; intros [|j]; simpl; auto.
    + destruct j; auto.
    + rewrite IHi. destruct j; auto.
  - destruct i as [|i], j as [|j]; simpl; auto.
Qed.
Lemma vget_vresize m n i : vget (vresize m n) i = vget m i.
Proof.
  unfold vget, vresize. destruct (Nat.lt_ge_cases i (length m)) as [H|H].
  - rewrite nth_error_app1; auto.
  - rewrite nth_error_app2 by auto. rewrite (proj2 (nth_error_None m i)) by auto.
    destruct (nth_error (repeat None (n - length m)) (i - length m)) as [[t|]|] eqn:E; auto.
    apply nth_error_In, repeat_spec in E. discriminate.
Qed.
Lemma get_var_set_type c : forall i T j, get_var_type (set_type c i T) j = if Nat.eqb i j then Some T else get_var_type c j.
Proof.
  unfold get_var_type. induction c as [|x m IH]; intros i t j.
  - revert j. induction i as [|i IHi]; intros [|j]; simpl; auto.
    + destruct j; auto.
    + rewrite IHi. destruct j; auto.
  - destruct i as [|i], j as [|j]; simpl; auto.
Qed.

Lemma specialize_apply m t : specialize_term m t = apply_to_term m t.
Proof. induction t as [[i|i|s]|f IHf a IHa|k A IHA b IHb]; simpl; auto; congruence. Qed.

Definition closed_map (m : vmap) : Prop := forall i t, vget m i = Some t -> lc t.

Lemma apply_lc m t : closed_map m -> forall d, lc_at d t -> lc_at d (apply_to_term m t).
Proof.
  intros Hm. induction t as [[i|i|s]|f IHf a IHa|k A IHA b IHb]; intros d H; simpl; auto.
  - destruct (vget m i) as [r|] eqn:E; auto. apply (lc_weaken r 0 d); [lia|]. apply (Hm _ _ E).
  - apply lc_app in H. apply lc_app. destruct H. auto.
  - apply lc_bind in H. apply lc_bind. destruct H. auto.
Qed.

(** Two maps that agree on the variables of a term. *)
Lemma apply_agree m m' t : (forall i, In i (vars t) -> vget m i = vget m' i) -> apply_to_term m t = apply_to_term m' t.
Proof.
  induction t as [[i|i|s]|f IHf a IHa|k A IHA b IHb]; simpl; auto; intros H.
  - rewrite H by (unfold vars; simpl; auto); auto.
  - rewrite vars_app in H. rewrite IHf, IHa; auto; intros; apply H, in_or_app; auto.
  - rewrite vars_bind in H. rewrite IHA, IHb; auto; intros; apply H, in_or_app; auto.
Qed.
Lemma apply_unmapped m t : (forall i, In i (vars t) -> vget m i = None) -> apply_to_term m t = t.
Proof.
  induction t as [[i|i|s]|f IHf a IHa|k A IHA b IHb]; simpl; auto; intros H.
  - rewrite H by (unfold vars; simpl; auto); auto.
  - rewrite vars_app in H. rewrite IHf, IHa; auto; intros; apply H, in_or_app; auto.
  - rewrite vars_bind in H. rewrite IHA, IHb; auto; intros; apply H, in_or_app; auto.
Qed.
Lemma apply_vars m t w : In w (vars (apply_to_term m t)) <->
  (In w (vars t) /\ vget m w = None) \/ exists i r, In i (vars t) /\ vget m i = Some r /\ In w (vars r).
Proof.
  induction t as [[i|i|s]|f IHf a IHa|k A IHA b IHb]; cbn [apply_to_term].
  - assert (V : forall x, In x (vars (TVar i)) <-> i = x) by (intros x; unfold vars; simpl; tauto).
    destruct (vget m i) as [r|] eqn:E.
    + split; [intros H; right; exists i, r; rewrite V; auto|].
      intros [[H1 H]|(j & r' & H1 & H2 & H3)]; apply V in H1; subst; congruence.
    + rewrite V. split; [intros <-; auto|].
      intros [[H1 H]|(j & r' & H1 & H2 & H3)]; auto; apply V in H1; subst; congruence.
  - unfold vars; simpl. split; [tauto|]. intros [[[] _]|(j & r' & [] & _)].
  - unfold vars; simpl. split; [tauto|]. intros [[[] _]|(j & r' & [] & _)].
  - rewrite !vars_app, !in_app_iff, IHf, IHa. split.
    + intros [[[H1 H2]|(j & r & H1 & H2)]|[[H1 H2]|(j & r & H1 & H2)]]; auto; right; exists j, r; rewrite in_app_iff; auto.
    + intros [[[H1|H1] H2]|(j & r & H1 & H2)]; auto. apply in_app_or in H1. destruct H1; [left|right]; right; eauto.
  - rewrite !vars_bind, !in_app_iff, IHA, IHb. split.
    + intros [[[H1 H2]|(j & r & H1 & H2)]|[[H1 H2]|(j & r & H1 & H2)]]; auto; right; exists j, r; rewrite in_app_iff; auto.
    + intros [[[H1|H1] H2]|(j & r & H1 & H2)]; auto. apply in_app_or in H1. destruct H1; [left|right]; right; eauto.
Qed.

Section Sem.
Context (M : Model).

(** The assignment that reads a mapped variable from its replacement. *)
Definition via (m : vmap) (rho : nat -> D M) : nat -> D M :=
  fun i => match vget m i with Some r => ev M rho r | None => rho i end.

Lemma eval_apply m t : closed_map m -> forall rho bs, eval M rho bs (apply_to_term m t) = eval M (via m rho) bs t.
Proof.
  intros Hm. induction t as [[i|i|s]|f IHf a IHa|k A IHA b IHb]; intros rho bs; simpl; auto.
  - unfold via. destruct (vget m i) as [r|] eqn:E; auto. apply eval_lc, (Hm _ _ E).
  - rewrite IHf, IHa; auto.
  - rewrite IHA. apply bind_ext. intros x _. apply IHb.
Qed.
Lemma ev_apply m t rho : closed_map m -> ev M rho (apply_to_term m t) = ev M (via m rho) t.
Proof. intros H. apply eval_apply; auto. Qed.

Lemma swt_apply P m t : closed_map m -> forall rho bs,
  (forall i r, In i (vars t) -> vget m i = Some r -> swtg M P rho (nobs M) r) ->
  swtg M P (via m rho) bs t -> swtg M P rho bs (apply_to_term m t).
Proof.
  intros Hm. induction t as [[i|i|s]|f IHf a IHa|k A IHA b IHb]; intros rho bs Hr H; simpl in *; auto.
  - destruct (vget m i) as [r|] eqn:E; [|exact I].
    apply (swt_agree M P r 0 rho rho (nobs M) bs); auto; [apply (Hm _ _ E)|intros; lia|].
    apply (Hr i); [unfold vars; simpl; auto|auto].
  - rewrite vars_app in Hr. destruct H as (H1 & H2 & H3). rewrite !eval_apply by auto.
    split; [|split; auto]; [apply IHf|apply IHa]; auto; intros i r Hi; apply Hr, in_or_app; auto.
  - rewrite vars_bind in Hr. destruct H as (H1 & HT & H2). rewrite eval_apply by auto.
    split; [apply IHA; auto; intros i r Hi; apply Hr, in_or_app; auto|]. split; auto.
    intros x Hx. destruct (H2 x Hx) as [H3 H4]. rewrite eval_apply by auto. split; auto.
    apply IHb; auto. intros i r Hi; apply Hr, in_or_app; auto.
Qed.

(** ** canonical instance calls *)
Definition aliases_ok (al : aliases) : Prop := forall s l s', al_lookup al s l = Some s' ->
  forall rho bs, eval M rho bs (apply (TSym s) l) = dsym M s'.

Lemma apply_app h l1 l2 : apply h (l1 ++ l2) = apply (apply h l1) l2.
Proof. unfold apply. apply fold_left_app. Qed.

Lemma eval_apply_head rho bs l : forall h h', eval M rho bs h = eval M rho bs h' ->
  eval M rho bs (apply h l) = eval M rho bs (apply h' l).
Proof. induction l as [|x l IH]; intros h h' H; simpl; auto. apply IH. simpl. congruence. Qed.
Lemma swt_apply_prefix P rho bs l : forall h, swtg M P rho bs (apply h l) -> swtg M P rho bs h.
Proof. induction l as [|x l IH]; intros h H; simpl in *; auto. apply IH in H. apply H. Qed.
Lemma swt_apply_head P rho bs l : forall h h', eval M rho bs h = eval M rho bs h' -> swtg M P rho bs h' ->
  swtg M P rho bs (apply h l) -> swtg M P rho bs (apply h' l).
Proof.
  induction l as [|x l IH]; intros h h' E H' H; simpl in *; auto.
  apply (IH (TApp h x)); auto; simpl; [congruence|].
  apply swt_apply_prefix in H. simpl in H. rewrite <- E. tauto.
Qed.

Lemma try_canonicalize_sound al h l t : aliases_ok al -> try_canonicalize al h l = Some t ->
  forall rho bs, eval M rho bs t = eval M rho bs (apply h l) /\
    forall P, swtg M P rho bs (apply h l) -> swtg M P rho bs t.
Proof.
  intros Ha H rho bs. destruct h as [[i|i|[| | | | | | | | | | |m i|]]|?|?]; simpl in H; try discriminate.
  destruct (al_params al (SGlobal m i)) as [[|n]|]; try discriminate.
  destruct (Nat.ltb (length l) (S n)); [discriminate|].
  destruct (existsb _ _); [discriminate|].
  destruct (al_lookup al (SGlobal m i) (firstn (S n) l)) as [s|] eqn:E; [|discriminate]. injection H as <-.
  assert (El : apply (TSym (SGlobal m i)) l = apply (apply (TSym (SGlobal m i)) (firstn (S n) l)) (skipn (S n) l))
    by (rewrite <- apply_app, firstn_skipn; auto).
  rewrite El. pose proof (Ha _ _ _ E rho bs) as Ev. split.
  - apply eval_apply_head. rewrite Ev. auto.
  - intros P. apply swt_apply_head; [rewrite Ev; auto|exact I].
Qed.

Lemma canon_finish_sound al h ch l : aliases_ok al -> (h = ch \/ forall s, h <> TSym s) ->
  forall rho bs, eval M rho bs (canon_finish al (h, ch, l)) = eval M rho bs (apply ch l) /\
    forall P, swtg M P rho bs (apply ch l) -> swtg M P rho bs (canon_finish al (h, ch, l)).
Proof.
  intros Ha Hh rho bs. unfold canon_finish. destruct l as [|x l]; [simpl; auto|].
  destruct (try_canonicalize al h (x :: l)) as [t|] eqn:E; auto.
  assert (h = ch) as -> by (destruct Hh as [|Hh]; auto; destruct h as [[?|?|s]|?|?]; try discriminate; exfalso; eapply Hh; eauto).
  apply (try_canonicalize_sound al ch (x :: l)); auto.
Qed.

Lemma canon_parts_sound al t : aliases_ok al -> forall rho bs,
  let '(h, ch, l) := canon_parts al t in
  (h = ch \/ forall s, h <> TSym s) /\ eval M rho bs (apply ch l) = eval M rho bs t /\
  forall P, swtg M P rho bs t -> swtg M P rho bs (apply ch l).
Proof.
  intros Ha. induction t as [a|f IHf a IHa|k A IHA b IHb]; intros rho bs; cbn [canon_parts]; [simpl; auto| |].
  - specialize (IHf rho bs). specialize (IHa rho bs). destruct (canon_parts al f) as [[h ch] l].
    destruct (canon_parts al a) as [[h2 ch2] l2]. destruct IHf as (Hh & E1 & W1). destruct IHa as (Hh2 & E2 & W2).
    destruct (canon_finish_sound al h2 ch2 l2 Ha Hh2 rho bs) as [E3 W3].
    split; auto. rewrite apply_app. set (a' := canon_finish al (h2, ch2, l2)) in *.
    change (apply (apply ch l) [a']) with (TApp (apply ch l) a'). cbn [eval]. rewrite E1, E3, E2. split; auto.
    intros P (H1 & H2 & H3). cbn [swtg]. rewrite E1, E3, E2. auto.
  - pose proof (fun bs => IHA rho bs) as IHA'. pose proof (fun bs => IHb rho bs) as IHb'. clear IHA IHb.
    destruct (canon_parts al A) as [[h1 ch1] l1]. destruct (canon_parts al b) as [[h2 ch2] l2].
    assert (EA : forall bs, eval M rho bs (canon_finish al (h1, ch1, l1)) = eval M rho bs A /\ forall P, swtg M P rho bs A -> swtg M P rho bs (canon_finish al (h1, ch1, l1))).
    { intros bs'. destruct (IHA' bs') as (Hh & E1 & W1). destruct (canon_finish_sound al h1 ch1 l1 Ha Hh rho bs') as [E3 W3].
      split; [congruence|auto]. }
    assert (EB : forall bs, eval M rho bs (canon_finish al (h2, ch2, l2)) = eval M rho bs b /\ forall P, swtg M P rho bs b -> swtg M P rho bs (canon_finish al (h2, ch2, l2))).
    { intros bs'. destruct (IHb' bs') as (Hh & E1 & W1). destruct (canon_finish_sound al h2 ch2 l2 Ha Hh rho bs') as [E3 W3].
      split; [congruence|auto]. }
    set (A' := canon_finish al (h1, ch1, l1)) in *. set (b' := canon_finish al (h2, ch2, l2)) in *.
    split; [right; discriminate|]. change (apply (TBind k A' b') []) with (TBind k A' b'). cbn [eval swtg]. rewrite (proj1 (EA bs)). split.
    + apply bind_ext. intros x _. apply EB.
    + intros P (H1 & H2 & H3). split; [apply EA; auto|]. split; auto. intros x Hx. destruct (H3 x Hx) as [H4 H5].
      rewrite (proj1 (EB _)). split; auto. apply EB; auto.
Qed.
Lemma canonicalize_sound al t : aliases_ok al -> forall rho bs,
  eval M rho bs (canonicalize al t) = eval M rho bs t /\
  forall P, swtg M P rho bs t -> swtg M P rho bs (canonicalize al t).
Proof.
  intros Ha rho bs. unfold canonicalize. pose proof (canon_parts_sound al t Ha rho bs) as H.
  destruct (canon_parts al t) as [[h ch] l]. destruct H as (Hh & E & W).
  destruct (canon_finish_sound al h ch l Ha Hh rho bs) as [E' W']. split; [congruence|auto].
Qed.

(** ** literals and clauses *)
Lemma specialize_literal_holds al m l rho : aliases_ok al -> closed_map m ->
  (lit_holds M rho (specialize_literal al m l) <-> lit_holds M (via m rho) l).
Proof.
  intros Ha Hm. unfold specialize_literal. rewrite lit_new_holds. unfold lit_holds, ev. cbn [positive left right].
  rewrite !(proj1 (canonicalize_sound al _ Ha rho (nobs M))), !specialize_apply, !eval_apply by auto. tauto.
Qed.
Lemma specialize_literal_wt al m l rho : aliases_ok al -> closed_map m ->
  (forall i r, In i (vars (left l) ++ vars (right l)) -> vget m i = Some r -> wt M rho r) ->
  lit_wt M (via m rho) l -> lit_wt M rho (specialize_literal al m l).
Proof.
  intros Ha Hm Hr [H1 H2]. unfold specialize_literal. rewrite lit_new_wt. unfold wt, swt.
  split; apply canonicalize_sound; auto; rewrite specialize_apply; apply swt_apply; auto;
    intros i r Hi; apply Hr, in_or_app; auto.
Qed.

(** ** the contexts *)
Lemma keep_unmapped_get m c out i T : get_var_type c i = Some T -> vget m i = None ->
  get_var_type (keep_unmapped m c out) i = Some T.
Proof.
  intros HT Hm. unfold keep_unmapped.
  assert (Hi : In i (seq 0 (length c))).
  { apply in_seq. split; [lia|]. simpl. apply nth_error_Some. unfold get_var_type in HT. destruct (nth_error c i); congruence. }
  revert out Hi. induction (seq 0 (length c)) as [|j l IH]; intros out Hi; [contradiction|]. simpl.
  assert (Keep : forall l out, get_var_type out i = Some T -> get_var_type (fold_left (fun o i => match vget m i with
     | Some _ => o | None => match get_var_type c i with Some T => set_type o i T | None => o end end) l out) i = Some T).
  { clear - HT. induction l as [|k l IH]; intros out Ho; simpl; auto. apply IH.
    destruct (vget m k); auto. destruct (get_var_type c k) as [U|] eqn:E; auto.
    rewrite get_var_set_type. destruct (Nat.eqb_spec k i) as [->|]; congruence. }
  destruct Hi as [->|Hi]; [|apply IH; auto]. apply Keep. rewrite Hm, HT, get_var_set_type, Nat.eqb_refl. auto.
Qed.

(** An assignment of the instance's variables gives one of the clause's. *)
Definition right_types (m : vmap) (c out : lctx) : Prop :=
  forall rho, valid_env M out rho -> forall i T r, get_var_type c i = Some T -> vget m i = Some r ->
    mem M (ev M rho r) (ev M rho (apply_to_term m T)).
Definition unmapped_types_unmapped (m : vmap) (c : lctx) : Prop :=
  forall i T v, get_var_type c i = Some T -> vget m i = None -> In v (vars T) -> vget m v = None.

Lemma via_valid m c out rho : closed_map m -> unmapped_types_unmapped m c ->
  (forall i T, get_var_type c i = Some T -> vget m i = None -> get_var_type out i = Some T) ->
  right_types m c out -> valid_env M out rho -> valid_env M c (via m rho).
Proof.
  intros Hm Hu Ho Hr Hv i T HT. rewrite <- ev_apply by auto. unfold via.
  destruct (vget m i) as [r|] eqn:E; [eapply Hr; eauto|].
  rewrite apply_unmapped by (intros v Hv'; eapply Hu; eauto). apply Hv. auto.
Qed.

Lemma specialized_valid al m cl c' : aliases_ok al -> closed_map m -> unmapped_types_unmapped m (context cl) ->
  (exists out, c' = Clause (map (specialize_literal al m) (literals cl)) (keep_unmapped m (context cl) out)) ->
  right_types m (context cl) (context c') -> valid M cl -> valid M c'.
Proof.
  intros Ha Hm Hu [out ->] Hr Hv rho Hrho. cbn [context literals] in *.
  assert (V : valid_env M (context cl) (via m rho)).
  { apply (via_valid m _ (keep_unmapped m (context cl) out)); auto. intros. apply keep_unmapped_get; auto. }
  destruct (Hv _ V) as (l & Hl & H). exists (specialize_literal al m l). split; [apply in_map; auto|].
  apply specialize_literal_holds; auto.
Qed.
Lemma specialized_wt al m cl c' : aliases_ok al -> closed_map m -> unmapped_types_unmapped m (context cl) ->
  (exists out, c' = Clause (map (specialize_literal al m) (literals cl)) (keep_unmapped m (context cl) out)) ->
  right_types m (context cl) (context c') ->
  (forall rho, valid_env M (context c') rho -> forall i r, vget m i = Some r -> wt M rho r) ->
  clause_wt M cl -> clause_wt M c'.
Proof.
  intros Ha Hm Hu [out ->] Hr Hwr Hw rho Hrho l' Hl'. cbn [context literals] in *.
  assert (V : valid_env M (context cl) (via m rho)).
  { apply (via_valid m _ (keep_unmapped m (context cl) out)); auto. intros. apply keep_unmapped_get; auto. }
  apply in_map_iff in Hl'. destruct Hl' as (l & <- & Hl). apply specialize_literal_wt; eauto.
Qed.

(** ** equal up to the direction of equalities *)
Inductive swapeq : term -> term -> Prop :=
| sw_refl t : swapeq t t
| sw_app f a f' a' : swapeq f f' -> swapeq a a' -> swapeq (TApp f a) (TApp f' a')
| sw_bind k A b A' b' : swapeq A A' -> swapeq b b' -> swapeq (TBind k A b) (TBind k A' b')
| sw_eq T a b T' a' b' : swapeq T T' -> swapeq a a' -> swapeq b b' -> swapeq (teq T a b) (teq T' b' a').

Lemma swapeq_sound P t t' : swapeq t t' -> forall rho bs, swtg M P rho bs t ->
  swtg M P rho bs t' /\ eval M rho bs t' = eval M rho bs t.
Proof.
  induction 1 as [t|f a f' a' Hf IHf Ha IHa|k A b A' b' HA IHA Hb IHb|T a b T' a' b' HT IHT Ha IHa Hb IHb]; intros rho bs W; auto.
  - simpl in W. destruct W as (W1 & W2 & W3). destruct (IHf _ _ W1) as [W4 E4]. destruct (IHa _ _ W2) as [W5 E5].
    simpl. rewrite E4, E5. auto.
  - simpl in *. destruct W as (W1 & W2 & W3). destruct (IHA _ _ W1) as [W4 E4]. rewrite E4. split.
    + split; auto. split; auto. intros x Hx. destruct (W3 x Hx) as [W5 W6]. destruct (IHb _ _ W5) as [W7 E7].
      rewrite E7. auto.
    + apply bind_ext. intros x Hx. destruct (W3 x Hx) as [W5 W6]. apply IHb; auto.
  - assert (W' : swtg M P rho bs (teq T' a' b') /\ eval M rho bs (teq T' a' b') = eval M rho bs (teq T a b)).
    { unfold teq in *. simpl in *. destruct W as ((( W0 & W1 & W2) & W3 & W4) & W5 & W6).
      destruct (IHT _ _ W1) as [W7 E7]. destruct (IHa _ _ W3) as [W8 E8]. destruct (IHb _ _ W5) as [W9 E9].
      rewrite E7, E8, E9. tauto. }
    destruct W' as [W1 E1]. destruct (eq_swap M P rho bs T' a' b' W1) as [W2 E2]. split; auto. congruence.
Qed.
End Sem.

(** ** matching *)
Definition extends (m m' : vmap) : Prop := forall i t, vget m i = Some t -> vget m' i = Some t.
Lemma extends_refl m : extends m m. Proof. intros i t H; auto. Qed.
Lemma extends_trans a b c : extends a b -> extends b c -> extends a c.
Proof. intros H1 H2 i t H. auto. Qed.

(** All variables of a term are mapped. *)
Definition covers (m : vmap) (t : term) : Prop := forall i, In i (vars t) -> vget m i <> None.
Lemma apply_extends m m' t : extends m m' -> covers m t -> apply_to_term m' t = apply_to_term m t.
Proof.
  intros H C. apply apply_agree. intros i Hi. destruct (vget m i) as [r|] eqn:E; [apply H; auto|].
  exfalso. apply (C i); auto.
Qed.
Lemma covers_app m f a : covers m (TApp f a) <-> covers m f /\ covers m a.
Proof. unfold covers. rewrite vars_app. setoid_rewrite in_app_iff. firstorder. Qed.
Lemma covers_bind m k f a : covers m (TBind k f a) <-> covers m f /\ covers m a.
Proof. unfold covers. rewrite vars_bind. setoid_rewrite in_app_iff. firstorder. Qed.
Lemma covers_extends m m' t : extends m m' -> covers m t -> covers m' t.
Proof.
  intros H C i Hi. specialize (C i Hi). destruct (vget m i) as [r|] eqn:E; [rewrite (H _ _ E); discriminate|contradiction].
Qed.

Lemma match_var_spec m i s m' : match_var m i s = (true, m') -> extends m m' /\ vget m' i = Some s /\
  (forall j, j <> i -> vget m' j = vget m j).
Proof.
  unfold match_var. rewrite vget_vresize. destruct (vget m i) as [g|] eqn:E; intros H.
  - injection H as H <-. apply term_eqb_eq in H. subst g. split; [|split].
    + intros j t. rewrite vget_vresize. auto.
    + rewrite vget_vresize. auto.
    + intros. apply vget_vresize.
  - injection H as <-. split; [|split].
    + intros j t Hj. rewrite vget_vset, vget_vresize. destruct (Nat.eqb_spec i j) as [->|]; congruence.
    + rewrite vget_vset, Nat.eqb_refl. auto.
    + intros j Hj. rewrite vget_vset, vget_vresize. destruct (Nat.eqb_spec i j); congruence.
Qed.

(** What a successful match says. *)
Record matched (m m' : vmap) (g s : term) : Prop := {
  ma_ext : extends m m';
  ma_closed : closed_map m -> closed_map m';
  ma_cov : covers m' g;
  ma_eq : swapeq (apply_to_term m' g) s
}.
Record matched_exactly (m m' : vmap) (g s : term) : Prop := {
  mx_ext : extends m m';
  mx_closed : closed_map m -> closed_map m';
  mx_cov : covers m' g;
  mx_eq : apply_to_term m' g = s
}.

Lemma match_free_spec K gc sc m i s m' : match_free K gc sc m i s = Some (true, m') ->
  lc s /\ match_var m i s = (true, m').
Proof.
  unfold match_free. destruct (has_escaping_bound_variable s) eqn:E; [discriminate|]. split; [exact E|].
  destruct (get_var_type gc i); [|discriminate]. destruct (get_type K sc s); [|discriminate].
  destruct (_ || _ || _); [|discriminate]. destruct (match _ with Some _ => _ | None => _ end); [|discriminate].
  congruence.
Qed.
Lemma match_var_exact m i s m' : lc s -> match_var m i s = (true, m') -> matched_exactly m m' (TVar i) s.
Proof.
  intros Hs H. apply match_var_spec in H. destruct H as (H1 & H2 & H3). constructor; auto.
  - intros C j t Hj. destruct (Nat.eq_dec j i) as [->|N]; [congruence|]. rewrite H3 in Hj by auto. eauto.
  - intros j Hj. unfold vars in Hj; simpl in Hj. destruct Hj as [<-|[]]. congruence.
  - simpl. rewrite H2. auto.
Qed.
Lemma exactly_matched m m' g s : matched_exactly m m' g s -> matched m m' g s.
Proof. intros [H1 H2 H3 H4]. constructor; auto. rewrite H4. constructor. Qed.

Lemma matched_app m m1 m2 f a f' a' : matched m m1 f f' -> matched m1 m2 a a' -> matched m m2 (TApp f a) (TApp f' a').
Proof.
  intros [H1 H2 H3 H4] [H5 H6 H7 H8]. constructor; auto.
  - eapply extends_trans; eauto.
  - apply covers_app. split; auto. eapply covers_extends; eauto.
  - simpl. rewrite (apply_extends m1 m2 f) by auto. constructor; auto.
Qed.
Lemma matched_bind k m m1 m2 f a f' a' : matched m m1 f f' -> matched m1 m2 a a' -> matched m m2 (TBind k f a) (TBind k f' a').
Proof.
  intros [H1 H2 H3 H4] [H5 H6 H7 H8]. constructor; auto.
  - eapply extends_trans; eauto.
  - apply covers_bind. split; auto. eapply covers_extends; eauto.
  - simpl. rewrite (apply_extends m1 m2 f) by auto. constructor; auto.
Qed.
Lemma matched_atom m a : (forall i, a <> FreeVar i) -> matched_exactly m m (TAtom a) (TAtom a).
Proof.
  intros H. constructor; auto; [apply extends_refl| |destruct a; auto; exfalso; eapply H; eauto].
  intros i Hi. destruct a as [j|j|s]; [exfalso; eapply H; eauto|unfold vars in Hi; simpl in Hi; contradiction|unfold vars in Hi; simpl in Hi; contradiction].
Qed.
Lemma matched_swap m m1 m2 m3 T a b T' a' b' : matched m m1 T T' -> matched m1 m2 a a' -> matched m2 m3 b b' ->
  matched m m3 (teq T a b) (teq T' b' a').
Proof.
  intros H1 H2 H3. assert (H : matched m m3 (teq T a b) (teq T' a' b')).
  { apply (matched_app m m2 m3); auto. apply (matched_app m m1 m2); auto. apply (matched_app m m m1); auto.
    apply exactly_matched, matched_atom. discriminate. }
  destruct H as [X C V _]. constructor; auto. clear X C V.
  destruct H1 as [X1 _ C1 E1], H2 as [X2 _ C2 E2], H3 as [X3 _ C3 E3].
  change (apply_to_term m3 (teq T a b)) with (teq (apply_to_term m3 T) (apply_to_term m3 a) (apply_to_term m3 b)).
  rewrite (apply_extends m1 m3 T) by (auto; apply (extends_trans _ m2); auto). rewrite (apply_extends m2 m3 a) by auto.
  apply sw_eq; auto.
Qed.

Lemma match_and_true r k m' : match_and r k = Some (true, m') -> exists m1, r = Some (true, m1) /\ k m1 = Some (true, m').
Proof. destruct r as [[[] m1]|]; simpl; try discriminate. eauto. Qed.

Lemma split_eq_args_some t T a b : split_eq_args t = Some (T, a, b) -> t = teq T a b.
Proof.
  destruct t as [|f x|]; simpl; try discriminate. destruct f as [|f y|]; try discriminate.
  destruct f as [|f z|]; try discriminate. destruct f as [[?|?|[]]|?|?]; try discriminate. intros H; injection H as <- <- <-. auto.
Qed.

Lemma atom_match a b (m m' : vmap) : (if atom_eq_dec a b then true else false, m) = (true, m') -> a = b /\ m = m'.
Proof. destruct (atom_eq_dec a b); intros H; [split; congruence|discriminate]. Qed.

Lemma match_terms_matched K g : forall gc sc m s m', match_terms K gc sc m g s = Some (true, m') -> matched m m' g s.
Proof.
  (* strong induction on the size: the equality case looks three levels down *)
  remember (tsize g) as n eqn:En. assert (Hn : tsize g <= n) by lia. clear En. revert g Hn.
  induction n as [|n IH]; intros g Hn gc sc m s m' H; [pose proof (tsize_pos g); lia|].
  assert (St : match g with
    | TAtom (FreeVar i) => match_free K gc sc m i s
    | TAtom a => match s with TAtom b => Some (if atom_eq_dec a b then true else false, m) | _ => Some (false, m) end
    | TApp gf ga =>
      match s with
      | TApp sf sa => match_and (match_terms K gc sc m gf sf) (fun m => match_terms K gc sc m ga sa)
      | _ => Some (false, m)
      end
    | TBind k gA gb =>
      match s with
      | TBind k' sA sb =>
        if bkind_eq_dec k k' then
          match_and (match_terms K gc sc m gA sA) (fun m =>
            match_terms K (push_type gc (apply_to_term m gA)) (push_type sc sA) m gb sb)
        else Some (false, m)
      | _ => Some (false, m)
      end
    end = Some (true, m') -> matched m m' g s).
  { clear H. intros H. destruct g as [[i|i|x]|gf ga|k gA gb].
    - apply match_free_spec in H. apply exactly_matched, match_var_exact; tauto.
    - destruct s as [b| |]; try discriminate. apply (f_equal (fun x => match x with Some y => y | None => (false, m) end)) in H.
      apply atom_match in H. destruct H as [<- <-]. apply exactly_matched, matched_atom. discriminate.
    - destruct s as [b| |]; try discriminate. apply (f_equal (fun x => match x with Some y => y | None => (false, m) end)) in H.
      apply atom_match in H. destruct H as [<- <-]. apply exactly_matched, matched_atom. discriminate.
    - destruct s as [|sf sa|]; try discriminate. apply match_and_true in H. destruct H as (m1 & H1 & H2). simpl in Hn.
      eapply matched_app; eapply IH; eauto; lia.
    - destruct s as [| |k' sA sb]; try discriminate. destruct (bkind_eq_dec k k') as [<-|]; [|discriminate].
      apply match_and_true in H. destruct H as (m1 & H1 & H2). simpl in Hn.
      eapply matched_bind; eapply IH; eauto; lia. }
  destruct (split_eq_args g) as [[[gT g1] g2]|] eqn:Eg.
  - apply split_eq_args_some in Eg. subst g. unfold teq in Hn. simpl in Hn.
    unfold teq in H. cbn [match_terms] in H. destruct (split_eq_args s) as [[[sT s1] s2]|] eqn:Es; [|apply St; exact H].
    apply split_eq_args_some in Es. subst s. clear St.
    destruct (match_and (match_terms K gc sc m gT sT) _) as [[[] mx]|] eqn:E1; try discriminate.
    + injection H as ->. apply match_and_true in E1. destruct E1 as (m1 & H1 & H2). apply match_and_true in H2.
      destruct H2 as (m2 & H2 & H3).
      apply (matched_app m m2 m'); [apply (matched_app m m1 m2); [apply (matched_app m m m1)|]|];
        [apply exactly_matched, matched_atom; discriminate| | |]; eapply IH; eauto; lia.
    + clear E1. destruct (match_and (match_terms K gc sc m gT sT) _) as [[[] my]|] eqn:E1; try discriminate.
      injection H as ->. apply match_and_true in E1. destruct E1 as (m1 & H1 & H2). apply match_and_true in H2.
      destruct H2 as (m2 & H2 & H3). eapply matched_swap; eapply IH; eauto; lia.
  - apply St. clear St. destruct g as [|f x|]; auto. destruct f as [|f y|]; auto. destruct f as [|f z|]; auto.
    destruct f as [[?|?|[]]|?|?]; auto. discriminate.
Qed.

Lemma exactly_app m m1 m2 f a f' a' : matched_exactly m m1 f f' -> matched_exactly m1 m2 a a' ->
  matched_exactly m m2 (TApp f a) (TApp f' a').
Proof.
  intros [H1 H2 H3 H4] [H5 H6 H7 H8]. constructor; auto.
  - eapply extends_trans; eauto.
  - apply covers_app. split; auto. eapply covers_extends; eauto.
  - simpl. rewrite (apply_extends m1 m2 f) by auto. congruence.
Qed.
Lemma exactly_bind k m m1 m2 f a f' a' : matched_exactly m m1 f f' -> matched_exactly m1 m2 a a' ->
  matched_exactly m m2 (TBind k f a) (TBind k f' a').
Proof.
  intros [H1 H2 H3 H4] [H5 H6 H7 H8]. constructor; auto.
  - eapply extends_trans; eauto.
  - apply covers_bind. split; auto. eapply covers_extends; eauto.
  - simpl. rewrite (apply_extends m1 m2 f) by auto. congruence.
Qed.
Lemma match_untyped_exact g : forall m s m', match_untyped m g s = (true, m') -> matched_exactly m m' g s.
Proof.
  induction g as [[i|i|x]|gf IHf ga IHa|k gA IHA gb IHb]; intros m s m' H; simpl in H.
  - destruct (has_escaping_bound_variable s) eqn:E; [discriminate|]. apply match_var_exact; auto.
  - destruct s as [b| |]; try discriminate. apply atom_match in H. destruct H as [<- <-]. apply matched_atom. discriminate.
  - destruct s as [b| |]; try discriminate. apply atom_match in H. destruct H as [<- <-]. apply matched_atom. discriminate.
  - destruct s as [|sf sa|]; try discriminate. destruct (match_untyped m gf sf) as [[] m1] eqn:E; [|discriminate].
    eapply exactly_app; eauto.
  - destruct s as [| |k' sA sb]; try discriminate. destruct (bkind_eq_dec k k') as [<-|]; [|discriminate].
    destruct (match_untyped m gA sA) as [[] m1] eqn:E; [|discriminate]. eapply exactly_bind; eauto.
Qed.
Lemma match_untyped_eq_matched g : forall m s m', match_untyped_eq m g s = (true, m') -> matched m m' g s.
Proof.
  remember (tsize g) as n eqn:En. assert (Hn : tsize g <= n) by lia. clear En. revert g Hn.
  induction n as [|n IH]; intros g Hn m s m' H; [pose proof (tsize_pos g); lia|].
  destruct (split_eq_args g) as [[[gT g1] g2]|] eqn:Eg.
  - apply split_eq_args_some in Eg. subst g. unfold teq in Hn. simpl in Hn.
    unfold teq in H. cbn [match_untyped_eq] in H. destruct (split_eq_args s) as [[[sT s1] s2]|] eqn:Es;
      [|apply exactly_matched, match_untyped_exact; exact H].
    apply split_eq_args_some in Es. subst s.
    destruct (match_untyped_eq m gT sT) as [[] m1] eqn:E1; [|discriminate].
    apply IH in E1; [|lia].
    destruct (match_untyped_eq m1 g1 s1) as [b2 m2] eqn:E2.
    assert (G : forall b3 m3, (if b2 then match_untyped_eq m2 g2 s2 else (false, m2)) = (b3, m3) -> b3 = true ->
      matched m m3 (teq gT g1 g2) (teq sT s1 s2)).
    { intros b3 m3 E3 ->. destruct b2; [|discriminate]. apply IH in E2, E3; try lia.
      apply (matched_app m m2 m3); auto. apply (matched_app m m1 m2); auto. apply (matched_app m m m1); auto.
      apply exactly_matched, matched_atom; discriminate. }
    destruct (if b2 then match_untyped_eq m2 g2 s2 else (false, m2)) as [b3 m3] eqn:E3. specialize (G b3 m3 eq_refl).
    destruct b3; [injection H as <-; auto|]. clear G.
    destruct (match_untyped_eq m1 g1 s2) as [[] m4] eqn:E4; [|discriminate].
    destruct (match_untyped_eq m4 g2 s1) as [[] m5] eqn:E5; [|discriminate]. injection H as <-.
    apply IH in E4, E5; try lia. eapply matched_swap; eauto.
  - apply exactly_matched, match_untyped_exact.
    destruct g as [|f x|]; auto. destruct f as [|f y|]; auto. destruct f as [|f z|]; auto.
    destruct f as [[?|?|[]]|?|?]; auto. discriminate.
Qed.
