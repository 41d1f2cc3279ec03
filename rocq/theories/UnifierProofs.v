(** Lemmas about the unifier. *)
From Coq Require Import List Arith NArith Bool Lia.
Import ListNotations.
From Verif Require Import Term LocalContext Semantics TermProofs SemFacts TermNormProofs Literal Clause ClauseSem ClauseProofs
  InferenceProofs Typing TypingProofs VariableMap VariableMapProofs Unifier.

(** ** Equality up to the sides of equations and the two kinds of type parameters *)
Inductive ueq : term -> term -> Prop :=
| ue_refl t : ueq t t
| ue_app f a f' a' : ueq f f' -> ueq a a' -> ueq (TApp f a) (TApp f' a')
| ue_bind k A b A' b' : ueq A A' -> ueq b b' -> ueq (TBind k A b) (TBind k A' b')
| ue_eq T a b T' a' b' : ueq T T' -> ueq a a' -> ueq b b' -> ueq (teq T a b) (teq T' b' a')
| ue_kind1 m i : ueq (TSym (STypeclass m i)) (TSym SType0)
| ue_kind2 m i : ueq (TSym SType0) (TSym (STypeclass m i)).

Lemma ueq_sym t t' : ueq t t' -> ueq t' t.
Proof.
  induction 1; [apply ue_refl|apply ue_app|apply ue_bind|apply ue_eq|apply ue_kind2|apply ue_kind1]; auto.
Qed.
Lemma ueq_apply m t t' : ueq t t' -> ueq (apply_to_term m t) (apply_to_term m t').
Proof.
  induction 1; [apply ue_refl|apply ue_app|apply ue_bind|apply ue_eq|apply ue_kind1|apply ue_kind2]; auto.
Qed.
(** without kinds it is [swapeq] *)
Definition nokind (t : term) : bool :=
  forallb (fun a => match a with Sym (SType0 | STypeclass _ _) => false | _ => true end) (atoms t).
Lemma ueq_swapeq t t' : ueq t t' -> nokind t = true \/ nokind t' = true -> swapeq t t'.
Proof.
  assert (NA : forall f a, nokind (TApp f a) = nokind f && nokind a) by (intros; unfold nokind; simpl; apply forallb_app).
  assert (NB : forall k f a, nokind (TBind k f a) = nokind f && nokind a) by (intros; unfold nokind; simpl; apply forallb_app).
  induction 1 as [t|f a f' a' Hf IHf Ha IHa|k A b A' b' Hf IHf Ha IHa|T a b T' a' b' HT IHT Ha IHa Hb IHb|m i|m i]; intros N.
  - apply sw_refl.
  - rewrite !NA, !andb_true_iff in N. apply sw_app; [apply IHf|apply IHa]; tauto.
  - rewrite !NB, !andb_true_iff in N. apply sw_bind; [apply IHf|apply IHa]; tauto.
  - unfold teq in N. rewrite !NA, !andb_true_iff in N. apply sw_eq; [apply IHT|apply IHa|apply IHb]; tauto.
  - destruct N as [N|N]; discriminate N.
  - destruct N as [N|N]; discriminate N.
Qed.

(** ** States *)
Lemma nth_upd {A} (l : list A) : forall i x j d, nth j (upd_nth l i x) d = if Nat.eqb i j && Nat.ltb i (length l) then x else nth j l d.
Proof.
  induction l as [|y l IH]; intros i x j d; simpl.
  - rewrite andb_false_r. destruct i, j; auto.
  - destruct i as [|i], j as [|j]; simpl; auto. rewrite IH.
    replace (Nat.ltb (S i) (S (length l))) with (Nat.ltb i (length l)) by reflexivity. auto.
Qed.
Lemma length_upd {A} (l : list A) : forall i x, length (upd_nth l i x) = length l.
Proof. induction l as [|y l IH]; intros [|i] x; simpl; auto. Qed.

Lemma umap_set st s m s' : s < length (u_maps st) -> umap (set_umap st s m) s' = if Nat.eqb s s' then m else umap st s'.
Proof.
  intros H. unfold umap, set_umap. cbn [u_maps]. rewrite nth_upd.
  destruct (Nat.ltb_spec s (length (u_maps st))); [|lia]. rewrite andb_true_r. auto.
Qed.

Definition sigma (st : ustate) (s : nat) (t : term) : term := apply_to_term (umap st s) t.

Record uwf (st : ustate) : Prop := {
  uw_pos : 0 < length (u_maps st);
  uw_len : length (u_inputs st) = length (u_maps st);
  uw_res : forall s i r v, vget (umap st s) i = Some r -> In v (vars r) -> vget (umap st 0) v = None;
  uw_lc : forall s, closed_map (umap st s)
}.
Record uref (st st' : ustate) : Prop := {
  ur_len : length (u_maps st') = length (u_maps st);
  ur_in : u_inputs st' = u_inputs st;
  ur_map : forall s i r, vget (umap st s) i = Some r -> vget (umap st' s) i = Some (sigma st' 0 r)
}.

Lemma sigma_resolved st s i r : uwf st -> vget (umap st s) i = Some r -> sigma st 0 r = r.
Proof. intros W H. apply apply_unmapped. intros v Hv. apply (uw_res st W s i r); auto. Qed.
Lemma uref_refl st : uwf st -> uref st st.
Proof. intros W. constructor; auto. intros s i r H. rewrite (sigma_resolved st s i r); auto. Qed.

Lemma apply_compose m1 m2 m3 t :
  (forall i, In i (vars t) -> match vget m3 i with Some r => r | None => TVar i end =
                              apply_to_term m2 (match vget m1 i with Some r => r | None => TVar i end)) ->
  apply_to_term m3 t = apply_to_term m2 (apply_to_term m1 t).
Proof.
  induction t as [[i|i|s]|f IHf a IHa|k A IHA b IHb]; intros H; cbn [apply_to_term]; auto.
  - specialize (H i ltac:(unfold vars; simpl; auto)).
    destruct (vget m1 i); destruct (vget m3 i); auto.
  - rewrite vars_app in H. rewrite IHf, IHa; auto; intros; apply H, in_or_app; auto.
  - rewrite vars_bind in H. rewrite IHA, IHb; auto; intros; apply H, in_or_app; auto.
Qed.

Lemma sigma_out st st' t : uref st st' -> sigma st' 0 t = sigma st' 0 (sigma st 0 t).
Proof.
  intros R. unfold sigma. apply apply_compose. intros i _. destruct (vget (umap st 0) i) as [r|] eqn:E.
  - rewrite (ur_map st st' R 0 i r E). auto.
  - simpl. auto.
Qed.
Definition cov (st : ustate) (s : nat) (t : term) : Prop := s <> 0 -> covers (umap st s) t.
Lemma sigma_ref st st' s t : uref st st' -> cov st s t -> sigma st' s t = sigma st' 0 (sigma st s t).
Proof.
  intros R C. destruct (Nat.eq_dec s 0) as [->|N]; [apply sigma_out; auto|].
  unfold sigma. apply apply_compose. intros i Hi. specialize (C N i Hi).
  destruct (vget (umap st s) i) as [r|] eqn:E; [|contradiction]. rewrite (ur_map st st' R s i r E). auto.
Qed.
Lemma cov_ref st st' s t : uref st st' -> cov st s t -> cov st' s t.
Proof.
  intros R C N i Hi. specialize (C N i Hi). destruct (vget (umap st s) i) as [r|] eqn:E; [|contradiction].
  rewrite (ur_map st st' R s i r E). discriminate.
Qed.
Lemma uref_trans a b c : uref a b -> uref b c -> uref a c.
Proof.
  intros R1 R2. constructor.
  - rewrite (ur_len _ _ R2). apply (ur_len _ _ R1).
  - rewrite (ur_in _ _ R2). apply (ur_in _ _ R1).
  - intros s i r H. apply (ur_map _ _ R1) in H. apply (ur_map _ _ R2) in H. rewrite H. f_equal.
    symmetry. apply sigma_out. auto.
Qed.
Lemma cov_app st s f a : cov st s (TApp f a) <-> cov st s f /\ cov st s a.
Proof. unfold cov. rewrite covers_app. tauto. Qed.
Lemma cov_bind st s k f a : cov st s (TBind k f a) <-> cov st s f /\ cov st s a.
Proof. unfold cov. rewrite covers_bind. tauto. Qed.
Lemma ueq_ref st st' s1 t1 s2 t2 : uref st st' -> cov st s1 t1 -> cov st s2 t2 ->
  ueq (sigma st s1 t1) (sigma st s2 t2) -> ueq (sigma st' s1 t1) (sigma st' s2 t2).
Proof.
  intros R C1 C2 H. rewrite (sigma_ref st st' s1 t1 R C1), (sigma_ref st st' s2 t2 R C2). apply ueq_apply; auto.
Qed.

(** ** [apply] *)
Lemma uapply_out n : forall st t t' st', uapply n st 0 t = Some (t', st') -> st' = st /\ t' = sigma st 0 t.
Proof.
  induction n as [|n IH]; intros st t t' st' H; cbn [uapply] in H; [discriminate|].
  destruct t as [[i|i|s]|f a|k A b].
  - destruct (vget (umap st 0) i) as [r|] eqn:E; injection H as <- <-; split; auto; unfold sigma; cbn [apply_to_term]; rewrite E; auto.
  - injection H as <- <-; auto.
  - injection H as <- <-; auto.
  - destruct (uapply n st 0 f) as [[f' st1]|] eqn:Ef; [|discriminate]. apply IH in Ef. destruct Ef as [-> ->].
    destruct (uapply n st 0 a) as [[a' st2]|] eqn:Ea; [|discriminate]. apply IH in Ea. destruct Ea as [-> ->].
    injection H as <- <-; auto.
  - destruct (uapply n st 0 A) as [[f' st1]|] eqn:Ef; [|discriminate]. apply IH in Ef. destruct Ef as [-> ->].
    destruct (uapply n st 0 b) as [[a' st2]|] eqn:Ea; [|discriminate]. apply IH in Ea. destruct Ea as [-> ->].
    injection H as <- <-; auto.
Qed.

(** A state in which more variables are mapped to new output variables and nothing else has changed. *)
Record ufresh (st st' : ustate) : Prop := {
  uf_len : length (u_maps st') = length (u_maps st);
  uf_in : u_inputs st' = u_inputs st;
  uf_out : forall i, vget (umap st' 0) i = vget (umap st 0) i;
  uf_outlen : length (umap st 0) <= length (umap st' 0);
  uf_keep : forall s i r, vget (umap st s) i = Some r -> vget (umap st' s) i = Some r;
  uf_new : forall s i r, vget (umap st' s) i = Some r -> vget (umap st s) i = Some r \/
             (s <> 0 /\ exists v, r = TVar v /\ length (umap st 0) <= v < length (umap st' 0));
  uf_clash : u_clash st' = u_clash st
}.
Lemma ufresh_refl st : ufresh st st.
Proof. constructor; auto. Qed.
Lemma ufresh_trans a b c : ufresh a b -> ufresh b c -> ufresh a c.
Proof.
  intros [A1 A2 A3 A4 A5 A6 A7] [B1 B2 B3 B4 B5 B6 B7]. constructor; [congruence|congruence|intros i; rewrite B3; auto|lia|auto| |congruence].
  - intros s i r H. destruct (B6 s i r H) as [H1|(N & v & -> & Hv)].
    + destruct (A6 s i r H1) as [|(N & v & -> & Hv)]; [auto|right]. split; auto. exists v. split; auto. lia.
    + right. split; auto. exists v. split; auto. lia.
Qed.
Lemma vget_ge m i : length m <= i -> vget m i = None.
Proof. intros H. unfold vget. rewrite (proj2 (nth_error_None m i)); auto. Qed.
Lemma ufresh_wf st st' : uwf st -> ufresh st st' -> uwf st'.
Proof.
  intros [W1 W2 W3 W4] [A1 A2 A3 A4 A5 A6 A7]. constructor; try congruence.
  - intros s i r v H Hv. rewrite A3. destruct (A6 s i r H) as [H1|(N & w & -> & Hw)]; [eauto|].
    unfold vars in Hv; simpl in Hv. destruct Hv as [<-|[]]. apply vget_ge. lia.
  - intros s i r H. destruct (A6 s i r H) as [H1|(N & w & -> & Hw)]; [apply (W4 s i r H1)|reflexivity].
Qed.
Lemma ufresh_ref st st' : uwf st -> ufresh st st' -> uref st st'.
Proof.
  intros W F. pose proof (ufresh_wf st st' W F) as W'. destruct F as [A1 A2 A3 A4 A5 A6 A7]. constructor; auto.
  intros s i r H. rewrite (sigma_resolved st' s i r); auto.
Qed.

Lemma vget_app_none m i : vget (m ++ [None]) i = vget m i.
Proof.
  unfold vget. destruct (Nat.lt_ge_cases i (length m)) as [H|H]; [rewrite nth_error_app1; auto|].
  rewrite nth_error_app2, (proj2 (nth_error_None m i)) by auto. destruct (i - length m) as [|[|k]]; auto.
Qed.

Lemma uapply_fresh n : forall st s t t' st', uwf st -> uapply n st s t = Some (t', st') ->
  ufresh st st' /\ t' = sigma st' s t /\ cov st' s t.
Proof.
  induction n as [|n IH]; intros st s t t' st' W H; cbn [uapply] in H; [discriminate|].
  assert (KC : forall st1 st2 x, ufresh st1 st2 -> cov st1 s x -> cov st2 s x).
  { intros st1 st2 x F C N j Hj. specialize (C N j Hj). destruct (vget (umap st1 s) j) as [r|] eqn:E; [|contradiction].
    rewrite (uf_keep _ _ F s j r E). discriminate. }
  assert (KS : forall st1 st2 x, ufresh st1 st2 -> cov st1 s x -> sigma st2 s x = sigma st1 s x).
  { intros st1 st2 x F C. unfold sigma. apply apply_agree. intros j Hj. destruct (Nat.eq_dec s 0) as [->|N].
    - apply (uf_out _ _ F).
    - specialize (C N j Hj). destruct (vget (umap st1 s) j) as [r|] eqn:E; [|contradiction]. apply (uf_keep _ _ F s j r E). }
  destruct t as [[i|i|x]|f a|k A b].
  - destruct (vget (umap st s) i) as [r|] eqn:E.
    { rewrite E in H. injection H as <- <-. split; [apply ufresh_refl|]. unfold sigma. cbn [apply_to_term]. rewrite E. split; auto.
      intros _ j Hj. unfold vars in Hj; simpl in Hj. destruct Hj as [<-|[]]. congruence. }
    destruct s as [|s].
    { rewrite E in H. injection H as <- <-. split; [apply ufresh_refl|]. unfold sigma. cbn [apply_to_term]. rewrite E. split; auto. intros N; congruence. }
    set (v := length (umap st 0)) in *.
    set (st1 := set_umap st 0 (umap st 0 ++ [None])) in *.
    set (st2 := set_umap st1 (S s) (vset (umap st1 (S s)) i (TVar v))) in *.
    destruct (ulocal st2 (S s)) as [c|] eqn:El; [|discriminate].
    destruct (get_var_type c i) as [T|]; [|discriminate].
    destruct (uapply n st2 (S s) T) as [[T' st3]|] eqn:Ea; [|discriminate].
    assert (Hs : S s < length (u_maps st)).
    { unfold ulocal in El. destruct (nth_error (u_inputs st2) (S s)) as [[?|]|] eqn:En; try discriminate.
      rewrite <- (uw_len st W). apply nth_error_Some. change (u_inputs st2) with (u_inputs st) in En. congruence. }
    assert (M1 : forall z, umap st1 z = if Nat.eqb 0 z then umap st 0 ++ [None] else umap st z).
    { intros z. apply umap_set. apply (uw_pos st W). }
    assert (M2 : forall z, umap st2 z = if Nat.eqb (S s) z then vset (umap st (S s)) i (TVar v) else umap st1 z).
    { intros z. unfold st2. rewrite umap_set; [rewrite (M1 (S s)); auto|]. unfold st1, set_umap. cbn [u_maps]. rewrite length_upd. auto. }
    assert (F2 : ufresh st st2).
    { constructor.
      - unfold st2, st1, set_umap. cbn [u_maps]. rewrite !length_upd. auto.
      - auto.
      - intros j. rewrite M2, M1. simpl. apply vget_app_none.
      - rewrite M2, M1. simpl. rewrite app_length. lia.
      - intros z j r Hz. rewrite M2. destruct (Nat.eqb_spec (S s) z) as [<-|].
        + rewrite vget_vset. destruct (Nat.eqb_spec i j) as [->|]; auto. congruence.
        + rewrite M1. destruct (Nat.eqb_spec 0 z) as [<-|]; auto. rewrite vget_app_none; auto.
      - intros z j r Hz. rewrite M2 in Hz. destruct (Nat.eqb_spec (S s) z) as [<-|].
        + rewrite vget_vset in Hz. destruct (Nat.eqb_spec i j) as [->|]; auto. injection Hz as <-.
          right. split; [lia|]. exists v. split; auto. rewrite M2, M1. simpl. rewrite app_length. simpl. unfold v. lia.
        + rewrite M1 in Hz. destruct (Nat.eqb_spec 0 z) as [<-|]; auto. rewrite vget_app_none in Hz; auto.
      - reflexivity. }
    pose proof (ufresh_wf _ _ W F2) as W2. destruct (IH _ _ _ _ _ W2 Ea) as (F3 & _ & _).
    assert (F3' : ufresh st2 (set_out st3 (set_type (u_out st3) v T'))) by (destruct F3; constructor; auto).
    assert (G : vget (umap st3 (S s)) i = Some (TVar v)).
    { apply (uf_keep _ _ F3). rewrite M2, Nat.eqb_refl, vget_vset, Nat.eqb_refl. auto. }
    change (umap (set_out st3 (set_type (u_out st3) v T')) (S s)) with (umap st3 (S s)) in H. rewrite G in H.
    injection H as <- <-. split; [eapply ufresh_trans; eauto|]. split.
    + unfold sigma. cbn [apply_to_term]. change (umap (set_out st3 (set_type (u_out st3) v T')) (S s)) with (umap st3 (S s)). rewrite G. auto.
    + intros _ j Hj. unfold vars in Hj; simpl in Hj. destruct Hj as [<-|[]].
      change (umap (set_out st3 (set_type (u_out st3) v T')) (S s)) with (umap st3 (S s)). congruence.
  - injection H as <- <-. split; [apply ufresh_refl|]. split; auto. intros _ j Hj. unfold vars in Hj; simpl in Hj; contradiction.
  - injection H as <- <-. split; [apply ufresh_refl|]. split; auto. intros _ j Hj. unfold vars in Hj; simpl in Hj; contradiction.
  - destruct (uapply n st s f) as [[f' st1]|] eqn:Ef; [|discriminate]. destruct (IH _ _ _ _ _ W Ef) as (F1 & -> & C1).
    pose proof (ufresh_wf _ _ W F1) as W1.
    destruct (uapply n st1 s a) as [[a' st2]|] eqn:Ea; [|discriminate]. destruct (IH _ _ _ _ _ W1 Ea) as (F2 & -> & C2).
    injection H as <- <-. split; [eapply ufresh_trans; eauto|]. split.
    + unfold sigma at 3. cbn [apply_to_term]. fold (sigma st2 s f) (sigma st2 s a). rewrite (KS st1 st2 f); auto.
    + apply cov_app. split; auto. eapply KC; eauto.
  - destruct (uapply n st s A) as [[f' st1]|] eqn:Ef; [|discriminate]. destruct (IH _ _ _ _ _ W Ef) as (F1 & -> & C1).
    pose proof (ufresh_wf _ _ W F1) as W1.
    destruct (uapply n st1 s b) as [[a' st2]|] eqn:Ea; [|discriminate]. destruct (IH _ _ _ _ _ W1 Ea) as (F2 & -> & C2).
    injection H as <- <-. split; [eapply ufresh_trans; eauto|]. split.
    + unfold sigma at 3. cbn [apply_to_term]. fold (sigma st2 s A) (sigma st2 s b). rewrite (KS st1 st2 A); auto.
    + apply cov_bind. split; auto. eapply KC; eauto.
Qed.

(** ** [remap] *)
Lemma vget_map f m i : vget (map (option_map f) m) i = option_map f (vget m i).
Proof. unfold vget. rewrite nth_error_map. destruct (nth_error m i) as [[t|]|]; auto. Qed.
Lemma replace_apply id v t : (forall m, (forall i, vget m i = if Nat.eqb id i then Some v else None) ->
  replace_variable id v t = apply_to_term m t).
Proof.
  intros m H. induction t as [[i|i|s]|f IHf a IHa|k A IHA b IHb]; simpl; auto; try congruence.
  rewrite H, (Nat.eqb_sym id i). destruct (Nat.eqb i id); auto.
Qed.
Lemma apply_replace m id v t : vget m id = Some v -> (forall i, In i (vars t) -> i <> id -> vget m i = None) ->
  apply_to_term m t = replace_variable id v t.
Proof.
  intros Hid H. induction t as [[i|i|s]|f IHf a IHa|k A IHA b IHb]; cbn [apply_to_term replace_variable]; auto.
  - destruct (Nat.eqb_spec i id) as [->|N]; [rewrite Hid; auto|].
    rewrite H by (auto; unfold vars; simpl; auto). auto.
  - rewrite vars_app in H. rewrite IHf, IHa; auto; intros; apply H; auto; apply in_or_app; auto.
  - rewrite vars_bind in H. rewrite IHA, IHb; auto; intros; apply H; auto; apply in_or_app; auto.
Qed.
Lemma has_variable_spec x t : has_variable x t = true <-> In x (vars t).
Proof.
  induction t as [[i|i|s]|f IHf a IHa|k A IHA b IHb]; cbn [has_variable].
  - unfold vars; simpl. rewrite Nat.eqb_eq. intuition.
  - unfold vars; simpl. intuition; discriminate.
  - unfold vars; simpl. intuition; discriminate.
  - rewrite vars_app, orb_true_iff, in_app_iff. tauto.
  - rewrite vars_bind, orb_true_iff, in_app_iff. tauto.
Qed.

Lemma remap_now_spec n st id t st' : uwf st -> lc t -> remap_now n st id t = Some (Some st') -> u_clash st' = false ->
  u_clash st = false /\ uwf st' /\ uref st st' /\ sigma st' 0 (TVar id) = sigma st' 0 t.
Proof.
  intros W L H Hc. unfold remap_now in H. destruct (uapply n st 0 t) as [[t' st1]|] eqn:E; [|discriminate].
  apply uapply_out in E. destruct E as [-> Et]. destruct (has_variable id t') eqn:Hv; [discriminate|].
  injection H as <-. cbn [u_clash] in Hc. apply orb_false_iff in Hc. destruct Hc as [Hc Hid].
  destruct (vget (umap st 0) id) as [|] eqn:Eid; [discriminate|]. clear Hid.
  set (maps := map (map (option_map (replace_variable id t'))) (u_maps st)) in *.
  set (out := ctx_replace id t' (self_reference_fix id t' (u_out st))).
  set (st' := {| u_maps := upd_nth maps 0 (vset (nth 0 maps []) id t'); u_inputs := u_inputs st; u_out := out; u_clash := _ |}).
  assert (Nid : ~ In id (vars t')) by (intros Hi; apply has_variable_spec in Hi; congruence).
  assert (Lm : length maps = length (u_maps st)) by (unfold maps; apply map_length).
  assert (Nm : forall s, nth s maps [] = map (option_map (replace_variable id t')) (umap st s)).
  { intros s. unfold maps, umap. apply (map_nth (map (option_map (replace_variable id t'))) (u_maps st) []). }
  assert (Mg : forall s i, vget (umap st' s) i =
     if Nat.eqb s 0 && Nat.eqb i id then Some t' else option_map (replace_variable id t') (vget (umap st s) i)).
  { intros s i. change (umap st' s) with (nth s (upd_nth maps 0 (vset (nth 0 maps []) id t')) []). rewrite nth_upd, Lm.
    destruct (Nat.ltb_spec 0 (length (u_maps st))); [|pose proof (uw_pos st W); lia]. rewrite andb_true_r, (Nat.eqb_sym 0 s).
    destruct (Nat.eqb_spec s 0) as [->|]; [|rewrite Nm, vget_map; auto].
    rewrite vget_vset, (Nat.eqb_sym id i), Nm, vget_map. simpl. destruct (Nat.eqb i id); auto. }
  assert (U' : forall v, vget (umap st' 0) v = if Nat.eqb v id then Some t' else option_map (replace_variable id t') (vget (umap st 0) v))
    by (intros v; rewrite Mg; auto).
  assert (Ut : forall v, In v (vars t') -> vget (umap st 0) v = None).
  { intros v Hin. rewrite Et in Hin. unfold sigma in Hin. apply apply_vars in Hin.
    destruct Hin as [[_ Hin]|(j & r & _ & Hj & Hr)]; auto. apply (uw_res st W 0 j r); auto. }
  assert (Ut' : forall v, In v (vars t') -> vget (umap st' 0) v = None).
  { intros v Hin. rewrite U', (Ut v Hin). destruct (Nat.eqb_spec v id) as [->|]; auto. contradiction. }
  assert (Rp : forall r, (forall v, In v (vars r) -> vget (umap st 0) v = None) -> sigma st' 0 r = replace_variable id t' r).
  { intros r Hr. unfold sigma. apply apply_replace; [rewrite U', Nat.eqb_refl; auto|].
    intros i Hi Ni. rewrite U', (Hr i Hi). destruct (Nat.eqb_spec i id); [contradiction|auto]. }
  assert (Lt : lc t') by (rewrite Et; apply apply_lc; [apply (uw_lc st W)|exact L]).
  assert (R : uref st st').
  { constructor.
    - unfold st'. cbn [u_maps]. rewrite length_upd. auto.
    - auto.
    - intros s i r Hr. rewrite Mg, Hr. simpl. destruct (Nat.eqb_spec s 0) as [->|]; simpl.
      + destruct (Nat.eqb_spec i id) as [->|]; [congruence|]. rewrite Rp; auto. intros v0 Hv0. apply (uw_res st W 0 i r v0 Hr Hv0).
      + rewrite Rp; auto. intros v0 Hv0. apply (uw_res st W s i r v0 Hr Hv0). }
  split; auto. split; [|split; auto].
  - constructor.
    + rewrite (ur_len _ _ R). apply (uw_pos st W).
    + rewrite (ur_len _ _ R). apply (uw_len st W).
    + intros s i r v Hr Hin. rewrite Mg in Hr. destruct (Nat.eqb s 0 && Nat.eqb i id); [injection Hr as <-; auto|].
      destruct (vget (umap st s) i) as [r0|] eqn:E0; simpl in Hr; [|discriminate]. injection Hr as <-.
      apply replace_variable_vars in Hin. destruct Hin as [[Hin Ni]|Hin]; [|auto].
      rewrite U', (uw_res st W s i r0 v E0 Hin). destruct (Nat.eqb_spec v id); [contradiction|auto].
    + intros s i r Hr. rewrite Mg in Hr. destruct (Nat.eqb s 0 && Nat.eqb i id); [injection Hr as <-; auto|].
      destruct (vget (umap st s) i) as [r0|] eqn:E0; simpl in Hr; [|discriminate]. injection Hr as <-.
      apply replace_variable_lc; auto. apply (uw_lc st W s i r0 E0).
  - rewrite (sigma_out st st' t R), <- Et. unfold sigma at 1. cbn [apply_to_term]. rewrite U', Nat.eqb_refl.
    symmetry. apply apply_unmapped. auto.
Qed.

(** ** clash only goes up *)
Section U.
Context (K : kctx) (ts : tstore).
Notation uni := (unify_internal K ts).
Notation unv := (unify_variable K ts).
Notation rem := (remap K ts).
Notation com := (compatible K ts).

Lemma uapply_clash n : forall st s t t' st', uapply n st s t = Some (t', st') -> u_clash st' = u_clash st.
Proof.
  induction n as [|n IH]; intros st s t t' st' H; cbn [uapply] in H; [discriminate|].
  destruct t as [[i|i|x]|f a|k A b].
  - destruct (vget (umap st s) i) as [r|] eqn:E; [injection H as _ <-; auto|]. destruct s as [|s]; [injection H as _ <-; auto|].
    destruct (ulocal _ (S s)); [|discriminate]. destruct (get_var_type l i); [|discriminate].
    destruct (uapply n _ (S s) t) as [[T' st3]|] eqn:Ea; [|discriminate]. apply IH in Ea. injection H as _ <-. exact Ea.
  - injection H as _ <-; auto.
  - injection H as _ <-; auto.
  - destruct (uapply n st s f) as [[f' st1]|] eqn:Ef; [|discriminate]. destruct (uapply n st1 s a) as [[a' st2]|] eqn:Ea; [|discriminate].
    apply IH in Ef. apply IH in Ea. injection H as _ <-. congruence.
  - destruct (uapply n st s A) as [[f' st1]|] eqn:Ef; [|discriminate]. destruct (uapply n st1 s b) as [[a' st2]|] eqn:Ea; [|discriminate].
    apply IH in Ef. apply IH in Ea. injection H as _ <-. congruence.
Qed.

Definition mono (r : option (option ustate)) (st : ustate) : Prop :=
  forall st', r = Some (Some st') -> u_clash st' = false -> u_clash st = false.
Lemma mono_seq (r : option (option ustate)) (k : ustate -> option (option ustate)) st :
  mono r st -> (forall st1, mono (k st1) st1) ->
  mono (match r with Some (Some st1) => k st1 | Some None => Some None | None => None end) st.
Proof.
  intros H1 H2 st' H Hc. destruct r as [[st1|]|]; try discriminate. apply (H1 st1 eq_refl). apply (H2 st1 st'); auto.
Qed.
Lemma mono_here st : mono (Some (Some st)) st.
Proof. intros st' H. injection H as <-. auto. Qed.
Lemma mono_none st : mono None st. Proof. intros st' H. discriminate. Qed.
Lemma mono_fail st : mono (Some None) st. Proof. intros st' H. discriminate. Qed.
Lemma clash_mono n :
  (forall st s1 t1 s2 t2, mono (uni n st s1 t1 s2 t2) st) /\
  (forall st s i s' t, mono (unv n st s i s' t) st) /\
  (forall st i t, mono (rem n st i t) st) /\
  (forall st s T t, mono (com n st s T t) st).
Proof.
  induction n as [|n (IHu & IHv & IHr & IHc)]; [repeat split; intros; apply mono_none|].
  assert (RN : forall st i t, mono (remap_now n st i t) st).
  { intros st i t st' H Hc. unfold remap_now in H. destruct (uapply n st 0 t) as [[t' st1]|] eqn:E; [|discriminate].
    apply uapply_clash in E. destruct (has_variable i t'); [discriminate|]. injection H as <-. cbn [u_clash] in Hc.
    apply orb_false_iff in Hc. destruct Hc. congruence. }
  split; [|split; [|split]].
  - intros st s1 t1 s2 t2. cbn [unify_internal].
    destruct (atomic_variable t1); [apply IHv|]. destruct (atomic_variable t2); [apply IHv|].
    assert (S2 : forall a b s1 s2 c d, mono (match uni n st s1 a s2 b with Some (Some st1) => uni n st1 s1 c s2 d | r => r end) st).
    { intros. refine (mono_seq _ (fun st1 => uni n st1 _ _ _ _) _ _ _); auto. }
    destruct (split_eq_args t1) as [[[T1 a1] b1]|], (split_eq_args t2) as [[[T2 a2] b2]|].
    + assert (S3 : forall x y, mono (match uni n st s1 T1 s2 T2 with
        | Some (Some st1) => match uni n st1 s1 a1 s2 x with Some (Some st2) => uni n st2 s1 b1 s2 y | r => r end | r => r end) st).
      { intros x y. refine (mono_seq _ (fun st1 => match uni n st1 s1 a1 s2 x with Some (Some st2) => uni n st2 s1 b1 s2 y | r => r end) _ _ _); auto.
        intros st1. refine (mono_seq _ (fun st1 => uni n st1 _ _ _ _) _ _ _); auto. }
      pose proof (S3 a2 b2) as A. pose proof (S3 b2 a2) as B.
      cbv zeta. destruct (match uni n st s1 T1 s2 T2 with
        | Some (Some st1) => match uni n st1 s1 a1 s2 a2 with Some (Some st2) => uni n st2 s1 b1 s2 b2 | r => r end | r => r end) as [[?|]|]; auto.
    + destruct t1 as [a|f1 a|k1 A1 b], t2 as [a'|f2 a'|k2 A2 b']; auto using mono_fail.
      * destruct (atom_eq_dec a a'); [apply mono_here|]. destruct a as [?|?|[]], a' as [?|?|[]]; auto using mono_here, mono_fail.
      * destruct (bkind_eq_dec k1 k2); auto using mono_fail.
    + destruct t1 as [a|f1 a|k1 A1 b], t2 as [a'|f2 a'|k2 A2 b']; auto using mono_fail.
      * destruct (atom_eq_dec a a'); [apply mono_here|]. destruct a as [?|?|[]], a' as [?|?|[]]; auto using mono_here, mono_fail.
      * destruct (bkind_eq_dec k1 k2); auto using mono_fail.
    + destruct t1 as [a|f1 a|k1 A1 b], t2 as [a'|f2 a'|k2 A2 b']; auto using mono_fail.
      * destruct (atom_eq_dec a a'); [apply mono_here|]. destruct a as [?|?|[]], a' as [?|?|[]]; auto using mono_here, mono_fail.
      * destruct (bkind_eq_dec k1 k2); auto using mono_fail.
  - intros st s i s' t. cbn [unify_variable]. destruct s' as [|s'].
    + destruct (vget (umap st s) i); [apply IHu|]. destruct s as [|s].
      * destruct (match atomic_variable t with Some j => Nat.eqb j i | None => false end); [apply mono_here|].
        destruct (has_variable i t); [apply mono_fail|]. destruct (has_escaping_bound_variable t); [apply mono_fail|].
        refine (mono_seq _ (fun st1 => rem n st1 i t) _ _ _); [destruct (get_var_type (u_out st) i); [apply IHc|apply mono_here]|]. intros st1; apply IHr.
      * destruct (ulocal st (S s)); [|apply mono_none]. destruct (get_var_type l i); [|apply mono_none].
        destruct (has_escaping_bound_variable t); [apply mono_fail|]. refine (mono_seq _ (fun st1 => match uapply n st1 0 t with None => None | Some (t', st2) => Some (Some (bind_input st2 (S s) i t')) end) _ _ _); [apply IHc|].
        intros st1 st' H Hc. destruct (uapply n st1 0 t) as [[t' st2]|] eqn:E; [|discriminate]. apply uapply_clash in E.
        injection H as <-. cbn [bind_input u_clash] in Hc. apply orb_false_iff in Hc. destruct Hc. congruence.
    + destruct (uapply n st (S s') t) as [[t' st1]|] eqn:E; [|apply mono_none]. apply uapply_clash in E.
      intros st' H Hc. rewrite <- E. eapply IHv; eauto.
  - intros st i t. cbn [remap]. destruct (atomic_variable t); auto. destruct (Nat.ltb i n0); auto.
  - intros st s T t. cbn [compatible].
    assert (D : mono (match get_type K (u_out st) t with None => None | Some U => uni n st s T 0 U end) st).
    { destruct (get_type K (u_out st) t); [apply IHu|apply mono_none]. }
    destruct T as [[?|?|x]|?|?]; auto. destruct x; auto.
    + destruct (is_type0 t); [apply mono_fail|]. destruct (is_proper_type_expr ts (u_out st) t); auto using mono_here, mono_fail.
    + destruct (get_type K (u_out st) t); [|apply mono_none]. destruct (enforce_typeclass _ _ _ _ _) as [o|]; simpl; [|apply mono_fail].
      intros st' H Hc. injection H as <-. exact Hc.
Qed.

(** ** Unification returns a unifier *)
Record unified (st st' : ustate) (s1 : nat) (t1 : term) (s2 : nat) (t2 : term) : Prop := {
  un_wf : uwf st';
  un_ref : uref st st';
  un_c1 : cov st' s1 t1;
  un_c2 : cov st' s2 t2;
  un_eq : ueq (sigma st' s1 t1) (sigma st' s2 t2)
}.
Lemma unified_sym st st' s1 t1 s2 t2 : unified st st' s1 t1 s2 t2 -> unified st st' s2 t2 s1 t1.
Proof. intros [H1 H2 H3 H4 H5]. constructor; auto. apply ueq_sym; auto. Qed.
Lemma unified_before st st1 st' s1 t1 s2 t2 : uref st st1 -> unified st1 st' s1 t1 s2 t2 -> unified st st' s1 t1 s2 t2.
Proof. intros R [H1 H2 H3 H4 H5]. constructor; auto. eapply uref_trans; eauto. Qed.
Lemma unified_app st st1 st2 s1 f1 a1 s2 f2 a2 : unified st st1 s1 f1 s2 f2 -> unified st1 st2 s1 a1 s2 a2 ->
  unified st st2 s1 (TApp f1 a1) s2 (TApp f2 a2).
Proof.
  intros [H1 H2 H3 H4 H5] [G1 G2 G3 G4 G5]. constructor; auto.
  - eapply uref_trans; eauto.
  - apply cov_app. split; auto. eapply cov_ref; eauto.
  - apply cov_app. split; auto. eapply cov_ref; eauto.
  - apply ue_app; auto. eapply ueq_ref; eauto.
Qed.
Lemma unified_bind k st st1 st2 s1 f1 a1 s2 f2 a2 : unified st st1 s1 f1 s2 f2 -> unified st1 st2 s1 a1 s2 a2 ->
  unified st st2 s1 (TBind k f1 a1) s2 (TBind k f2 a2).
Proof.
  intros [H1 H2 H3 H4 H5] [G1 G2 G3 G4 G5]. constructor; auto.
  - eapply uref_trans; eauto.
  - apply cov_bind. split; auto. eapply cov_ref; eauto.
  - apply cov_bind. split; auto. eapply cov_ref; eauto.
  - apply ue_bind; auto. eapply ueq_ref; eauto.
Qed.
Lemma cov_sym st s x : cov st s (TSym x).
Proof. intros _ i Hi. unfold vars in Hi; simpl in Hi; contradiction. Qed.
Lemma unified_eq st st1 st2 st3 s1 s2 T1 a1 b1 T2 x y : unified st st1 s1 T1 s2 T2 -> unified st1 st2 s1 a1 s2 x ->
  unified st2 st3 s1 b1 s2 y -> unified st st3 s1 (teq T1 a1 b1) s2 (teq T2 x y) /\ unified st st3 s1 (teq T1 a1 b1) s2 (teq T2 y x).
Proof.
  intros [A1 A2 A3 A4 A5] [B1 B2 B3 B4 B5] [C1 C2 C3 C4 C5].
  assert (R : uref st st3) by (eapply uref_trans; [|eauto]; eapply uref_trans; eauto).
  assert (R1 : uref st1 st3) by (eapply uref_trans; eauto).
  pose proof (ueq_ref st1 st3 _ _ _ _ R1 A3 A4 A5) as Q1.
  pose proof (ueq_ref st2 st3 _ _ _ _ C2 B3 B4 B5) as Q2.
  pose proof (cov_ref _ _ _ _ R1 A3) as V1. pose proof (cov_ref _ _ _ _ R1 A4) as V2.
  pose proof (cov_ref _ _ _ _ C2 B3) as V3. pose proof (cov_ref _ _ _ _ C2 B4) as V4.
  assert (CC : forall s T a b, cov st3 s T -> cov st3 s a -> cov st3 s b -> cov st3 s (teq T a b)).
  { intros s T a b HT Ha Hb. unfold teq. rewrite !cov_app. auto using cov_sym. }
  split; constructor; auto.
  - unfold teq, sigma. cbn [apply_to_term]. repeat apply ue_app; auto. apply ue_refl.
  - change (ueq (teq (sigma st3 s1 T1) (sigma st3 s1 a1) (sigma st3 s1 b1)) (teq (sigma st3 s2 T2) (sigma st3 s2 y) (sigma st3 s2 x))).
    apply ue_eq; auto.
Qed.

(** what [compatible] establishes *)
Definition kind_term (T : term) : bool := is_tparam_kind T.
Record compat (st st' : ustate) (s : nat) (T t : term) : Prop := {
  co_wf : uwf st';
  co_ref : uref st st';
  co_ty : is_tparam_kind T = false -> exists U, get_type K (u_out st) t = Some U /\ unified st st' s T 0 U
}.

Lemma unify_spec n :
  (forall st s1 t1 s2 t2 st', uwf st -> uni n st s1 t1 s2 t2 = Some (Some st') -> u_clash st' = false -> unified st st' s1 t1 s2 t2) /\
  (forall st s i s' t st', uwf st -> unv n st s i s' t = Some (Some st') -> u_clash st' = false -> unified st st' s (TVar i) s' t) /\
  (forall st i t st', uwf st -> lc t -> rem n st i t = Some (Some st') -> u_clash st' = false -> unified st st' 0 (TVar i) 0 t) /\
  (forall st s T t st', uwf st -> com n st s T t = Some (Some st') -> u_clash st' = false -> compat st st' s T t).
Proof.
  induction n as [|n (IHu & IHv & IHr & IHc)]; [repeat split; intros; discriminate|].
  destruct (clash_mono n) as (Mu & Mv & Mr & Mc).
  assert (Two : forall st s1 a s2 b c d st', uwf st ->
    match uni n st s1 a s2 b with Some (Some st1) => uni n st1 s1 c s2 d | r => r end = Some (Some st') -> u_clash st' = false ->
    exists st1, unified st st1 s1 a s2 b /\ unified st1 st' s1 c s2 d).
  { intros st s1 a s2 b c d st' W H Hc. destruct (uni n st s1 a s2 b) as [[st1|]|] eqn:E; [|discriminate|discriminate].
    assert (C1 : u_clash st1 = false) by (eapply (Mu st1); eauto).
    pose proof (IHu _ _ _ _ _ _ W E C1) as U1. exists st1. split; auto. apply (IHu _ _ _ _ _ _ (un_wf _ _ _ _ _ _ U1) H Hc). }
  assert (Refl : forall st s1 x s2, uwf st -> (forall i, x <> FreeVar i) -> unified st st s1 (TAtom x) s2 (TAtom x)).
  { intros st s1 x s2 W Hx. constructor; auto using uref_refl.
    - intros _ j Hj. destruct x; unfold vars in Hj; simpl in Hj; try contradiction. exfalso; eapply Hx; eauto.
    - intros _ j Hj. destruct x; unfold vars in Hj; simpl in Hj; try contradiction. exfalso; eapply Hx; eauto.
    - unfold sigma. destruct x; [exfalso; eapply Hx; eauto| |]; apply ue_refl. }
  assert (Struct : forall st s1 t1 s2 t2 st', uwf st -> atomic_variable t1 = None -> atomic_variable t2 = None ->
    match t1, t2 with
        | TAtom a, TAtom b =>
          Some (if atom_eq_dec a b then Some st else
                match a, b with
                | Sym (STypeclass _ _), Sym SType0 | Sym SType0, Sym (STypeclass _ _) => Some st
                | _, _ => None
                end)
        | TApp f1 a1, TApp f2 a2 =>
          match uni n st s1 f1 s2 f2 with
          | Some (Some st1) => uni n st1 s1 a1 s2 a2
          | r => r
          end
        | TBind k1 A1 b1, TBind k2 A2 b2 =>
          if bkind_eq_dec k1 k2 then
            match uni n st s1 A1 s2 A2 with
            | Some (Some st1) => uni n st1 s1 b1 s2 b2
            | r => r
            end
          else Some None
        | _, _ => Some None
        end = Some (Some st') -> u_clash st' = false -> unified st st' s1 t1 s2 t2).
  { intros st s1 t1 s2 t2 st' W V1 V2 H Hc. destruct t1 as [a|f1 a|k1 A1 b], t2 as [a'|f2 a'|k2 A2 b']; try discriminate.
    - destruct (atom_eq_dec a a') as [<-|Ne].
      + injection H as <-. apply Refl; auto. intros i ->. discriminate.
      + destruct a as [?|?|x], a' as [?|?|y]; try discriminate; destruct x; try discriminate; destruct y; try discriminate;
          injection H as <-; (constructor; [auto|apply uref_refl; auto|apply cov_sym|apply cov_sym|constructor]).
    - destruct (Two _ _ _ _ _ _ _ _ W H Hc) as (st1 & U1 & U2). eapply unified_app; eauto.
    - destruct (bkind_eq_dec k1 k2) as [<-|]; [|discriminate].
      destruct (Two _ _ _ _ _ _ _ _ W H Hc) as (st1 & U1 & U2). eapply unified_bind; eauto. }
  split; [|split; [|split]].
  - intros st s1 t1 s2 t2 st' W H Hc. cbn [unify_internal] in H.
    destruct (atomic_variable t1) as [i|] eqn:V1.
    { destruct t1 as [[j|?|?]|?|?]; try discriminate. injection V1 as ->. apply (IHv _ _ _ _ _ _ W H Hc). }
    destruct (atomic_variable t2) as [i|] eqn:V2.
    { destruct t2 as [[j|?|?]|?|?]; try discriminate. injection V2 as ->. apply unified_sym, (IHv _ _ _ _ _ _ W H Hc). }
    destruct (split_eq_args t1) as [[[T1 a1] b1]|] eqn:E1; [|eapply Struct; eauto].
    destruct (split_eq_args t2) as [[[T2 a2] b2]|] eqn:E2; [|eapply Struct; eauto].
    apply split_eq_args_some in E1. apply split_eq_args_some in E2. subst t1 t2.
    assert (Three : forall x y, match uni n st s1 T1 s2 T2 with
        | Some (Some st1) => match uni n st1 s1 a1 s2 x with Some (Some st2) => uni n st2 s1 b1 s2 y | r => r end | r => r end = Some (Some st') ->
        unified st st' s1 (teq T1 a1 b1) s2 (teq T2 x y) /\ unified st st' s1 (teq T1 a1 b1) s2 (teq T2 y x)).
    { intros x y H3. destruct (uni n st s1 T1 s2 T2) as [[st1|]|] eqn:E; [|discriminate|discriminate].
      assert (C1 : u_clash st1 = false).
      { destruct (uni n st1 s1 a1 s2 x) as [[st2|]|] eqn:E'; [|discriminate|discriminate].
        eapply (Mu st1); eauto. eapply (Mu st2); eauto. }
      pose proof (IHu _ _ _ _ _ _ W E C1) as U1. destruct (Two _ _ _ _ _ _ _ _ (un_wf _ _ _ _ _ _ U1) H3 Hc) as (st2 & U2 & U3).
      eapply unified_eq; eauto. }
    cbv zeta in H. destruct (match uni n st s1 T1 s2 T2 with
        | Some (Some st1) => match uni n st1 s1 a1 s2 a2 with Some (Some st2) => uni n st2 s1 b1 s2 b2 | r => r end | r => r end) as [[?|]|] eqn:ED.
    + injection H as ->. apply (Three a2 b2 ED).
    + apply (Three b2 a2 H).
    + discriminate.
  - intros st s i s' t st' W H Hc. cbn [unify_variable] in H. destruct s' as [|s'].
    + destruct (vget (umap st s) i) as [e|] eqn:Ei.
      { pose proof (IHu _ _ _ _ _ _ W H Hc) as [H1 H2 H3 H4 H5]. constructor; auto.
        - intros _ j Hj. unfold vars in Hj; simpl in Hj. destruct Hj as [<-|[]]. rewrite (ur_map _ _ H2 s i e Ei). discriminate.
        - unfold sigma at 1. cbn [apply_to_term]. rewrite (ur_map _ _ H2 s i e Ei). auto. }
      destruct s as [|s].
      * destruct (match atomic_variable t with Some j => Nat.eqb j i | None => false end) eqn:Ev.
        { injection H as <-. destruct t as [[j|?|?]|?|?]; try discriminate. simpl in Ev. apply Nat.eqb_eq in Ev. subst j.
          constructor; auto using uref_refl; try (intros N; congruence). apply ue_refl. }
        destruct (has_variable i t); [discriminate|]. destruct (has_escaping_bound_variable t) eqn:L; [discriminate|].
        destruct (get_var_type (u_out st) i) as [T|].
        { change (match com n st 0 T t with Some (Some st1) => rem n st1 i t | r => r end = Some (Some st')) in H.
          destruct (com n st 0 T t) as [[st1|]|] eqn:Ec; [|discriminate H|discriminate H].
          assert (C1 : u_clash st1 = false) by (eapply (Mr st1); eauto). destruct (IHc _ _ _ _ _ W Ec C1) as [W1 R1 _].
          eapply unified_before; eauto. }
        { eauto. }
      * destruct (ulocal st (S s)) as [c|] eqn:El; [|discriminate]. destruct (get_var_type c i) as [T|]; [|discriminate].
        destruct (has_escaping_bound_variable t) eqn:L; [discriminate|].
        change (match com n st (S s) T t with Some (Some st1) =>
                  match uapply n st1 0 t with None => None | Some (t', st2) => Some (Some (bind_input st2 (S s) i t')) end
                | r => r end = Some (Some st')) in H.
        destruct (com n st (S s) T t) as [[st1|]|] eqn:Ec; [|discriminate|discriminate].
        destruct (uapply n st1 0 t) as [[t' st2]|] eqn:Ea; [|discriminate]. apply uapply_out in Ea. destruct Ea as [-> ->].
        injection H as <-. cbn [bind_input u_clash] in Hc. apply orb_false_iff in Hc. destruct Hc as [C1 Hi].
        destruct (vget (umap st1 (S s)) i) as [|] eqn:Ei1; [discriminate|]. clear Hi.
        destruct (IHc _ _ _ _ _ W Ec C1) as [W1 R1 _].
        assert (Hs : S s < length (u_maps st1)).
        { rewrite (ur_len _ _ R1). unfold ulocal in El. destruct (nth_error (u_inputs st) (S s)) as [[?|]|] eqn:En; try discriminate.
          rewrite <- (uw_len st W). apply nth_error_Some. congruence. }
        assert (Vr : forall v, In v (vars (sigma st1 0 t)) -> vget (umap st1 0) v = None).
        { intros v Hin. unfold sigma in Hin. apply apply_vars in Hin.
          destruct Hin as [[_ Hin]|(j & r & _ & Hj & Hr)]; auto. apply (uw_res st1 W1 0 j r v); auto. }
        set (st' := bind_input st1 (S s) i (sigma st1 0 t)).
        assert (Mg : forall z j, vget (umap st' z) j = if Nat.eqb (S s) z && Nat.eqb i j then Some (sigma st1 0 t) else vget (umap st1 z) j).
        { intros z j. change (umap st' z) with (nth z (upd_nth (u_maps st1) (S s) (vset (umap st1 (S s)) i (sigma st1 0 t))) []). rewrite nth_upd.
          destruct (Nat.ltb_spec (S s) (length (u_maps st1))); [|lia]. rewrite andb_true_r.
          destruct (Nat.eqb_spec (S s) z) as [<-|]; auto. rewrite vget_vset. auto. }
        assert (M0 : forall x, sigma st' 0 x = sigma st1 0 x) by (intros x; apply apply_agree; intros j _; rewrite Mg; auto).
        assert (R2 : uref st1 st').
        { constructor; auto.
          - unfold st', bind_input. cbn [u_maps]. apply length_upd.
          - intros z j r Hr. rewrite Mg, M0, (sigma_resolved st1 z j r W1 Hr).
            destruct (Nat.eqb_spec (S s) z) as [<-|]; simpl; auto. destruct (Nat.eqb_spec i j) as [<-|]; auto. congruence. }
        assert (W2 : uwf st').
        { constructor.
          - rewrite (ur_len _ _ R2). apply (uw_pos st1 W1).
          - rewrite (ur_len _ _ R2). apply (uw_len st1 W1).
          - intros z j r v Hr Hin. rewrite Mg. simpl. rewrite Mg in Hr. destruct (Nat.eqb (S s) z && Nat.eqb i j).
            + injection Hr as <-. auto.
            + apply (uw_res st1 W1 z j r v Hr Hin).
          - intros z j r Hr. rewrite Mg in Hr. destruct (Nat.eqb (S s) z && Nat.eqb i j).
            + injection Hr as <-. apply apply_lc; [apply (uw_lc st1 W1)|exact L].
            + apply (uw_lc st1 W1 z j r Hr). }
        constructor; auto.
        -- eapply uref_trans; eauto.
        -- intros _ j Hj. unfold vars in Hj; simpl in Hj. destruct Hj as [<-|[]]. rewrite Mg, !Nat.eqb_refl. discriminate.
        -- intros N. congruence.
        -- rewrite M0. unfold sigma at 1. cbn [apply_to_term]. rewrite Mg, !Nat.eqb_refl. apply ue_refl.
    + destruct (uapply n st (S s') t) as [[t' st1]|] eqn:E; [|discriminate].
      destruct (uapply_fresh _ _ _ _ _ _ W E) as (F & Et & Cv). pose proof (ufresh_wf _ _ W F) as W1.
      pose proof (ufresh_ref _ _ W F) as R1. pose proof (IHv _ _ _ _ _ _ W1 H Hc) as [H1 H2 H3 H4 H5]. constructor; auto.
      * eapply uref_trans; eauto.
      * eapply cov_ref; eauto.
      * rewrite (sigma_ref st1 st' (S s') t) by auto. rewrite <- Et. auto.
  - intros st i t st' W L H Hc. cbn [remap] in H.
    assert (Now : remap_now n st i t = Some (Some st') -> unified st st' 0 (TVar i) 0 t).
    { intros E. destruct (remap_now_spec _ _ _ _ _ W L E Hc) as (_ & W' & R' & Q).
      constructor; auto; try (intros N; congruence). rewrite Q. apply ue_refl. }
    destruct (atomic_variable t) as [j|] eqn:Ev; auto. destruct (Nat.ltb i j); auto.
    destruct t as [[j'|?|?]|?|?]; try discriminate. injection Ev as ->. apply unified_sym. eauto.
  - intros st s T t st' W H Hc. cbn [compatible] in H.
    assert (D : match get_type K (u_out st) t with None => None | Some U => uni n st s T 0 U end = Some (Some st') -> compat st st' s T t).
    { intros E. destruct (get_type K (u_out st) t) as [U|] eqn:ET; [|discriminate].
      pose proof (IHu _ _ _ _ _ _ W E Hc) as U1. constructor; [apply U1|apply U1|]. intros _. exists U. auto. }
    destruct T as [[?|?|x]|?|?]; auto. destruct x; auto.
    + destruct (is_type0 t); [discriminate|]. destruct (is_proper_type_expr ts (u_out st) t); [|discriminate]. injection H as <-.
      constructor; auto using uref_refl. cbn; intros N; discriminate.
    + destruct (get_type K (u_out st) t); [|discriminate]. destruct (enforce_typeclass _ _ _ _ _) as [o|]; simpl in H; [|discriminate].
      injection H as <-. constructor; [destruct W; constructor; auto|destruct (uref_refl st W); constructor; auto|cbn; intros N; discriminate].
Qed.
End U.
