(** Unification of monomorphic terms: it never touches a type, so every variable gets a value of its type. *)
From Coq Require Import List Arith NArith Bool Lia.
Import ListNotations.
From Verif Require Import VariableMap Unifier Inference ClauseSet EqualityGraph Checker.
From Verif Require Import Term LocalContext Semantics TermProofs SemFacts TermNorm TermNormProofs Typing TypingProofs Literal Clause ClauseSem RenumberProofs ClauseProofs ClauseWf InferenceProofs
  VariableMapProofs UnifierProofs P_EqualityInferences CheckerProofs CheckerSem P_TermNorm P_Checker Monomorphic MonoProofs MonoNorm MonoReduce.

Lemma replace_closed id r t : vars t = [] -> replace_variable id r t = t.
Proof.
  induction t as [[i|i|s]|f IHf a IHa|k A IHA b IHb]; simpl; auto.
  - discriminate.
  - rewrite vars_app. intros H. apply app_eq_nil in H. rewrite IHf, IHa; tauto.
  - rewrite vars_bind. intros H. apply app_eq_nil in H. rewrite IHA, IHb; tauto.
Qed.
Lemma has_variable_closed id t : vars t = [] -> has_variable id t = false.
Proof. intros H. destruct (has_variable id t) eqn:E; auto. apply has_variable_spec in E. rewrite H in E. destruct E. Qed.
Lemma uapply_closed n : forall st s t t' st', vars t = [] -> uapply n st s t = Some (t', st') -> t' = t /\ st' = st.
Proof.
  induction n as [|n IH]; intros st s t t' st' V H; cbn [uapply] in H; [discriminate|].
  destruct t as [[i|i|x]|f a|k A b].
  - discriminate.
  - injection H as <- <-. auto.
  - injection H as <- <-. auto.
  - rewrite vars_app in V. apply app_eq_nil in V. destruct V as [V1 V2].
    destruct (uapply n st s f) as [[f' st1]|] eqn:E1; [|discriminate]. apply IH in E1; auto. destruct E1 as [-> ->].
    destruct (uapply n st s a) as [[a' st2]|] eqn:E2; [|discriminate]. apply IH in E2; auto. destruct E2 as [-> ->]. injection H as <- <-. auto.
  - rewrite vars_bind in V. apply app_eq_nil in V. destruct V as [V1 V2].
    destruct (uapply n st s A) as [[f' st1]|] eqn:E1; [|discriminate]. apply IH in E1; auto. destruct E1 as [-> ->].
    destruct (uapply n st s b) as [[a' st2]|] eqn:E2; [|discriminate]. apply IH in E2; auto. destruct E2 as [-> ->]. injection H as <- <-. auto.
Qed.
Lemma length_vset m : forall i t, length m <= length (vset m i t).
Proof. induction m as [|x m IH]; intros [|i] t; simpl; try lia. specialize (IH i t). lia. Qed.

Section MU.
Context (M : Model) (K : kctx) (ts : tstore) (CT : closed_types K).
Notation et := (element_type M).
Notation ht := (has_type M K).
Notation ml := (mono_literal M K).
Notation mt := (mono_typed M K).
Notation mo := (mono M K).
Notation uni := (unify_internal K ts).
Notation unv := (unify_variable K ts).
Notation rem := (Unifier.remap K ts).
Notation com := (compatible K ts).

Lemma mc_of G : (forall i T, get_var_type G i = Some T -> et T) -> mono_context M G.
Proof. intros H i T E. apply (H i). unfold get_var_type. rewrite E. auto. Qed.

(** A type without variables unifies only with itself. *)
Lemma uni_ground n : forall st s1 t1 s2 t2 st', ground_type t1 = true -> vars t2 = [] -> uni n st s1 t1 s2 t2 = Some (Some st') -> t1 = t2 /\ st' = st.
Proof.
  induction n as [|n IH]; intros st s1 t1 s2 t2 st' G V H; cbn [unify_internal] in H; [discriminate|].
  assert (E1 : split_eq_args t1 = None).
  { destruct (split_eq_args t1) as [[[T a] b]|] eqn:E; auto. apply split_eq_args_some in E. subst t1. discriminate. }
  rewrite E1 in H. destruct t1 as [[i|i|x]|f a|k A b]; try discriminate; cbn [atomic_variable] in H;
  destruct t2 as [[j|j|y]|f' a'|k' A' b']; try discriminate; cbn [atomic_variable] in H; try (destruct (split_eq_args _); discriminate).
  - destruct x; discriminate.
  - destruct (atom_eq_dec (Sym x) (Sym y)) as [E|]; [injection E as ->; destruct (split_eq_args _); injection H as <-; auto|]. destruct x; try discriminate.
  - simpl in G. apply andb_prop in G. destruct G as [G1 G2]. rewrite vars_app in V. apply app_eq_nil in V. destruct V as [V1 V2].
    destruct (uni n st s1 f s2 f') as [[st1|]|] eqn:E; try discriminate. apply IH in E; auto. destruct E as [-> ->].
    apply IH in H; auto. destruct H as [-> ->]. auto.
  - simpl in G. destruct k; try discriminate. apply andb_prop in G. destruct G as [G1 G2]. rewrite vars_bind in V. apply app_eq_nil in V. destruct V as [V1 V2].
    destruct (bkind_eq_dec KPi k') as [<-|]; [|discriminate].
    destruct (uni n st s1 A s2 A') as [[st1|]|] eqn:E; try discriminate. apply IH in E; auto. destruct E as [-> ->].
    apply IH in H; auto. destruct H as [-> ->]. auto.
Qed.

(** The polymorphic connectives may be heads. *)
Definition hq (G : lctx) (bs : list term) (t T : term) : Prop :=
  ht G bs t T \/ (t = TSym SEq /\ T = symbol_type K SEq) \/ (t = TSym SIte /\ T = symbol_type K SIte).
Lemma hq_app G bs f a T : hq G bs (TApp f a) T ->
  (exists A, hq G bs f (TBind KPi A T) /\ et A /\ ht G bs a A) \/
  (exists k B, hq G bs f (TBind KPi k B) /\ is_type_param_kind k = true /\ ground_type a = true /\ open_bound B a = Some T).
Proof.
  intros [H|[[E _]|[E _]]]; try discriminate. inversion H; subst.
  - right. do 2 eexists. split; [right; left; split; reflexivity|]. split; [reflexivity|]. split; [apply et_ground with M; auto|].
    rewrite open_bound_spec. simpl. rewrite !shift_up_lc by (apply (et_lc M _ 0); auto). reflexivity.
  - right. do 2 eexists. split; [right; right; split; reflexivity|]. split; [reflexivity|]. split; [apply et_ground with M; auto|].
    rewrite open_bound_spec. simpl. rewrite !shift_up_lc by (apply (et_lc M _ 0); auto). reflexivity.
  - left. exists A. split; [left; auto|]. auto.
  - right. exists k, B. split; [left; auto|]. match goal with [X : type_arg _ _ _ |- _] => destruct X as (X1 & X2 & _) end. auto.
Qed.
Lemma hq_closed G bs t T : hq G bs t T -> closed_ty T.
Proof. intros [H|[[-> ->]|[-> ->]]]; [eapply ht_closed; eauto| |]; apply CT. Qed.
Lemma hq_lc G bs t T : hq G bs t T -> lc_at (length bs) t.
Proof. intros [H|[[-> ->]|[-> ->]]]; [eapply ht_lc; eauto| |]; reflexivity. Qed.
Lemma ht_nobs G bs t T : ht G bs t T -> lc t -> ht G [] t T.
Proof. intros H L. apply (ht_unshift M K G t [] bs [] T). simpl. rewrite app_nil_r, shift_up_lc by exact L. exact H. Qed.
Lemma ht_anybs G bs t T : ht G [] t T -> ht G bs t T.
Proof. intros H. eapply ht_bs; eauto. intros [|i] U; discriminate. Qed.
Lemma hq_nobs G bs t T : hq G bs t T -> lc t -> hq G [] t T.
Proof. intros [H|H] L; [left; eapply ht_nobs; eauto|right; auto]. Qed.
Lemma hq_type G t T : hq G [] t T -> get_type K G t = Some T.
Proof. intros [H|[[-> ->]|[-> ->]]]; [apply (ht_type M K CT); auto| |]; reflexivity. Qed.
Lemma hq_weaken G G' bs t T : hq G bs t T -> (forall i T, get_var_type G i = Some T -> get_var_type G' i = Some T) -> hq G' bs t T.
Proof. intros [H|H] E; [left; eapply ht_weaken; eauto|right; auto]. Qed.
Lemma hq_ground G bs t T : hq G bs t T -> ground_type T = true -> ht G bs t T.
Proof. intros [H|[[-> ->]|[-> ->]]]; auto; discriminate. Qed.

(** ** The invariant of the state *)
Definition vty (st : ustate) (s i : nat) (T : term) : Prop := exists c, ulocal st s = Some c /\ get_var_type c i = Some T.
Record ust (st : ustate) : Prop := {
  us_pos : 0 < length (u_maps st);
  us_len : length (u_inputs st) = length (u_maps st);
  us_in : forall s c, ulocal st s = Some c -> mono_context M c;
  us_map : forall s i r, vget (umap st s) i = Some r -> exists T, vty st s i T /\ ht (u_out st) [] r T;
  us_fresh : forall i, length (umap st 0) <= i -> get_var_type (u_out st) i = None;
  us_clash : u_clash st = false
}.
Record ext (st st' : ustate) : Prop := {
  ex_in : u_inputs st' = u_inputs st;
  ex_out : forall i T, get_var_type (u_out st) i = Some T -> get_var_type (u_out st') i = Some T
}.
Lemma ext_refl st : ext st st. Proof. constructor; auto. Qed.
Lemma ext_trans a b c : ext a b -> ext b c -> ext a c.
Proof. intros [A1 A2] [B1 B2]. constructor; [congruence|auto]. Qed.
Lemma vty_et st s i T : ust st -> vty st s i T -> et T.
Proof. intros U (c & H & E). eapply mc_get; [|eauto]. eapply us_in; eauto. Qed.
Lemma vty_unique st s i T U : vty st s i T -> vty st s i U -> T = U.
Proof. intros (c & H & E) (c' & H' & E'). congruence. Qed.
Lemma ulocal_ext st st' s c : ext st st' -> ulocal st s = Some c -> exists c', ulocal st' s = Some c' /\ forall i T, get_var_type c i = Some T -> get_var_type c' i = Some T.
Proof.
  intros [E1 E2] H. destruct s as [|s]; simpl in *.
  - injection H as <-. eauto.
  - rewrite E1. exists c. auto.
Qed.
Lemma vty_ext st st' s i T : ext st st' -> vty st s i T -> vty st' s i T.
Proof. intros E (c & H & G). destruct (ulocal_ext _ _ _ _ E H) as (c' & H' & X). exists c'. auto. Qed.

Definition hs (st : ustate) (s : nat) (bs : list term) (t T : term) : Prop := exists c, ulocal st s = Some c /\ hq c bs t T.
Lemma hs_ext st st' s bs t T : ext st st' -> hs st s bs t T -> hs st' s bs t T.
Proof. intros E (c & H & G). destruct (ulocal_ext _ _ _ _ E H) as (c' & H' & X). exists c'. split; auto. eapply hq_weaken; eauto. Qed.
Lemma hs_app st s bs f a T : hs st s bs (TApp f a) T ->
  (exists A, hs st s bs f (TBind KPi A T) /\ et A /\ hs st s bs a A) \/
  (exists k B, hs st s bs f (TBind KPi k B) /\ is_type_param_kind k = true /\ ground_type a = true /\ open_bound B a = Some T).
Proof.
  intros (c & H & G). apply hq_app in G. destruct G as [(A & G1 & G2 & G3)|(k & B & G1 & G2 & G3)].
  - left. exists A. split; [exists c; auto|]. split; auto. exists c. split; auto. left; auto.
  - right. exists k, B. split; [exists c; auto|auto].
Qed.
Lemma hs_bind st s bs k A b T : hs st s bs (TBind k A b) T ->
  exists B, et A /\ hs st s (A :: bs) b B /\ T = (match k with KLam => tarrow A B | _ => tbool end) /\ (k <> KLam -> B = tbool).
Proof.
  intros (c & H & G). destruct G as [G|[[G _]|[G _]]]; try discriminate. inversion G; subst.
  - exists B. split; auto. split; [exists c; split; auto; left; auto|]. split; auto. congruence.
  - exists tbool. split; auto. split; [exists c; split; auto; left; auto|]. split; auto. destruct H4 as [-> | ->]; auto.
Qed.
Lemma hs_var st s bs i T : hs st s bs (TVar i) T -> vty st s i T.
Proof. intros (c & H & G). destruct G as [G|[[G _]|[G _]]]; try discriminate. inversion G; subst. exists c. auto. Qed.
Lemma hs_lc st s bs t T : hs st s bs t T -> lc_at (length bs) t.
Proof. intros (c & _ & G). eapply hq_lc; eauto. Qed.

(** ** [apply] *)
Lemma umap_fresh st : 0 < length (u_maps st) -> forall s i, vget (umap (set_umap st 0 (umap st 0 ++ [None])) s) i = vget (umap st s) i.
Proof.
  intros P s i. rewrite umap_set by auto. destruct (Nat.eqb_spec 0 s) as [<-|]; auto. apply vget_app_none.
Qed.
Lemma uapply_typed n : forall st s t t' st' bs T c, ust st -> ulocal st s = Some c -> ht c bs t T -> uapply n st s t = Some (t', st') ->
  ust st' /\ ext st st' /\ ht (u_out st') bs t' T.
Proof.
  induction n as [|n IH]; intros st s t t' st' bs T c U Hc Ht H; cbn [uapply] in H; [discriminate|].
  destruct t as [[i|i|x]|f a|k A b].
  - assert (Hv : vty st s i T) by (inversion Ht; subst; exists c; auto). pose proof (vty_et _ _ _ _ U Hv) as HT.
    destruct (vget (umap st s) i) as [r|] eqn:Ei.
    { injection H as <- <-. rewrite Ei. destruct (us_map _ U _ _ _ Ei) as (T' & H1 & H2). rewrite (vty_unique _ _ _ _ _ Hv H1).
      split; auto. split; [apply ext_refl|]. apply ht_anybs. auto. }
    destruct s as [|s].
    { injection H as <- <-. rewrite Ei. split; auto. split; [apply ext_refl|]. simpl in Hc. injection Hc as <-. auto. }
    set (v := length (umap st 0)) in *. set (st1 := set_umap st 0 (umap st 0 ++ [None])) in *.
    set (st2 := set_umap st1 (S s) (vset (umap st1 (S s)) i (TVar v))) in *.
    assert (Ls : S s < length (u_maps st)).
    { simpl in Hc. rewrite <- (us_len _ U). apply nth_error_Some. destruct (u_inputs st) as [|x l]; [discriminate|]. simpl. destruct (nth_error l s); congruence. }
    assert (L1 : length (u_maps st1) = length (u_maps st)) by apply length_upd.
    assert (Hg : get_var_type c i = Some T) by (destruct Hv as (c' & Hc' & Hg); congruence).
    change (ulocal st2 (S s)) with (ulocal st (S s)) in H. rewrite Hc, Hg in H.
    destruct (uapply n st2 (S s) T) as [[T' st3]|] eqn:E; [|discriminate]. apply uapply_closed in E; [|apply (et_vars M); auto]. destruct E as [-> ->].
    injection H as <- <-. change (umap (set_out st2 (set_type (u_out st2) v T)) (S s)) with (umap st2 (S s)).
    assert (M2 : forall z, umap st2 z = if Nat.eqb (S s) z then vset (umap st1 (S s)) i (TVar v) else umap st1 z).
    { intros z. unfold st2. rewrite umap_set by lia. auto. }
    assert (Ev : vget (umap st2 (S s)) i = Some (TVar v)) by (rewrite M2, Nat.eqb_refl, vget_vset, Nat.eqb_refl; auto).
    match goal with |- context[vget ?m i] => change (vget m i) with (vget (umap st2 (S s)) i) end. rewrite Ev.
    assert (Nv : get_var_type (u_out st) v = None) by (apply (us_fresh _ U); unfold v; lia).
    assert (Ex : ext st (set_out st2 (set_type (u_out st2) v T))).
    { constructor; [reflexivity|]. intros j W. cbn [set_out u_out st2 st1 set_umap]. rewrite get_var_set_type. destruct (Nat.eqb_spec v j) as [<-|]; congruence. }
    assert (Gv : get_var_type (u_out (set_out st2 (set_type (u_out st2) v T))) v = Some T).
    { cbn [set_out u_out]. rewrite get_var_set_type, Nat.eqb_refl. auto. }
    split; [|split; [exact Ex|]].
    + constructor.
      * cbn [set_out u_maps st2]. unfold st2, set_umap at 1. cbn [u_maps]. rewrite length_upd. lia.
      * cbn [set_out u_maps st2 u_inputs]. unfold st2 at 2, set_umap at 1. cbn [u_maps]. rewrite length_upd, L1. apply (us_len _ U).
      * intros z d Hz. apply mc_of. intros j W Hj. destruct z as [|z].
        -- simpl in Hz. injection Hz as <-. rewrite get_var_set_type in Hj. destruct (Nat.eqb v j); [congruence|]. apply (vty_et st 0 j); [exact U|]. exists (u_out st). split; [reflexivity|exact Hj].
        -- apply (vty_et st (S z) j); [exact U|]. exists d. split; [exact Hz|exact Hj].
      * intros z j r Hz. change (vget (umap st2 z) j = Some r) in Hz. rewrite M2 in Hz. destruct (Nat.eqb_spec (S s) z) as [<-|Nz].
        -- rewrite vget_vset in Hz. destruct (Nat.eqb_spec i j) as [<-|].
           ++ injection Hz as <-. exists T. split; [eapply vty_ext; [exact Ex|]; exists c; auto|]. apply ht_var; auto.
           ++ unfold st1 in Hz. rewrite umap_fresh in Hz by apply (us_pos _ U). destruct (us_map _ U _ _ _ Hz) as (W & W1 & W2).
              exists W. split; [eapply vty_ext; eauto|]. eapply ht_weaken; [exact W2|]. intros. apply (ex_out _ _ Ex). auto.
        -- unfold st1 in Hz. rewrite umap_fresh in Hz by apply (us_pos _ U). destruct (us_map _ U _ _ _ Hz) as (W & W1 & W2).
           exists W. split; [eapply vty_ext; eauto|]. eapply ht_weaken; [exact W2|]. intros. apply (ex_out _ _ Ex). auto.
      * intros j Hj. change (length (umap st2 0) <= j) in Hj. rewrite M2 in Hj. cbn [Nat.eqb] in Hj. unfold st1 in Hj. rewrite umap_set in Hj by apply (us_pos _ U). cbn [Nat.eqb] in Hj. rewrite app_length in Hj. simpl in Hj.
        cbn [set_out u_out]. rewrite get_var_set_type. destruct (Nat.eqb_spec v j) as [<-|]; [unfold v in Hj; lia|]. apply (us_fresh _ U). lia.
      * apply (us_clash _ U).
    + apply ht_var; auto.
  - injection H as <- <-. split; auto. split; [apply ext_refl|]. inversion Ht; subst. apply ht_bound; auto.
  - injection H as <- <-. split; auto. split; [apply ext_refl|]. inversion Ht; subst. apply ht_sym; auto.
  - destruct (uapply n st s f) as [[f' st1]|] eqn:E1; [|discriminate]. destruct (uapply n st1 s a) as [[a' st2]|] eqn:E2; [|discriminate]. injection H as <- <-.
    assert (Gr : forall W, ground_type W = true -> uapply n st1 s W = Some (a', st2) -> a' = W /\ st2 = st1).
    { intros W G EW. apply uapply_closed in EW; auto. apply ground_vars; auto. }
    inversion Ht; subst.
    + apply uapply_closed in E1; [|reflexivity]. destruct E1 as [-> ->]. destruct (Gr a) as [-> ->]; auto; [eapply et_ground; eauto|].
      split; auto. split; [apply ext_refl|]. apply ht_eq; auto.
    + apply uapply_closed in E1; [|reflexivity]. destruct E1 as [-> ->]. destruct (Gr a) as [-> ->]; auto; [eapply et_ground; eauto|].
      split; auto. split; [apply ext_refl|]. apply ht_ite; auto.
    + destruct (IH _ _ _ _ _ _ _ _ U Hc H1 E1) as (U1 & X1 & Q1).
      destruct (ulocal_ext _ _ _ _ X1 Hc) as (c' & Hc' & Xc).
      destruct (IH st1 s a a' st2 bs A c' U1 Hc') as (U2 & X2 & Q2); auto. { eapply ht_weaken; eauto. }
      split; auto. split; [eapply ext_trans; eauto|]. eapply ht_app with A; auto. eapply ht_weaken; [exact Q1|]. intros. apply (ex_out _ _ X2); auto.
    + destruct (IH _ _ _ _ _ _ _ _ U Hc H1 E1) as (U1 & X1 & Q1). destruct (Gr a) as [-> ->]; auto; [match goal with [X : type_arg _ _ _ |- _] => apply X end|]. split; auto. split; auto.
      eapply ht_inst; eauto.
  - destruct (uapply n st s A) as [[A' st1]|] eqn:E1; [|discriminate]. destruct (uapply n st1 s b) as [[b' st2]|] eqn:E2; [|discriminate]. injection H as <- <-.
    inversion Ht; subst.
    + apply uapply_closed in E1; [|apply (et_vars M); auto]. destruct E1 as [-> ->].
      destruct (IH st s b b' st2 (A :: bs) B c U) as (U2 & X2 & Q2); auto. split; auto. split; auto. apply ht_lam; auto.
    + apply uapply_closed in E1; [|apply (et_vars M); auto]. destruct E1 as [-> ->].
      destruct (IH st s b b' st2 (A :: bs) tbool c U) as (U2 & X2 & Q2); auto. split; auto. split; auto. apply ht_quant; auto.
Qed.
Lemma uapply_hs n st s t t' st' bs T : ust st -> hs st s bs t T -> uapply n st s t = Some (t', st') ->
  ust st' /\ ext st st' /\ hq (u_out st') bs t' T.
Proof.
  intros U (c & Hc & [Hq|Hq]) H.
  - destruct (uapply_typed _ _ _ _ _ _ _ _ _ U Hc Hq H) as (U' & X & Q). split; auto. split; auto. left; auto.
  - apply uapply_closed in H; [|destruct Hq as [[-> _]|[-> _]]; reflexivity]. destruct H as [-> ->]. split; auto. split; [apply ext_refl|]. right; auto.
Qed.

(** ** [remap] *)
Lemma ht_replace G id r U : get_var_type G id = Some U -> ht G [] r U -> forall bs t T, ht G bs t T -> ht G bs (replace_variable id r t) T.
Proof.
  intros Hid Hr bs t T H.
  assert (C : forall X, vars X = [] -> replace_variable id r X = X) by (intros; apply replace_closed; auto).
  induction H; cbn [replace_variable].
  - destruct (Nat.eqb_spec i id) as [->|]; [|apply ht_var; auto]. rewrite Hid in H. injection H as ->. apply ht_anybs; auto.
  - apply ht_bound; auto.
  - apply ht_sym; auto.
  - rewrite C by (apply (et_vars M); auto). apply ht_eq; auto.
  - rewrite C by (apply (et_vars M); auto). apply ht_ite; auto.
  - eapply ht_app; eauto.
  - rewrite (C T) by (apply ground_vars; apply H0). eapply ht_inst; eauto.
  - rewrite C by (apply (et_vars M); auto). apply ht_lam; auto.
  - rewrite C by (apply (et_vars M); auto). apply ht_quant; auto.
Qed.
Lemma ctx_replace_mono G id r : mono_context M G -> ctx_replace id r G = G.
Proof.
  intros H. unfold ctx_replace. rewrite <- (map_id G) at 2. apply map_ext_in. intros [T|] Hi; auto. simpl. f_equal.
  apply In_nth_error in Hi. destruct Hi as (i & Hi). apply replace_closed, (et_vars M). eapply H; eauto.
Qed.
Lemma self_reference_mono G id r : mono_context M G -> self_reference_fix id r G = G.
Proof.
  intros H. unfold self_reference_fix. destruct (get_var_type G id) as [T|]; auto.
  induction (vars r) as [|v l IH]; auto. simpl. destruct (get_var_type G v) as [U|] eqn:E; auto.
  rewrite has_variable_closed; auto. apply (et_vars M). eapply mc_get; eauto.
Qed.
Lemma remap_now_typed n st id t st' T : ust st -> vty st 0 id T -> ht (u_out st) [] t T -> vget (umap st 0) id = None ->
  remap_now n st id t = Some (Some st') -> ust st' /\ ext st st'.
Proof.
  intros U (c & Hc & Hid) Ht Hn H. simpl in Hc. injection Hc as <-. unfold remap_now in H.
  destruct (uapply n st 0 t) as [[t' st1]|] eqn:E; [|discriminate].
  destruct (uapply_typed _ st 0 _ _ _ _ _ (u_out st) U eq_refl Ht E) as (_ & _ & Ht').
  apply uapply_out in E. destruct E as [-> _]. destruct (has_variable id t'); [discriminate|]. injection H as <-.
  pose proof (us_in _ U 0 _ eq_refl) as Hm. rewrite self_reference_mono, ctx_replace_mono by auto. rewrite Hn, orb_false_r.
  set (maps := map (map (option_map (replace_variable id t'))) (u_maps st)).
  assert (Nm : forall s, @nth vmap s maps [] = map (option_map (replace_variable id t')) (umap st s)).
  { intros s. unfold maps. change (@nil (option term)) with (map (option_map (replace_variable id t')) []) at 1. apply map_nth. }
  assert (Lm : @length vmap maps = length (u_maps st)) by apply map_length.
  split; [|constructor; auto]. constructor; cbn [u_maps u_inputs u_out u_clash].
  - rewrite length_upd, Lm. apply (us_pos _ U).
  - rewrite length_upd, Lm. apply (us_len _ U).
  - exact (us_in _ U).
  - intros s i r Hg. unfold umap in Hg. cbn [u_maps] in Hg. rewrite nth_upd in Hg.
    assert (Old : forall s, vget (@nth vmap s maps []) i = Some r -> exists T0, vty st s i T0 /\ ht (u_out st) [] r T0).
    { intros z Hz. rewrite Nm, vget_map in Hz. destruct (vget (umap st z) i) as [r0|] eqn:E0; [|discriminate]. injection Hz as <-.
      destruct (us_map _ U _ _ _ E0) as (T0 & X & Y). exists T0. split; auto. eapply ht_replace; eauto. }
    destruct (Nat.eqb_spec 0 s) as [<-|]; [|exact (Old _ Hg)]. destruct (Nat.ltb 0 (@length vmap maps)) eqn:Lt; [|exact (Old _ Hg)].
    cbn [andb] in Hg. rewrite vget_vset in Hg. destruct (Nat.eqb_spec id i) as [<-|]; [|exact (Old _ Hg)]. injection Hg as <-.
    exists T. split; [exists (u_out st); auto|auto].
  - intros i Hi. apply (us_fresh _ U). unfold umap in Hi. cbn [u_maps] in Hi. rewrite nth_upd in Hi. pose proof (us_pos _ U) as P. rewrite <- Lm in P.
    apply Nat.ltb_lt in P. rewrite P in Hi. cbn [Nat.eqb andb] in Hi. pose proof (length_vset (@nth vmap 0 maps []) id t') as L.
    rewrite Nm, map_length in L. rewrite Nm in Hi. lia.
  - apply (us_clash _ U).
Qed.
Lemma bind_input_typed st s i t T : ust st -> s <> 0 -> vty st s i T -> ht (u_out st) [] t T -> vget (umap st s) i = None ->
  ust (bind_input st s i t) /\ ext st (bind_input st s i t).
Proof.
  intros U Ns Hv Ht Hn. split; [|constructor; auto]. constructor; cbn [bind_input u_maps u_inputs u_out u_clash].
  - rewrite length_upd. apply (us_pos _ U).
  - rewrite length_upd. apply (us_len _ U).
  - exact (us_in _ U).
  - intros z j r Hg. unfold umap in Hg. cbn [bind_input u_maps] in Hg. rewrite nth_upd in Hg.
    destruct (Nat.eqb_spec s z) as [<-|]; [|exact (us_map _ U _ _ _ Hg)]. destruct (Nat.ltb s (length (u_maps st))); [|exact (us_map _ U _ _ _ Hg)].
    cbn [andb] in Hg. rewrite vget_vset in Hg. destruct (Nat.eqb_spec i j) as [<-|]; [|exact (us_map _ U _ _ _ Hg)]. injection Hg as <-. exists T. auto.
  - intros j Hj. apply (us_fresh _ U). unfold umap in Hj. cbn [bind_input u_maps] in Hj. rewrite nth_upd in Hj.
    destruct (Nat.eqb_spec s 0); [congruence|]. exact Hj.
  - rewrite Hn, orb_false_r. apply (us_clash _ U).
Qed.

(** ** [unify] *)
Lemma unify_typed n :
  (forall st s1 t1 s2 t2 st' bs T1 T2, ust st -> hs st s1 bs t1 T1 -> hs st s2 bs t2 T2 -> uni n st s1 t1 s2 t2 = Some (Some st') ->
     ust st' /\ ext st st' /\ T1 = T2) /\
  (forall st s i s' t st' bs T1 T2, ust st -> vty st s i T1 -> hs st s' bs t T2 -> unv n st s i s' t = Some (Some st') ->
     ust st' /\ ext st st' /\ T1 = T2) /\
  (forall st i t st' T, ust st -> vty st 0 i T -> ht (u_out st) [] t T -> vget (umap st 0) i = None -> rem n st i t = Some (Some st') ->
     ust st' /\ ext st st') /\
  (forall st s T t st' U, ust st -> et T -> hq (u_out st) [] t U -> com n st s T t = Some (Some st') -> st' = st /\ T = U).
Proof.
  induction n as [|n (IHu & IHv & IHr & IHc)]; [repeat split; intros; discriminate|].
  assert (Two : forall st s1 a s2 b c d st' bs A B, ust st ->
    match uni n st s1 a s2 b with Some (Some st1) => uni n st1 s1 c s2 d | r => r end = Some (Some st') ->
    hs st s1 bs a A -> hs st s2 bs b A -> hs st s1 bs c B -> hs st s2 bs d B -> ust st' /\ ext st st').
  { intros st s1 a s2 b c d st' bs A B U H Ha Hb Hc Hd. destruct (uni n st s1 a s2 b) as [[st1|]|] eqn:E; [|discriminate|discriminate].
    destruct (IHu _ _ _ _ _ _ _ _ _ U Ha Hb E) as (U1 & X1 & _).
    destruct (IHu _ _ _ _ _ _ _ _ _ U1 (hs_ext _ _ _ _ _ _ X1 Hc) (hs_ext _ _ _ _ _ _ X1 Hd) H) as (U2 & X2 & _). split; auto. eapply ext_trans; eauto. }
  assert (Struct : forall st s1 t1 s2 t2 st' bs TT1 TT2, ust st -> hs st s1 bs t1 TT1 -> hs st s2 bs t2 TT2 -> atomic_variable t1 = None -> atomic_variable t2 = None ->
    match t1, t2 with
        | TAtom a, TAtom b =>
          Some (if atom_eq_dec a b then Some st else
                match a, b with
                | Sym (STypeclass _ _), Sym SType0 | Sym SType0, Sym (STypeclass _ _) => Some st
                | _, _ => None
                end)
        | TApp f1 a1, TApp f2 a2 =>
          match uni n st s1 f1 s2 f2 with
          | Some (Some st1) => uni n st1 s1 a1 s2 a2
          | r => r
          end
        | TBind k1 A1 b1, TBind k2 A2 b2 =>
          if bkind_eq_dec k1 k2 then
            match uni n st s1 A1 s2 A2 with
            | Some (Some st1) => uni n st1 s1 b1 s2 b2
            | r => r
            end
          else Some None
        | _, _ => Some None
        end = Some (Some st') -> ust st' /\ ext st st' /\ TT1 = TT2).
  { intros st s1 t1 s2 t2 st' bs TT1 TT2 U H1 H2 V1 V2 H. destruct t1 as [a|f1 a|k1 A1 b], t2 as [a'|f2 a'|k2 A2 b']; try discriminate.
    - destruct H1 as (c1 & _ & Q1), H2 as (c2 & _ & Q2). destruct (atom_eq_dec a a') as [<-|Ne].
      + injection H as <-. split; auto. split; [apply ext_refl|].
        destruct Q1 as [Q1|[[Q1 ->]|[Q1 ->]]], Q2 as [Q2|[[Q2 ->]|[Q2 ->]]]; try congruence;
          inversion Q1; subst; try discriminate; inversion Q2; subst; try discriminate; congruence.
      + exfalso. destruct a as [?|?|x]; try discriminate. destruct Q1 as [Q1|[[Q1 ->]|[Q1 ->]]]; [|injection Q1 as ->; discriminate|injection Q1 as ->; discriminate].
        inversion Q1; subst. destruct x; try discriminate.
    - apply hs_app in H1. apply hs_app in H2.
      destruct (uni n st s1 f1 s2 f2) as [[st1|]|] eqn:E; [|discriminate|discriminate].
      destruct H1 as [(A & F1 & EA & HA)|(k & B & F1 & Hk & Ga & Ho)], H2 as [(A' & F2 & EA' & HA')|(k' & B' & F2 & Hk' & Ga' & Ho')];
        destruct (IHu _ _ _ _ _ _ _ _ _ U F1 F2 E) as (U1 & X1 & Q); injection Q as -> ->.
      + destruct (IHu _ _ _ _ _ _ _ _ _ U1 (hs_ext _ _ _ _ _ _ X1 HA) (hs_ext _ _ _ _ _ _ X1 HA') H) as (U2 & X2 & _). split; auto. split; auto. eapply ext_trans; eauto.
      + apply et_not_kind in EA. congruence.
      + apply et_not_kind in EA'. congruence.
      + apply uni_ground in H; auto; [|apply ground_vars; auto]. destruct H as [-> ->]. split; auto. split; auto. congruence.
    - destruct (bkind_eq_dec k1 k2) as [<-|]; [|discriminate]. apply hs_bind in H1. apply hs_bind in H2.
      destruct H1 as (B1 & EA1 & Hb1 & -> & N1), H2 as (B2 & EA2 & Hb2 & -> & N2).
      destruct (uni n st s1 A1 s2 A2) as [[st1|]|] eqn:E; [|discriminate|discriminate].
      apply uni_ground in E; [|apply et_ground with M; auto|apply (et_vars M); auto]. destruct E as [-> ->].
      destruct (IHu _ _ _ _ _ _ _ _ _ U Hb1 Hb2 H) as (U2 & X2 & ->). auto. }
  split; [|split; [|split]].
  - intros st s1 t1 s2 t2 st' bs TT1 TT2 U H1 H2 H. cbn [unify_internal] in H.
    destruct (atomic_variable t1) as [i|] eqn:V1.
    { destruct t1 as [[j|?|?]|?|?]; try discriminate. injection V1 as ->. apply (IHv _ _ _ _ _ _ _ _ _ U (hs_var _ _ _ _ _ H1) H2 H). }
    destruct (atomic_variable t2) as [i|] eqn:V2.
    { destruct t2 as [[j|?|?]|?|?]; try discriminate. injection V2 as ->. destruct (IHv _ _ _ _ _ _ _ _ _ U (hs_var _ _ _ _ _ H2) H1 H) as (X & Y & Z). auto. }
    destruct (split_eq_args t1) as [[[T1 a1] b1]|] eqn:E1; [|eapply Struct; eauto].
    destruct (split_eq_args t2) as [[[T2 a2] b2]|] eqn:E2; [|eapply Struct; eauto].
    apply split_eq_args_some in E1. apply split_eq_args_some in E2. subst t1 t2.
    destruct H1 as (c1 & Hc1 & [Q1|[[Q1 _]|[Q1 _]]]); try discriminate. destruct H2 as (c2 & Hc2 & [Q2|[[Q2 _]|[Q2 _]]]); try discriminate.
    apply ht_eq_iff in Q1. apply ht_eq_iff in Q2. destruct Q1 as (-> & EA1 & Ha1 & Hb1), Q2 as (-> & EA2 & Ha2 & Hb2).
    assert (Three : forall x y, ht c2 bs x T2 -> ht c2 bs y T2 -> match uni n st s1 T1 s2 T2 with
        | Some (Some st1) => match uni n st1 s1 a1 s2 x with Some (Some st2) => uni n st2 s1 b1 s2 y | r => r end | r => r end = Some (Some st') ->
        ust st' /\ ext st st' /\ tbool = tbool).
    { intros x y Hx Hy H3. destruct (uni n st s1 T1 s2 T2) as [[st1|]|] eqn:E; [|discriminate|discriminate].
      apply uni_ground in E; [|apply et_ground with M; auto|apply (et_vars M); auto]. destruct E as [-> ->].
      destruct (Two _ _ _ _ _ _ _ _ bs T2 T2 U H3) as [X Y]; auto; try (exists c1; split; auto; left; auto); try (exists c2; split; auto; left; auto). }
    cbv zeta in H. destruct (match uni n st s1 T1 s2 T2 with
        | Some (Some st1) => match uni n st1 s1 a1 s2 a2 with Some (Some st2) => uni n st2 s1 b1 s2 b2 | r => r end | r => r end) as [[?|]|] eqn:ED.
    + injection H as ->. apply (Three a2 b2); auto.
    + apply (Three b2 a2); auto.
    + discriminate.
  - intros st s i s' t st' bs T1 T2 U Hv Ht H. cbn [unify_variable] in H. destruct s' as [|s'].
    + assert (Hq : hq (u_out st) bs t T2) by (destruct Ht as (c & Hc & Hq); simpl in Hc; injection Hc as <-; auto).
      destruct (vget (umap st s) i) as [e|] eqn:Ei.
      { destruct (us_map _ U _ _ _ Ei) as (T & Hv' & He). rewrite (vty_unique _ _ _ _ _ Hv Hv'). eapply IHu; [exact U| |exact Ht|exact H].
        exists (u_out st). split; [reflexivity|]. left. apply ht_anybs; auto. }
      pose proof (vty_et _ _ _ _ U Hv) as HT. destruct s as [|s].
      * destruct (match atomic_variable t with Some j => Nat.eqb j i | None => false end) eqn:Ev.
        { injection H as <-. destruct t as [[j|?|?]|?|?]; try discriminate. simpl in Ev. apply Nat.eqb_eq in Ev. subst j.
          split; auto. split; [apply ext_refl|]. apply hs_var in Ht. eapply vty_unique; eauto. }
        destruct (has_variable i t); [discriminate|]. destruct (has_escaping_bound_variable t) eqn:L; [discriminate|].
        pose proof (hq_nobs _ _ _ _ Hq L) as Hq0.
        pose proof Hv as (c & Hc & Hg). simpl in Hc. injection Hc as <-. rewrite Hg in H.
        change (match com n st 0 T1 t with Some (Some st1) => rem n st1 i t | r => r end = Some (Some st')) in H.
        destruct (com n st 0 T1 t) as [[st1|]|] eqn:E; [|discriminate|discriminate].
        destruct (IHc _ _ _ _ _ _ U HT Hq0 E) as [-> ->]. apply hq_ground in Hq0; [|apply et_ground with M; auto].
        destruct (IHr _ _ _ _ _ U Hv Hq0 Ei H). auto.
      * pose proof Hv as (c & Hc & Hg). rewrite Hc, Hg in H. destruct (has_escaping_bound_variable t) eqn:L; [discriminate|].
        pose proof (hq_nobs _ _ _ _ Hq L) as Hq0.
        change (match com n st (S s) T1 t with Some (Some st1) =>
                  match uapply n st1 0 t with None => None | Some (t', st2) => Some (Some (bind_input st2 (S s) i t')) end
                | r => r end = Some (Some st')) in H.
        destruct (com n st (S s) T1 t) as [[st1|]|] eqn:E; [|discriminate|discriminate].
        destruct (IHc _ _ _ _ _ _ U HT Hq0 E) as [-> ->]. apply hq_ground in Hq0; [|apply et_ground with M; auto].
        destruct (uapply n st 0 t) as [[t' st2]|] eqn:Ea; [|discriminate]. injection H as <-.
        destruct (uapply_typed _ st 0 _ _ _ _ _ (u_out st) U eq_refl Hq0 Ea) as (_ & _ & Ht').
        apply uapply_out in Ea. destruct Ea as [-> _]. destruct (bind_input_typed st (S s) i t' T2 U) as [X Y]; auto.
    + destruct (uapply n st (S s') t) as [[t' st1]|] eqn:Ea; [|discriminate].
      destruct (uapply_hs _ _ _ _ _ _ _ _ U Ht Ea) as (U1 & X1 & Q1).
      destruct (IHv st1 s i 0 t' st' bs T1 T2 U1 (vty_ext _ _ _ _ _ X1 Hv)) as (X & Y & Z); auto. { exists (u_out st1). auto. }
      split; auto. split; auto. eapply ext_trans; eauto.
  - intros st i t st' T U Hv Ht Hn H. cbn [Unifier.remap] in H. destruct (atomic_variable t) as [j|] eqn:Ej; [|eapply remap_now_typed; eauto].
    destruct (Nat.ltb i j); [|eapply remap_now_typed; eauto]. destruct t as [[j'|?|?]|?|?]; try discriminate. injection Ej as ->.
    assert (Hj : vty st 0 j T) by (inversion Ht; subst; exists (u_out st); auto).
    assert (Hi : hs st 0 [] (TVar i) T).
    { exists (u_out st). split; auto. left. destruct Hv as (c & Hc & Hg). simpl in Hc. injection Hc as <-. apply ht_var; auto. inversion Ht; auto. }
    destruct (IHv _ _ _ _ _ _ _ _ _ U Hj Hi H) as (X & Y & _). auto.
  - intros st s T t st' V U HT Hq H. cbn [compatible] in H. rewrite (hq_type _ _ _ Hq) in H. pose proof (et_ground M T HT) as G.
    assert (H' : uni n st s T 0 V = Some (Some st')).
    { clear - H G. destruct T as [[?|?|sy]|?|?]; try exact H. destruct sy; try exact H; simpl in G; congruence. }
    apply uni_ground in H'; [|auto|apply (hq_closed _ _ _ _ Hq)]. tauto.
Qed.
End MU.
