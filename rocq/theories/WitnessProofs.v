(** A positive existential opened with a new constant: every interpretation extends to the constant. *)
From Coq Require Import List Arith NArith Bool Lia Classical ClassicalEpsilon.
Import ListNotations.
From Verif Require Import VariableMap Unifier Inference ClauseSet EqualityGraph Checker.
From Verif Require Import Term LocalContext Semantics TermProofs SemFacts TermNorm TermNormProofs Typing TypingProofs Literal Clause ClauseSem RenumberProofs ClauseProofs ClauseWf InferenceProofs
  VariableMapProofs UnifierProofs BoolReduction BoolReductionProofs CheckerProofs CheckerSem P_TermNorm P_Checker Monomorphic MonoProofs MonoNorm MonoReduce MonoUnify MonoRules MonoMatch SearchRules SearchProofs SearchSimplify SearchRewrite
  Witness.

(** The scoped constant [w] occurs in a term, in a clause. *)
Fixpoint mentions (w : N) (t : term) : bool :=
  match t with
  | TAtom (Sym (SScoped j)) => N.eqb j w
  | TAtom _ => false
  | TApp f a => mentions w f || mentions w a
  | TBind _ A b => mentions w A || mentions w b
  end.
Definition clause_mentions (w : N) (c : clause) : bool :=
  existsb (fun l => mentions w (left l) || mentions w (right l)) (literals c) ||
  existsb (fun o => match o with Some T => mentions w T | None => false end) (context c).

(** An interpretation with another value for [w] *)
Definition other_value (M : Model) (w : N) (v : D M) (s : symbol) : D M :=
  match s with SScoped j => if N.eqb j w then v else dsym M s | _ => dsym M s end.
Lemma other_connective M w v s : is_connective s = true -> other_value M w v s = dsym M s.
Proof. destruct s; try discriminate; reflexivity. Qed.
Lemma other_conn M w v : forall s l, is_connective s = true -> ~ isty M (fold_left (dapp M) l (other_value M w v s)).
Proof. intros s l H. rewrite other_connective by auto. apply isty_conn. auto. Qed.
Definition with_value (M : Model) (w : N) (v : D M) : Model :=
  {| D := D M; dsym := other_value M w v; dapp := dapp M; dbind := dbind M; mem := mem M; appok := appok M; isty := isty M;
     bind_ext := bind_ext M; lam_beta := lam_beta M; pi_appok := pi_appok M; pi_app := pi_app M; pi_dom := pi_dom M; lam_pi := lam_pi M;
     pi_ext := pi_ext M; val_dec := val_dec M; mem_isty := mem_isty M; isty_eq := isty_eq M; isty_ite := isty_ite M;
     isty_conn := other_conn M w v; true_nofun := true_nofun M; bool_mem := bool_mem M; bool_diff := bool_diff M;
     not_ok := not_ok M; not_true := not_true M; not_false := not_false M; and_ok := and_ok M; and_ok2 := and_ok2 M; and_val := and_val M;
     or_ok := or_ok M; or_ok2 := or_ok2 M; or_val := or_val M; eq_ok := eq_ok M; eq_ok2 := eq_ok2 M; eq_val := eq_val M;
     ite_ok := ite_ok M; ite_ok2 := ite_ok2 M; ite_ok3 := ite_ok3 M; ite_true := ite_true M; ite_false := ite_false M;
     all_val := all_val M; ex_val := ex_val M |}.

Lemma ground_no_mention w T : ground_type T = true -> mentions w T = false.
Proof.
  induction T as [[i|i|[]]|f IHf a IHa|k A IHA b IHb]; simpl; try discriminate; auto; intros H.
  - apply andb_prop in H. rewrite IHf, IHa; tauto.
  - destruct k; try discriminate. apply andb_prop in H. rewrite IHA, IHb; tauto.
Qed.

Section WV.
Context (M : Model) (w : N) (v : D M).
Notation M' := (with_value M w v).

Lemma eval_other t : mentions w t = false -> forall rho bs, eval M' rho bs t = eval M rho bs t.
Proof.
  induction t as [[i|i|s]|f IHf a IHa|k A IHA b IHb]; simpl; intros H rho bs; auto.
  - unfold other_value. destruct s; auto. rewrite H. auto.
  - apply orb_false_iff in H. rewrite IHf, IHa by tauto. auto.
  - apply orb_false_iff in H. rewrite IHA by tauto. apply (bind_ext M). intros x _. apply IHb. tauto.
Qed.
Lemma swt_other P t : mentions w t = false -> forall rho bs, swtg M' P rho bs t <-> swtg M P rho bs t.
Proof.
  induction t as [[i|i|s]|f IHf a IHa|k A IHA b IHb]; intros H rho bs; [simpl; tauto|simpl; tauto|simpl; tauto| |].
  - apply orb_false_iff in H. simpl. rewrite IHf, IHa, !eval_other by tauto. tauto.
  - apply orb_false_iff in H. simpl. rewrite IHA, eval_other by tauto. split; intros (H1 & H2 & H3); (split; [exact H1|]; split; [exact H2|]; intros x Hx;
      destruct (H3 x Hx) as [X Y]; split; [apply (IHb (proj2 H)); exact X|]; pose proof (eval_other b (proj2 H) rho (scons x bs)) as E; destruct k; auto).
    + rewrite <- E. exact Y.
    + rewrite <- E. exact Y.
    + simpl. rewrite E. exact Y.
    + simpl. rewrite E. exact Y.
Qed.
Lemma ev_other t rho : mentions w t = false -> ev M' rho t = ev M rho t.
Proof. intros H. exact (eval_other t H rho (nobs M)). Qed.
Lemma ev_nobs t : mentions w t = false -> ev M' (nobs M') t = ev M (nobs M) t.
Proof. intros H. exact (eval_other t H (nobs M) (nobs M)). Qed.
Lemma wt_other t rho : mentions w t = false -> (wt M' rho t <-> wt M rho t).
Proof. intros H. exact (swt_other (anydom M) t H rho (nobs M)). Qed.
Lemma wt_nobs t : mentions w t = false -> (wt M' (nobs M') t <-> wt M (nobs M) t).
Proof. intros H. exact (swt_other (anydom M) t H (nobs M) (nobs M)). Qed.
Lemma et_other T : element_type M' T <-> element_type M T.
Proof.
  assert (B : forall T, ground_type T = true -> (wt M' (nobs M') T /\ (exists x, mem M' x (ev M' (nobs M') T)) <-> wt M (nobs M) T /\ (exists x, mem M x (ev M (nobs M) T)))).
  { intros U G. pose proof (ground_no_mention w U G) as H. rewrite wt_nobs, ev_nobs by auto. tauto. }
  induction T as [a|f IHf a IHa|k A IHA b IHb].
  - specialize (B (TAtom a)). simpl in *. tauto.
  - specialize (B (TApp f a)). simpl in *. tauto.
  - destruct k; try (simpl; rewrite ?IHA, ?IHb; tauto); simpl; split; intros [E _]; discriminate.
Qed.
Lemma arg_other k T : type_arg M' k T <-> type_arg M k T.
Proof.
  unfold type_arg. split; intros (H1 & H2 & H3 & H4); pose proof (ground_no_mention w T H2) as E.
  - rewrite wt_nobs, ev_nobs in * by auto. repeat split; auto. destruct k as [[| |[]]| |]; try discriminate; exact H4.
  - rewrite wt_nobs, ev_nobs in * by auto. repeat split; auto. destruct k as [[| |[]]| |]; try discriminate; exact H4.
Qed.

Context (K : kctx) (W : term).
Notation K' := (with_scoped K w W).
Lemma type_other s : mentions w (TSym s) = false -> symbol_type K' s = symbol_type K s.
Proof. destruct s; auto. simpl. intros ->. auto. Qed.
Lemma ht_other G bs t T : has_type M K G bs t T -> mentions w t = false -> has_type M' K' G bs t T.
Proof.
  induction 1; intros N; cbn [mentions] in N; try apply orb_false_iff in N.
  - apply ht_var; auto. apply et_other; auto.
  - apply ht_bound; auto. apply et_other; auto.
  - rewrite <- (type_other s) by exact N. apply ht_sym. auto.
  - apply ht_eq. apply et_other; auto.
  - apply ht_ite. apply et_other; auto.
  - destruct N. apply ht_app with A; auto. apply et_other; auto.
  - destruct N. eapply ht_inst; eauto. apply arg_other; auto.
  - destruct N as [N1 N2]. apply ht_lam; auto; try (apply et_other; auto). rewrite ev_nobs by auto. exact H0.
  - destruct N as [N1 N2]. apply ht_quant; auto. apply et_other; auto.
Qed.
Lemma ht_back G bs t T : has_type M' K' G bs t T -> mentions w t = false -> has_type M K G bs t T.
Proof.
  induction 1; intros N; cbn [mentions] in N; try apply orb_false_iff in N.
  - apply ht_var; auto. apply et_other; auto.
  - apply ht_bound; auto. apply et_other; auto.
  - rewrite (type_other s) by exact N. apply ht_sym. auto.
  - apply ht_eq. apply et_other; auto.
  - apply ht_ite. apply et_other; auto.
  - destruct N. apply ht_app with A; auto. apply et_other; auto.
  - destruct N. eapply ht_inst; eauto. apply arg_other; auto.
  - destruct N as [N1 N2]. apply ht_lam; auto; try (apply et_other; auto). rewrite <- ev_nobs by auto. exact H0.
  - destruct N as [N1 N2]. apply ht_quant; auto. apply et_other; auto.
Qed.
Lemma clause_no_mention c : clause_mentions w c = false -> (forall l, In l (literals c) -> mentions w (left l) = false /\ mentions w (right l) = false) /\
  (forall i T, get_var_type (context c) i = Some T -> mentions w T = false).
Proof.
  unfold clause_mentions. intros H. apply orb_false_iff in H. destruct H as [H1 H2]. split.
  - intros l Hl. apply orb_false_iff. destruct (mentions w (left l) || mentions w (right l)) eqn:E; auto.
    rewrite <- H1. symmetry. apply existsb_exists. eauto.
  - intros i T HT. destruct (mentions w T) eqn:E; auto. rewrite <- H2. symmetry. apply existsb_exists. exists (Some T). split; auto.
    apply nth_error_In with i. unfold get_var_type in HT. destruct (nth_error (context c) i) as [[|]|]; congruence.
Qed.
Lemma mt_other c : clause_mentions w c = false -> mono_typed M K c -> mono_typed M' K' c.
Proof.
  intros N H. apply mt_in in H. apply mt_in. destruct (clause_no_mention c N) as [N1 _]. destruct H as [H1 H2]. split.
  - intros i T HT. apply et_other. apply (H1 i T HT).
  - intros l Hl. destruct (H2 l Hl) as (T & A & B & C). destruct (N1 l Hl). exists T. split; [apply et_other; auto|]. split; apply ht_other; auto.
Qed.
Lemma mt_back c : clause_mentions w c = false -> mono_typed M' K' c -> mono_typed M K c.
Proof.
  intros N H. apply mt_in in H. apply mt_in. destruct (clause_no_mention c N) as [N1 _]. destruct H as [H1 H2]. split.
  - intros i T HT. apply et_other. apply (H1 i T HT).
  - intros l Hl. destruct (H2 l Hl) as (T & A & B & C). destruct (N1 l Hl). exists T. split; [apply et_other; auto|]. split; apply ht_back; auto.
Qed.
Lemma valid_other c : clause_mentions w c = false -> (valid M' c <-> valid M c).
Proof.
  intros N. destruct (clause_no_mention c N) as [N1 N2].
  assert (E : forall rho, valid_env M' (context c) rho <-> valid_env M (context c) rho).
  { intros rho. split; intros H i T HT; specialize (H i T HT); pose proof (ev_other T rho (N2 i T HT)) as X.
    - rewrite <- X. exact H.
    - rewrite X. exact H. }
  assert (L : forall rho l, In l (literals c) -> (lit_holds M' rho l <-> lit_holds M rho l)).
  { intros rho l Hl. destruct (N1 l Hl) as [A B]. unfold lit_holds. rewrite !ev_other by auto. tauto. }
  unfold valid. split; intros H rho Hr.
  - destruct (H rho (proj2 (E rho) Hr)) as (l & Hl & X). exists l. split; auto. apply L; auto.
  - destruct (H rho (proj1 (E rho) Hr)) as (l & Hl & X). exists l. split; auto. apply (L rho l Hl); auto.
Qed.
End WV.

(** ** Terms of a constant and arguments *)
Lemma mentions_apply w args : forall f, mentions w (apply_args f args) = mentions w f || existsb (mentions w) args.
Proof.
  unfold apply_args. induction args as [|a r IH]; intros f; simpl; [rewrite orb_false_r; auto|]. rewrite IH. simpl. rewrite orb_assoc. auto.
Qed.
Lemma vars_apply_ground args : forall f, forallb ground_type args = true -> vars f = [] -> vars (apply_args f args) = [].
Proof.
  unfold apply_args. induction args as [|a r IH]; intros f H E; simpl in *; auto. apply andb_prop in H. apply IH; [tauto|].
  rewrite vars_app, E, (MonoProofs.ground_vars a); tauto.
Qed.
Lemma lc_apply_ground args : forall f, forallb ground_type args = true -> lc_at 0 f -> lc_at 0 (apply_args f args).
Proof.
  unfold apply_args. induction args as [|a r IH]; intros f H E; simpl in *; auto. apply andb_prop in H. apply IH; [tauto|].
  apply lc_app. split; auto. apply ground_lc. tauto.
Qed.
Lemma ht_closed_term M K G bs t T : vars t = [] -> lc_at 0 t -> has_type M K G bs t T -> has_type M K [] [] t T.
Proof.
  intros V L H. apply (ht_unshift M K [] t [] bs []). rewrite app_nil_r. cbn [length]. rewrite shift_up_lc by exact L.
  apply ht_weaken with G; auto. rewrite V. intros i U [].
Qed.
Lemma aliases_other M K w v W alias : (forall m i args s, alias m i args = Some s -> forallb ground_type args = true /\ s <> SScoped w) ->
  aliases_agree M K alias -> aliases_agree (with_value M w v) (with_scoped K w W) alias.
Proof.
  intros P A m i args s E. destruct (P m i args s E) as [Pg Ps]. destruct (A m i args s E) as [A1 A2]. split; auto. intros G bs T H.
  set (t := apply_args (TSym (SGlobal m i)) args) in *.
  assert (Nt : mentions w t = false).
  { unfold t. rewrite mentions_apply. simpl. clear -Pg. induction args as [|a r IH]; simpl in *; auto. apply andb_prop in Pg. rewrite ground_no_mention by tauto. apply IH. tauto. }
  assert (Ns : mentions w (TSym s) = false) by (destruct s; auto; simpl; apply N.eqb_neq; congruence).
  apply ht_back in H; auto. apply ht_closed_term in H; [|apply vars_apply_ground; auto|apply lc_apply_ground; auto; reflexivity].
  destruct (A2 [] [] T H) as [B1 B2]. split; [rewrite type_other; auto|]. intros rho bv _. rewrite eval_other by auto.
  change (dsym (with_value M w v) s) with (eval (with_value M w v) rho bv (TSym s)). rewrite eval_other by auto.
  apply B2. split; [intros [|j] U; discriminate|intros [|j] U; discriminate].
Qed.

(** ** The type of the witness *)
Fixpoint arrows (c : lctx) (A : term) : term :=
  match c with
  | Some T :: r => tarrow T (arrows r A)
  | None :: r => arrows r A
  | [] => A
  end.
Definition dense (M : Model) (c : lctx) : Prop := forall o, In o c -> exists T, o = Some T /\ element_type M T.

Lemma convert_closed t : forall n d, vars t = [] -> lc_at d t -> convert_free_to_bound_at n d t = t.
Proof.
  induction t as [[i|i|s]|f IHf a IHa|k A IHA b IHb]; intros n d V L; auto.
  - discriminate V.
  - apply lc_bound in L. simpl. destruct (Nat.leb_spec d i); auto. lia.
  - rewrite vars_app in V. apply app_eq_nil in V. apply lc_app in L. simpl. rewrite IHf, IHa; tauto.
  - rewrite vars_bind in V. apply app_eq_nil in V. apply lc_bind in L. simpl. rewrite IHA, IHb; tauto.
Qed.
Lemma convert_et M n T : element_type M T -> convert_free_to_bound n T = T.
Proof. intros H. unfold convert_free_to_bound. destruct (Nat.eqb n 0); auto. apply convert_closed; [apply (et_vars M)|apply (et_lc M)]; auto. Qed.
Lemma witness_type_arrows M c : forall k A T, dense M c -> witness_type_from k c A = Some T -> T = arrows c A.
Proof.
  induction c as [|[U|] r IH]; intros k A T H E; simpl in E; try discriminate; [simpl; congruence|].
  destruct (witness_type_from (S k) r A) as [V|] eqn:E1; [|discriminate]. injection E as <-. destruct (H (Some U) (or_introl eq_refl)) as (U' & X & Y). injection X as <-.
  rewrite (convert_et M) by auto. simpl. rewrite (IH _ _ _ (fun o Ho => H o (or_intror Ho)) E1). auto.
Qed.
Lemma arrows_et M c A : dense M c -> element_type M A -> element_type M (arrows c A).
Proof.
  induction c as [|[U|] r IH]; intros H HA; simpl; auto.
  - destruct (H (Some U) (or_introl eq_refl)) as (U' & X & Y). injection X as <-. split; auto. apply IH; auto. intros o Ho. apply H. right. auto.
  - destruct (H None (or_introl eq_refl)) as (U' & X & Y). discriminate.
Qed.
Lemma et_uses M T : element_type M T -> uses_parameters T.
Proof.
  induction T as [a|f IHf a IHa|k A IHA b IHb]; simpl; auto. destruct k; auto. intros [H1 H2]. split; auto. rewrite (et_not_kind M A H1). discriminate.
Qed.
Lemma plain_order M G : mono_context M G -> hoisted_order G = List.seq 0 (length G).
Proof.
  intros H. unfold hoisted_order. set (p := fun v => match get_var_type G v with Some T => is_type_param_kind T | None => false end).
  assert (P : forall v, p v = false).
  { intros v. unfold p. destruct (get_var_type G v) as [T|] eqn:E; auto. apply (et_not_kind M). apply (H v). unfold get_var_type in E. destruct (nth_error G v) as [[|]|]; congruence. }
  assert (F1 : forall l, filter p l = []) by (induction l as [|x r IH]; simpl; auto; rewrite P; auto).
  assert (F2 : forall l, filter (fun v => negb (p v)) l = l) by (induction l as [|x r IH]; simpl; auto; rewrite P; simpl; f_equal; auto).
  rewrite F1, F2. auto.
Qed.
Lemma remap_plain M G ids : mono_context M G -> forall m k r, remap_from G ids (List.seq k m) = Some r -> k + m = length G -> r = skipn k G /\ dense M r.
Proof.
  intros HG. induction m as [|m IH]; intros k r H E; simpl in H.
  - injection H as <-. rewrite skipn_all2 by lia. split; auto. intros o [].
  - destruct (get_var_type G k) as [T|] eqn:ET; [|discriminate]. destruct (renumber_variables ids T) as [T'|] eqn:ER; [|discriminate].
    destruct (remap_from G ids (List.seq (S k) m)) as [rest|] eqn:EM; [|discriminate]. injection H as <-.
    destruct (IH (S k) rest EM) as [X Y]; [lia|]. subst rest.
    assert (Hn : nth_error G k = Some (Some T)) by (unfold get_var_type in ET; destruct (nth_error G k) as [[|]|]; congruence).
    pose proof (HG k T Hn) as HT. rewrite (MonoNorm.renumber_closed ids T T') in * by (auto; apply (et_vars M); auto). split.
    + clear -Hn. revert k Hn. induction G as [|o g IHg]; intros [|k] Hn; simpl in *; try discriminate; [congruence|]. rewrite IHg; auto.
    + intros o [<-|Ho]; eauto.
Qed.

(** ** The value of the witness *)
Section Value.
Context (M : Model) (pick : (nat -> D M) -> D M).
Definition put (rho : nat -> D M) (k : nat) (x : D M) : nat -> D M := fun i => if Nat.eqb i k then x else rho i.
Fixpoint wvalue (k : nat) (c : lctx) (rho : nat -> D M) : D M :=
  match c with
  | [] => pick rho
  | Some T :: r => dbind M KLam (ev M (nobs M) T) (fun x => wvalue (S k) r (put rho k x))
  | None :: r => wvalue (S k) r rho
  end.
Context (A : term) (EA : element_type M A) (P : forall rho, mem M (pick rho) (ev M (nobs M) A)).
Lemma wvalue_mem c : forall k rho, dense M c -> mem M (wvalue k c rho) (ev M (nobs M) (arrows c A)).
Proof.
  induction c as [|[U|] r IH]; intros k rho H; simpl; auto.
  - apply lam_pi. intros x _. rewrite (closed_eval M). { apply IH. intros o Ho. apply H. right. auto. }
    apply (et_closed M), arrows_et; auto. intros o Ho. apply H. right. auto.
  - destruct (H None (or_introl eq_refl)) as (U' & X & Y). discriminate.
Qed.
Lemma wvalue_app rho0 c : forall k rho, dense M c -> (forall j T, nth_error c j = Some (Some T) -> mem M (rho0 (k + j)) (ev M (nobs M) T)) ->
  exists rho', fold_left (dapp M) (map rho0 (List.seq k (length c))) (wvalue k c rho) = pick rho' /\
    (forall j, k <= j < k + length c -> rho' j = rho0 j) /\ (forall j, j < k -> rho' j = rho j).
Proof.
  induction c as [|[U|] r IH]; intros k rho H E.
  - exists rho. simpl. split; auto. split; auto. intros; lia.
  - assert (Hr : dense M r) by (intros o Ho; apply H; right; auto).
    pose proof (wvalue_mem (Some U :: r) k rho H) as Mm. cbn [List.seq map fold_left length].
    pose proof (E 0 U eq_refl) as E0. rewrite Nat.add_0_r in E0.
    destruct (lam_beta M (ev M (nobs M) U) (fun x => wvalue (S k) r (put rho k x)) (rho0 k) (pi_appok M _ _ _ _ Mm E0)) as [_ B].
    match goal with |- exists rho', fold_left ?f ?l (dapp M ?g ?y) = _ /\ _ => change (dapp M g y) with (dapp M (dbind M KLam (ev M (nobs M) U) (fun x => wvalue (S k) r (put rho k x))) (rho0 k)) end. rewrite B.
    destruct (IH (S k) (put rho k (rho0 k)) Hr) as (rho' & X & Y & Z).
    { intros j T Hj. specialize (E (S j) T Hj). rewrite Nat.add_succ_r in E. exact E. }
    exists rho'. split; [exact X|]. split.
    + intros j Hj. destruct (Nat.eq_dec j k) as [-> |Hn]; [rewrite Z by lia; unfold put; rewrite Nat.eqb_refl; auto|]. apply Y. lia.
    + intros j Hj. rewrite Z by lia. unfold put. destruct (Nat.eqb_spec j k); auto. lia.
  - destruct (H None (or_introl eq_refl)) as (U' & X & Y). discriminate.
Qed.
End Value.

Lemma eval_apply_vars M rho bs ids : forall f, eval M rho bs (apply_args f (map (fun v => TVar v) ids)) = fold_left (dapp M) (map rho ids) (eval M rho bs f).
Proof. unfold apply_args. induction ids as [|i r IH]; intros f; simpl; auto. apply (IH (TApp f (TVar i))). Qed.

Lemma ht_apply_vars M K G c A : forall k f, dense M c -> element_type M A -> (forall j T, nth_error c j = Some (Some T) -> get_var_type G (k + j) = Some T) ->
  has_type M K G [] f (arrows c A) -> has_type M K G [] (apply_args f (map (fun v => TVar v) (List.seq k (length c)))) A.
Proof.
  unfold apply_args. induction c as [|[U|] r IH]; intros k f H EA E Hf; simpl in *; auto.
  - destruct (H (Some U) (or_introl eq_refl)) as (U' & X & Y). injection X as <-. assert (Hr : dense M r) by (intros o Ho; apply H; right; auto).
    apply IH; auto. { intros j T Hj. specialize (E (S j) T Hj). rewrite Nat.add_succ_r in E. exact E. }
    apply ht_app with U; auto. { apply (et_lc M _ 0). apply arrows_et; auto. }
    apply ht_var; auto. specialize (E 0 U eq_refl). rewrite Nat.add_0_r in E. exact E.
  - destruct (H None (or_introl eq_refl)) as (U' & X & Y). discriminate.
Qed.

(** ** Opening *)
Lemma reduction_keeps M K ls d n c' ids out : closed_types K -> respects M K -> normalize_boolean_reduction ls d n = Some (c', ids, out) -> mono_typed M K (Clause ls d) ->
  mono_typed M K c' /\ (valid M (Clause ls d) -> valid M c').
Proof.
  intros CT R En X. unfold normalize_boolean_reduction in En. destruct (normalize_with_trace ls d) as [[e i1]|] eqn:E1; [|discriminate].
  destruct (normalize_with_var_ids_prefilled ls d (filter (fun v => Nat.ltb v n) i1)) as [[d' i2]|] eqn:E2; [|discriminate].
  assert (d' = c') by congruence. subst d'. split; [eapply (proj1 (mt_prefilled M K _ _ _ _ _ E2 X))|].
  destruct (mt_suitable M K CT R _ X) as [S1 S2 S3].
  assert (Nd : NoDup (filter (fun v => Nat.ltb v n) i1)).
  { apply NoDup_filter. exact (f_nodup _ _ _ (prefilled_faithful _ _ _ _ _ (NoDup_nil _) E1)). }
  pose proof (prefilled_faithful _ _ _ _ _ Nd E2) as F.
  assert (Wt : clause_wt M (Clause ls d)) by (intros r Hr x Hx; apply (pwt_wt _ _ S1); auto).
  destruct (faithful_preserves M _ _ _ F Wt (all_completable M d _ S2 (faithful_closed _ _ _ F) S3)) as [V _]. auto.
Qed.

Section Open.
Context (M : Model) (K : kctx) (CT : closed_types K) (R : respects M K).
Context (c : clause) (w : N) (Hc : mono_typed M K c) (Vc : valid M c) (Nc : clause_mentions w c = false) (Nk : forall s, mentions w (symbol_type K s) = false).

Lemma opening allow A b T c' ids out : positive_exists_reduction K allow c = Some (Some (A, b)) -> open_positive_exists c w A b = Some (T, (c', ids, out)) ->
  exists v, closed_types (with_scoped K w T) /\ respects (with_value M w v) (with_scoped K w T) /\
    mono_typed (with_value M w v) (with_scoped K w T) c' /\ valid (with_value M w v) c' /\ uses_parameters T.
Proof.
  intros HP HO. destruct (proj1 (mt_in M K c) Hc) as [HG HL].
  (* the quantifier *)
  assert (HB : exists l, literals c = [l] /\ left l = TBind KEx A b /\ is_true (right l) = true /\ positive l = true).
  { unfold positive_exists_reduction in HP. destruct (literals c) as [|l [|]]; try discriminate. exists l. split; auto.
    destruct (get_type K (context c) (left l)); [|discriminate]. destruct (negb (term_eqb t tbool)); [discriminate|].
    destruct (is_true (right l)) eqn:E1; [|discriminate].  destruct (positive l) eqn:E2; [|discriminate]. cbn [negb orb] in HP.
    destruct (if allow then Some None else reduce_exists_with_obvious_witness (left l)) as [[|]|]; try discriminate.
    destruct (left l) as [| |[] A0 b0]; try discriminate. injection HP as -> ->. auto. }
  destruct HB as (l & El & E1 & E2 & E3). destruct (HL l) as (T0 & _ & H1 & H2); [rewrite El; left; auto|]. rewrite E1 in H1.
  destruct (inv_quant M K _ _ _ _ _ _ (or_intror eq_refl) H1) as (-> & EA & Hb).
  destruct (clause_no_mention w c Nc) as [N1 N2]. destruct (N1 l) as [Nl _]; [rewrite El; left; auto|]. rewrite E1 in Nl. cbn [mentions] in Nl. apply orb_false_iff in Nl. destruct Nl as [NA Nb].
  (* the type *)
  unfold open_positive_exists in HO. rewrite (plain_order M (context c) HG) in HO. unfold remap in HO.
  set (G := context c) in *. set (order := List.seq 0 (length G)) in *.
  destruct (remap_from G order order) as [h|] eqn:ER; [|discriminate]. destruct (remap_plain M G order HG (length G) 0 h ER eq_refl) as [Eh Dn]. simpl in Eh. subst h.
  destruct (renumber_variables order A) as [ret|] eqn:EN; [|discriminate]. apply MonoNorm.renumber_closed in EN; [|apply (et_vars M); auto]. subst ret.
  destruct (witness_symbol_type G A) as [W|] eqn:EW; [|discriminate]. unfold witness_symbol_type in EW. rewrite (convert_et M) in EW by auto. apply (witness_type_arrows M) in EW; auto.
  set (witness := apply_args (TSym (SScoped w)) (map (fun v => TVar v) order)) in *.
  destruct (has_escaping_bound_variable witness); [discriminate|]. rewrite open_bound_spec in HO.
  destruct (normalize_boolean_reduction [lit_positive (open_at 0 witness b)] G (length G)) as [tr|] eqn:EB; [|discriminate]. cbn [option_map] in HO.
  injection HO as <- ->. subst W.
  (* the value *)
  set (Q := fun (rho : nat -> D M) (y : D M) => mem M y (ev M (nobs M) A) /\
    ((exists x, mem M x (ev M (nobs M) A) /\ eval M rho (scons x (nobs M)) b = dsym M STrue) -> eval M rho (scons y (nobs M)) b = dsym M STrue)).
  set (pick := fun rho => epsilon (inhabits (dsym M STrue)) (Q rho)).
  assert (PS : forall rho, Q rho (pick rho)).
  { intros rho. apply epsilon_spec. destruct (classic (exists x, mem M x (ev M (nobs M) A) /\ eval M rho (scons x (nobs M)) b = dsym M STrue)) as [(x & X & Y)|X].
    - exists x. split; auto.
    - destruct (et_inhabited M A (nobs M) (nobs M) EA) as [y Hy]. exists y. split; auto. intros Z. destruct (X Z). }
  set (v := wvalue M pick 0 G (nobs M)). set (WT := arrows G A).
  assert (EW : element_type M WT) by (apply arrows_et; auto).
  assert (Mv : mem M v (ev M (nobs M) WT)) by (apply wvalue_mem; auto; intros rho; apply PS).
  pose proof (ground_no_mention w WT (et_ground M _ EW)) as NW.
  assert (CT' : closed_types (with_scoped K w WT)).
  { intros s. destruct (mentions w (TSym s)) eqn:E; [|rewrite type_other by auto; apply CT]. destruct s; try discriminate. simpl in E. cbn [symbol_type with_scoped k_scoped]. rewrite E. apply (et_closed M WT EW). }
  assert (R' : respects (with_value M w v) (with_scoped K w WT)).
  { destruct R as [R1 R2 R3 R4]. constructor; auto.
    - intros s Hs rho. destruct (mentions w (TSym s)) eqn:E.
      + destruct s; try discriminate. simpl in E. cbn [symbol_type with_scoped k_scoped dsym with_value other_value]. rewrite E. rewrite ev_other by auto.
        unfold ev. rewrite (closed_eval M) by (apply (et_closed M); auto). exact Mv.
      + rewrite type_other by auto. rewrite ev_other by auto. change (dsym (with_value M w v) s) with (eval (with_value M w v) rho (nobs M) (TSym s)). rewrite eval_other by auto.
        apply R1; auto.
    - intros s rho. destruct (mentions w (TSym s)) eqn:E.
      + destruct s; try discriminate. simpl in E. cbn [symbol_type with_scoped k_scoped]. rewrite E. apply wt_other; auto. apply (et_swtg M); auto.
      + rewrite type_other by auto. apply wt_other; auto. }
  exists v. split; [exact CT'|]. split; [exact R'|].
  (* the clause before normalization *)
  assert (HW : has_type (with_value M w v) (with_scoped K w WT) G [] witness A).
  { unfold witness, order. apply ht_apply_vars; auto.
    - intros o Ho. destruct (Dn o Ho) as (U & X & Y). exists U. split; auto. apply et_other; auto.
    - apply et_other; auto.
    - intros j U Hj. unfold get_var_type. simpl. rewrite Hj. auto.
    - pose proof (ht_sym (with_value M w v) (with_scoped K w WT) G [] (SScoped w) eq_refl) as X. cbn [symbol_type with_scoped k_scoped] in X. rewrite N.eqb_refl in X. exact X. }
  assert (Hr : has_type (with_value M w v) (with_scoped K w WT) G [] (open_at 0 witness b) tbool).
  { apply ht_open with A; auto. apply ht_other; auto. }
  assert (Mt : mono_typed (with_value M w v) (with_scoped K w WT) (Clause [lit_positive (open_at 0 witness b)] G)).
  { apply mt_in. split; [intros i U HU; apply et_other; exact (HG i U HU)|]. intros l0 [<-|[]]. exists tbool. split; [apply et_bool|].
    assert (Ht : has_type (with_value M w v) (with_scoped K w WT) G [] ttrue tbool) by exact (ht_sym _ (with_scoped K w WT) G [] STrue eq_refl).
    unfold lit_positive, lit_new, lit_new_with_flip. destruct (needs_to_flip _ _); simpl; auto. }
  destruct (reduction_keeps _ _ _ _ _ _ _ _ CT' R' EB Mt) as [Y1 Y2]. split; [exact Y1|]. split; [|apply (et_uses M); auto]. apply Y2.
  intros rho Hrho. eexists. split; [left; reflexivity|]. unfold lit_positive. apply lit_new_holds. unfold lit_holds. cbn [positive left right].
  assert (Hv : valid_env M G rho).
  { intros i U HU. specialize (Hrho i U HU). rewrite ev_other in Hrho by (eapply N2; eauto). exact Hrho. }
  (* the value of the witness *)
  assert (Hi : forall j U, nth_error G j = Some (Some U) -> mem M (rho (0 + j)) (ev M (nobs M) U)).
  { intros j U Hj. specialize (Hv j U). unfold get_var_type in Hv. rewrite Hj in Hv. specialize (Hv eq_refl). unfold ev in Hv. rewrite (closed_eval M) in Hv by (apply (et_closed M); apply (HG j); auto). exact Hv. }
  destruct (wvalue_app M pick A EA (fun r => proj1 (PS r)) rho G 0 (nobs M) Dn Hi) as (rho' & X & Y & _).
  assert (Dv : dsym (with_value M w v) (SScoped w) = v) by (simpl; rewrite N.eqb_refl; auto).
  assert (Wv : eval (with_value M w v) rho (nobs (with_value M w v)) witness = pick rho').
  { unfold witness. rewrite eval_apply_vars. cbn [eval]. rewrite Dv. exact X. }
  unfold ev. rewrite eval_open, Wv, eval_other by auto.
  change (eval M rho (scons (pick rho') (nobs M)) b = dsym M STrue).
  assert (Ag : forall x, eval M rho (scons x (nobs M)) b = eval M rho' (scons x (nobs M)) b).
  { intros x. apply eval_ext; auto. intros i Hin. destruct (ht_vars M K _ _ _ _ i Hb Hin) as [U HU]. symmetry. apply Y.
    assert (i < length G); [|lia]. apply nth_error_Some. unfold get_var_type in HU. destruct (nth_error G i); congruence. }
  rewrite Ag. apply (PS rho').
  (* the existential holds *)
  destruct (Vc rho Hv) as (l1 & Hl1 & L1). rewrite El in Hl1. destruct Hl1 as [<-|[]]. unfold lit_holds in L1. 
  rewrite (is_true_eq M _ _ _ _ (proj1 (ht_value M K CT R G _ _ rho H2 Hv)) E2) in L1. rewrite E1, E3 in L1.
  destruct (ht_value M K CT R G _ _ rho H1 Hv) as [SW _]. destruct SW as (_ & _ & SW).
  pose proof (proj2 (ex_val M (eval M rho (nobs M) A) (fun x => eval M rho (scons x (nobs M)) b) (fun x Hx => proj2 (SW x Hx)))) as EX.
  destruct (proj1 EX L1) as (x & Hx & Bx). rewrite (closed_eval M) in Hx by (apply (et_closed M); auto). exists x. split; auto. rewrite <- Ag. exact Bx.
Qed.
End Open.

Lemma scoped_used K w T : parameters_used K -> uses_parameters T -> parameters_used (with_scoped K w T).
Proof. intros H HT s Hs. destruct s; try exact (H _ Hs). cbn [symbol_type with_scoped k_scoped]. destruct (N.eqb i w); auto. exact (H _ Hs). Qed.
