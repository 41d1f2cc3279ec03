(** C52: what the validation of claims guarantees. *)
From Coq Require Import List Arith NArith Bool Lia.
Import ListNotations.
From Verif Require Import VariableMap Unifier Inference ClauseSet EqualityGraph Checker CertificateStep ClaimValidation.
From Verif Require Import Term LocalContext Semantics TermProofs SemFacts TermNorm TermNormProofs Typing TypingProofs FiniteTyping FiniteModel Literal Clause ClauseSem RenumberProofs ClauseProofs ClauseWf
  VariableMapProofs P_EqualityInferences P_Instantiation CheckerProofs CheckerSem P_Checker Fragment TraceChecker TraceProofs P_TraceChecker Monomorphic MonoProofs MonoReduce P_Monomorphic.

Lemma all_res_true {A} (f : A -> res bool) l : all_res f l = Ok true -> forall x, In x l -> f x = Ok true.
Proof.
  induction l as [|x l IH]; simpl; intros H y Hy; [destruct Hy|]. dob H. destruct a; [|discriminate]. destruct Hy as [<-|Hy]; auto.
Qed.
Lemma vget_length m i (r : term) : vget m i = Some r -> i < length m.
Proof. unfold vget. intros H. apply nth_error_Some. destruct (nth_error m i); congruence. Qed.

Lemma payload_parts n K al cl : validate_payload n K al cl = Ok true -> exists rc s,
  replacement_context cl = Some rc /\ claim_specialized n al cl = Ok (Some s) /\ validate_clause n K (clm_clause cl) = Ok true /\ validate_clause n K s = Ok true /\
  forall i r, vget (clm_map cl) i = Some r -> exists T E A A', get_var_type (context (clm_clause cl)) i = Some T /\
    normalize_term n (apply_to_term (clm_map cl) T) = Some E /\ checked_type K rc r = Some A /\ normalize_term n A = Some A' /\
    has_expected_type K rc r A' E = true.
Proof.
  unfold validate_payload. destruct (map_in_scope cl); [|discriminate]. intros H. dob H. destruct a; [|discriminate].
  dob H. destruct a; [|discriminate]. dob H. destruct a as [s|]; [|discriminate].
  unfold validate_map_types in E0. dob E0. apply unwrap_ok in E2. exists a, s. split; auto. split; auto. split; auto. split; auto.
  intros i r Hr. pose proof (all_res_true _ _ E0 i) as X. unfold map_entry_ok in X. rewrite Hr in X.
  assert (I : In i (seq 0 (length (clm_map cl)))) by (apply in_seq; apply vget_length in Hr; lia). specialize (X I).
  destruct (get_var_type (context (clm_clause cl)) i) as [T|] eqn:ET; [|discriminate].
  dob X. apply fueled_ok in E3. destruct (checked_type K a r) as [A|] eqn:EA; [|discriminate]. dob X. apply fueled_ok in E4. injection X as X.
  exists T, a0, A, a1. auto.
Qed.

(** The specialized clause of a validated claim follows from the generic one, if no variable that gets an argument
    has a type class as its type, the types are in normal form, and the arguments are well typed below quantifiers. *)
Theorem validated_claims_hold_partial : forall n K al cl c c', validate_payload n K al cl = Ok true ->
  specialize_clause al (clm_map cl) (claim_generic cl) = Some c -> claim_specialized n al cl = Ok (Some c') ->
  (forall i r, vget (clm_map cl) i = Some r -> lc r /\ valterm r = true) ->
  (forall i T v, get_var_type (context (claim_generic cl)) i = Some T -> vget (clm_map cl) i = None -> In v (vars T) -> vget (clm_map cl) v = None) ->
  (forall i r T, vget (clm_map cl) i = Some r -> get_var_type (context (claim_generic cl)) i = Some T ->
     normalize_term n (apply_to_term (clm_map cl) T) = Some (apply_to_term (clm_map cl) T) /\
     (forall m j, apply_to_term (clm_map cl) T <> TSym (STypeclass m j)) /\
     forall A, checked_type K (context c) r = Some A -> normalize_term n A = Some A) ->
  ctx_closed (context c) ->
  forall M, eta_model M -> respects M K -> aliases_ok M al -> suitable M c ->
  (forall m i x, mem M x (dsym M (STypeclass m i)) -> mem M x (dsym M SType0)) ->
  (forall rho, valid_env M (context c) rho -> forall i r, vget (clm_map cl) i = Some r -> wt M rho r) ->
  valid M (claim_generic cl) -> valid M c'.
Proof.
  intros n K al cl c c' H Es Ec Hm Hu Hn Cc M He R Ha Sc TC Hw.
  destruct (payload_parts _ _ _ _ H) as (rc & s & Erc & _ & _ & _ & P).
  assert (rc = context c) as ->.
  { unfold replacement_context in Erc. unfold specialize_clause, claim_generic in Es. destruct (build_output_context _ _); [|discriminate].
    simpl in Erc, Es. injection Erc as <-. injection Es as <-. reflexivity. }
  apply (specialized_claims_hold_partial n al cl c c' Ec Es M He Ha Sc); auto.
  - intros i r Hr. apply (Hm i r Hr).
  - intros rho V i T r HT Hr. destruct (P i r Hr) as (T0 & E & A & A' & ET & En & EA & EA' & X).
    change (clm_clause cl) with (claim_generic cl) in ET. rewrite HT in ET. injection ET as <-.
    destruct (Hn i r T Hr HT) as (N1 & N2 & N3). rewrite (N3 A EA) in EA'. injection EA' as <-. rewrite N1 in En. injection En as <-.
    destruct (Hm i r Hr) as [_ Vr].
    assert (Sv : forall w, In w (vars r) -> w < length (context c)).
    { intros w Hw'. unfold specialize_clause in Es. destruct (build_output_context (clm_map cl) (context (claim_generic cl))) as [out|] eqn:Eo; [|discriminate].
      simpl in Es. injection Es as <-. cbn [context]. destruct (output_context_get _ _ _ _ _ Eo w) as [Y _].
      destruct Y as (U & _ & Y2); [eauto|].
      assert (Y3 : exists U', get_var_type (keep_unmapped (clm_map cl) (context (claim_generic cl)) out) w = Some U').
      { unfold keep_unmapped. revert Y2. generalize (apply_to_term (clm_map cl) U). clear. revert out. induction (seq 0 (length (context (claim_generic cl)))) as [|j l IH]; intros out T H; [eauto|].
        simpl. destruct (vget (clm_map cl) j); [eapply IH; eauto|]. destruct (get_var_type (context (claim_generic cl)) j) as [U|] eqn:E; [|eapply IH; eauto].
        destruct (Nat.eqb_spec j w) as [->|Hj].
        - apply (IH _ U). rewrite get_var_set_type, Nat.eqb_refl. reflexivity.
        - apply (IH _ T). rewrite get_var_set_type. destruct (Nat.eqb_spec j w); [contradiction|exact H]. }
      destruct Y3 as [U' Y3]. unfold get_var_type in Y3. apply nth_error_Some. destruct (nth_error _ w); congruence. }
    pose proof (typing_sound M (tsize r) K (context c) r A (checked_type_get _ _ _ _ EA) R Cc Sv Vr rho V (Hw rho V i r Hr)) as Mem.
    set (E := apply_to_term (clm_map cl) T) in *.
    assert (G : term_eqb A E = true -> mem M (ev M rho r) (ev M rho E)) by (intros Q; apply term_eqb_eq in Q; rewrite <- Q; exact Mem).
    unfold has_expected_type in X. destruct E as [[j|j|[]]| |] eqn:EE; auto.
    + apply orb_prop in X. destruct X as [X|X]; auto. destruct A as [[j|j|[]]| |]; try discriminate; auto. eapply TC; exact Mem.
    + exfalso. eapply N2; reflexivity.
Qed.
Print Assumptions validated_claims_hold_partial.

Lemma clause_parts n K c : validate_clause n K c = Ok true ->
  (forall i T, get_var_type (context c) i = Some T -> exists k, checked_type K (context c) T = Some k /\ is_type_param_kind k = true) /\
  forall l, In l (literals c) -> exists A B E, checked_type K (context c) (left l) = Some A /\ checked_type K (context c) (right l) = Some B /\
    normalize_term n A = Some E /\ normalize_term n B = Some E.
Proof.
  unfold validate_clause. destruct (validate_variable_ordering (context c) && _) eqn:E; [|discriminate]. intros H. apply andb_prop in E as [_ E]. split.
  - intros i T HT. rewrite forallb_forall in E. unfold get_var_type in HT. destruct (nth_error (context c) i) as [o|] eqn:En; [|discriminate]. destruct o as [T'|]; [|discriminate]. injection HT as ->.
    specialize (E _ (nth_error_In _ _ En)). simpl in E. destruct (checked_type K (context c) T) as [k|]; [eauto|discriminate].
  - intros l Hl. pose proof (all_res_true _ _ H l Hl) as X. unfold literal_ok in X.
    destruct (checked_type K (context c) (left l)) as [A|]; [|discriminate]. dob X. apply fueled_ok in E0.
    destruct (checked_type K (context c) (right l)) as [B|]; [|discriminate]. dob X. apply fueled_ok in E1. injection X as X. apply term_eqb_eq in X. subst a0. eauto 8.
Qed.
(** The generic and the specialized clause of a validated claim are well-typed: the two sides of a literal of values are elements of
    one type, whatever the interpretation, and the variables' types are types. *)
Theorem validated_clauses_are_typed : forall n K al cl c, validate_payload n K al cl = Ok true ->
  c = claim_generic cl \/ claim_specialized n al cl = Ok (Some c) -> ctx_closed (context c) ->
  (forall l, In l (literals c) -> (forall v, In v (vars (left l)) \/ In v (vars (right l)) -> v < length (context c)) ->
    valterm (left l) = true -> valterm (right l) = true ->
    (forall A, checked_type K (context c) (left l) = Some A \/ checked_type K (context c) (right l) = Some A -> normalize_term n A = Some A) ->
    exists E, forall M, respects M K -> forall rho, valid_env M (context c) rho ->
      wt M rho (left l) -> wt M rho (right l) -> mem M (ev M rho (left l)) (ev M rho E) /\ mem M (ev M rho (right l)) (ev M rho E)) /\
  (forall i T, get_var_type (context c) i = Some T -> (forall v, In v (vars T) -> v < length (context c)) -> valterm T = true ->
    forall M, respects M K -> (forall m j x, mem M x (dsym M (STypeclass m j)) -> mem M x (dsym M SType0)) ->
    forall rho, valid_env M (context c) rho -> wt M rho T -> mem M (ev M rho T) (dsym M SType0)).
Proof.
  intros n K al cl c H Hc Cc. destruct (payload_parts _ _ _ _ H) as (rc & s & _ & Es & G & S & _).
  assert (Vc : validate_clause n K c = Ok true) by (destruct Hc as [->|Hc]; [exact G|rewrite Hc in Es; injection Es as ->; exact S]).
  destruct (clause_parts _ _ _ Vc) as [P Q]. split.
  - intros l Hl Sv Vl Vr Nf. destruct (Q l Hl) as (A & B & E & EA & EB & NA & NB). rewrite (Nf A (or_introl EA)) in NA. injection NA as <-.
    rewrite (Nf B (or_intror EB)) in NB. injection NB as ->. exists A. intros M R rho V Wl Wr. split.
    + exact (typing_sound M _ K (context c) _ A (checked_type_get _ _ _ _ EA) R Cc (fun v h => Sv v (or_introl h)) Vl rho V Wl).
    + exact (typing_sound M _ K (context c) _ A (checked_type_get _ _ _ _ EB) R Cc (fun v h => Sv v (or_intror h)) Vr rho V Wr).
  - intros i T HT Sv Vt M R TC rho V Wt. destruct (P i T HT) as (k & Ek & Hk). apply checked_type_get in Ek.
    pose proof (typing_sound M (tsize T) K (context c) T k Ek R Cc Sv Vt rho V Wt) as Y.
    destruct k as [[j|j|[]]| |]; try discriminate Hk; [exact Y|eapply TC; exact Y].
Qed.
Print Assumptions validated_clauses_are_typed.

(** ** A validated claim: [function[T](x: T) { id(x) = x }[A](c)] *)
Definition cv_generic := Clause [Lit true (TApp (TApp (TSym (SGlobal 0 2)) (TVar 0)) (TVar 1)) (TVar 1)] [Some type0; Some (TVar 0)].
Definition cv_claim := CLAIM cv_generic [Some ei_A; Some mn_c].
Definition cv_result := Clause [Lit true (mn_id mn_c) mn_c] [].
Example validated_claims_hold_case :
  validate_payload 20 mn_K no_aliases cv_claim = Ok true /\ specialize_clause no_aliases (clm_map cv_claim) cv_generic = Some cv_result /\
  claim_specialized 20 no_aliases cv_claim = Ok (Some cv_result) /\
  (forall i r, vget (clm_map cv_claim) i = Some r -> lc r /\ valterm r = true) /\
  (forall i r T, vget (clm_map cv_claim) i = Some r -> get_var_type (context cv_generic) i = Some T ->
     normalize_term 20 (apply_to_term (clm_map cv_claim) T) = Some (apply_to_term (clm_map cv_claim) T) /\
     (forall m j, apply_to_term (clm_map cv_claim) T <> TSym (STypeclass m j)) /\
     forall A, checked_type mn_K [] r = Some A -> normalize_term 20 A = Some A) /\
  eta_model mn_M /\ respects mn_M mn_K /\ suitable mn_M cv_result /\
  (forall m i x, mem mn_M x (dsym mn_M (STypeclass m i)) -> mem mn_M x (dsym mn_M SType0)) /\
  (forall rho i r, vget (clm_map cv_claim) i = Some r -> wt mn_M rho r) /\
  valid mn_M cv_generic.
Proof.
  split; [vm_compute; reflexivity|]. split; [reflexivity|]. split; [vm_compute; reflexivity|].
  split; [intros [|[|i]] r H; try discriminate H; [injection H as <-; split; reflexivity|injection H as <-; split; reflexivity|destruct i; discriminate H]|].
  split.
  { intros [|[|i]] r T H HT; [| |destruct i; discriminate H]; injection H as <-; injection HT as <-; (split; [vm_compute; reflexivity|split; [intros; discriminate|]]);
    intros A H; vm_compute in H; injection H as <-; vm_compute; reflexivity. }
  split; [exact mn_eta|]. split; [exact mn_respects|]. split.
  { pose proof mn_closed as CT. apply (mt_suitable mn_M mn_K mn_closed mn_respects). enough (H : mono mn_M mn_K cv_result) by exact (proj1 H). mn_mono. }
  split; [intros m i x H; vm_compute in H |- *; tauto|].
  split; [intros rho [|[|i]] r H; [| |destruct i; discriminate H]; injection H as <-; exact Logic.I|].
  intros rho V. eexists. split; [left; reflexivity|]. unfold lit_holds, ev. cbn [positive left right eval].
  pose proof (V 0 _ eq_refl) as V0. pose proof (V 1 _ eq_refl) as V1. unfold ev in V0, V1. cbn [eval] in V0, V1.
  assert (E : rho 0 = VBool \/ rho 0 = VBase 0 0 2) by (vm_compute in V0; intuition).
  destruct E as [E|E]; rewrite E in V1 |- *.
  - assert (F : rho 1 = VTrue \/ rho 1 = VFalse) by (vm_compute in V1; intuition). destruct F as [F|F]; rewrite F; reflexivity.
  - assert (F : rho 1 = ei_e0 \/ rho 1 = ei_e1) by (vm_compute in V1; intuition). destruct F as [F|F]; rewrite F; reflexivity.
Qed.

Example validated_clauses_are_typed_case : validate_payload 20 mn_K no_aliases cv_claim = Ok true /\ ctx_closed (context cv_generic) /\
  valterm (left (hd (Lit true (TVar 0) (TVar 0)) (literals cv_generic))) = true /\
  checked_type mn_K (context cv_generic) (left (hd (Lit true (TVar 0) (TVar 0)) (literals cv_generic))) = Some (TVar 0) /\
  normalize_term 20 (TVar 0) = Some (TVar 0) /\ respects mn_M mn_K /\
  let rho i := match i with 0 => VBase 0 0 2 | _ => ei_e1 end in
  valid_env mn_M (context cv_generic) rho /\
  wt mn_M rho (left (hd (Lit true (TVar 0) (TVar 0)) (literals cv_generic))).
Proof.
  split; [vm_compute; reflexivity|]. split; [intros [|[|[|i]]] T v H Hv; try discriminate H; injection H as <-; simpl in Hv |- *; intuition lia|].
  split; [reflexivity|]. split; [vm_compute; reflexivity|]. split; [reflexivity|]. split; [exact mn_respects|]. cbv zeta. split.
  - intros [|[|[|i]]] T H; try discriminate H; injection H as <-; vm_compute; tauto.
  - vm_compute. tauto.
Qed.

(** ** What the validation does not see
    [A] has two elements, [c] and [f(c)], and [U] has one.  [U] is the only instance of the type class. *)
Definition cw_K : kctx :=
  {| k_type := fun _ _ => type0; k_global := fun _ i => if N.eqb i 0 then ei_A else tarrow ei_A ei_A; k_scoped := fun _ => tbool;
     k_instance := fun t _ _ => term_eqb t (TSym (SType 1 2)); k_extends := fun _ _ => false; k_value_params := fun _ => false |}.
Definition cw_I (s : symbol) : V :=
  match s with
  | SType _ i => if N.eqb i 2 then VBase 0 0 1 else VBase 0 0 2
  | SGlobal _ i => if N.eqb i 0 then ei_e0 else VFun (VBase 0 0 2) [ei_e1; ei_e0]
  | STypeclass _ _ => VSort 1
  | _ => VTrue
  end.
Definition cw_M : Model := fin_model (fun k => if N.eqb k 0 then [VBool; VBase 0 0 2; VBase 0 0 1] else [VBase 0 0 1]) cw_I.
Lemma cw_eta : eta_model cw_M.
Proof.
  apply fin_model_eta.
  - intros k x. simpl. destruct (N.eqb k 0); simpl; intros; intuition; subst; exact Logic.I.
  - intros x. simpl. intros; intuition; subst; exact Logic.I.
Qed.
Lemma cw_respects : respects cw_M cw_K.
Proof.
  apply fin_respects.
  - left; reflexivity.
  - intros x Hx. vm_compute in Hx. repeat (destruct Hx as [<-|Hx]; [exact Logic.I|]). contradiction.
  - intros; exact Logic.I.
  - intros m i rho. cbn [cw_K k_global]. destruct (N.eqb i 0); vm_compute; tauto.
  - intros; exact Logic.I.
  - intros m i rho. cbn [cw_I cw_K k_type]. destruct (N.eqb i 2); vm_compute; tauto.
  - intros m i rho. cbn [cw_I cw_K k_global]. destruct (N.eqb i 0); vm_compute; tauto.
  - intros i rho. vm_compute; tauto.
Qed.
Definition cw_c := TSym (SGlobal 0 0).
Definition cw_fc := TApp (TSym (SGlobal 0 1)) cw_c.

(** Any type is accepted for a variable whose type is a type class: [x1 = x2] holds for the elements of every
    instance of the class, and the validated claim gives [f(c) = c]. *)
Definition cw_class := CLAIM (Clause [Lit true (TVar 1) (TVar 2)] [Some (TSym (STypeclass 0 0)); Some (TVar 0); Some (TVar 0)]) [Some ei_A; Some cw_fc; Some cw_c].
Theorem class_arguments_refuted : exists K cl c' M, validate_payload 20 K no_aliases cl = Ok true /\
  claim_specialized 20 no_aliases cl = Ok (Some c') /\ eta_model M /\ respects M K /\
  (forall t c m i rho, k_instance K t c (m, i) = true -> mem M (ev M rho t) (dsym M (STypeclass m i))) /\
  valid M (claim_generic cl) /\ ~ valid M c'.
Proof.
  exists cw_K, cw_class. eexists. exists cw_M. split; [vm_compute; reflexivity|]. split; [vm_compute; reflexivity|].
  split; [exact cw_eta|]. split; [exact cw_respects|]. split.
  - intros t c m i rho H. cbn in H. apply term_eqb_eq in H. subst t. vm_compute. tauto.
  - split.
    + intros rho V. eexists. split; [left; reflexivity|]. unfold lit_holds, ev. cbn [positive left right eval].
      pose proof (V 0 _ eq_refl) as V0. pose proof (V 1 _ eq_refl) as V1. pose proof (V 2 _ eq_refl) as V2. unfold ev in V0, V1, V2. cbn [eval] in V0, V1, V2.
      assert (E : rho 0 = VBase 0 0 1) by (vm_compute in V0; intuition). rewrite E in V1, V2. vm_compute in V1, V2. intuition congruence.
    + intros V. destruct (V (nobs _)) as (l & [<-|[]] & H); [intros [|i] T HT; discriminate HT|]. vm_compute in H. discriminate.
Qed.
Print Assumptions class_arguments_refuted.

(** The kind of all types is accepted as a type: no type has three elements, but there are three types. *)
Definition cw_kind := CLAIM (Clause [Lit true (TVar 1) (TVar 2); Lit true (TVar 1) (TVar 3); Lit true (TVar 2) (TVar 3)]
  [Some type0; Some (TVar 0); Some (TVar 0); Some (TVar 0)]) [Some type0; Some tbool; Some ei_A; Some (TSym (SType 1 2))].
Theorem kind_arguments_refuted : exists K cl c' M, validate_payload 20 K no_aliases cl = Ok true /\
  claim_specialized 20 no_aliases cl = Ok (Some c') /\ eta_model M /\ respects M K /\ valid M (claim_generic cl) /\ ~ valid M c'.
Proof.
  exists cw_K, cw_kind. eexists. exists cw_M. split; [vm_compute; reflexivity|]. split; [vm_compute; reflexivity|].
  split; [exact cw_eta|]. split; [exact cw_respects|]. split.
  - intros rho V.
    pose proof (V 0 _ eq_refl) as V0. pose proof (V 1 _ eq_refl) as V1. pose proof (V 2 _ eq_refl) as V2. pose proof (V 3 _ eq_refl) as V3.
    unfold ev in V0, V1, V2, V3. cbn [eval] in V0, V1, V2, V3.
    assert (E : rho 1 = rho 2 \/ rho 1 = rho 3 \/ rho 2 = rho 3).
    { assert (E : rho 0 = VBool \/ rho 0 = VBase 0 0 2 \/ rho 0 = VBase 0 0 1) by (vm_compute in V0; intuition).
      destruct E as [E|[E|E]]; rewrite E in V1, V2, V3; vm_compute in V1, V2, V3; intuition congruence. }
    destruct E as [E|[E|E]];
      [exists (Lit true (TVar 1) (TVar 2))|exists (Lit true (TVar 1) (TVar 3))|exists (Lit true (TVar 2) (TVar 3))]; (split; [simpl; auto|exact E]).
  - intros V. destruct (V (nobs _)) as (l & Hl & H); [intros [|i] T HT; discriminate HT|].
    repeat (destruct Hl as [<-|Hl]; [vm_compute in H; discriminate|]). destruct Hl.
Qed.
Print Assumptions kind_arguments_refuted.

(** Neither the bodies of quantifiers nor the sides of function types are looked at. *)
Definition cw_body := TBind KAll ei_A cw_c.
Definition cw_quant := CLAIM (Clause [Lit true (TVar 0) (TVar 0)] [Some tbool]) [Some cw_body].
Definition cw_pi := CLAIM (Clause [Lit true (TVar 0) (TVar 0)] [Some (TBind KPi ttrue cw_c)]) [].
Theorem unchecked_binders_refuted : exists K cl r cl' T M, eta_model M /\ respects M K /\
  validate_payload 20 K no_aliases cl = Ok true /\ vget (clm_map cl) 0 = Some r /\ (forall rho, ~ wt M rho r) /\
  validate_payload 20 K no_aliases cl' = Ok true /\ get_var_type (context (claim_generic cl')) 0 = Some T /\ forall rho, ~ wt M rho T.
Proof.
  exists cw_K, cw_quant, cw_body, cw_pi. eexists. exists cw_M. split; [exact cw_eta|]. split; [exact cw_respects|].
  split; [vm_compute; reflexivity|]. split; [reflexivity|]. split.
  - intros rho (_ & _ & H). assert (X : mem cw_M ei_e0 (eval cw_M rho (nobs cw_M) ei_A)) by (vm_compute; tauto). destruct (H _ X) as [_ Y]. vm_compute in Y. intuition discriminate.
  - split; [vm_compute; reflexivity|]. split; [reflexivity|]. intros rho (_ & [H _] & _). vm_compute in H. exact H.
Qed.
Print Assumptions unchecked_binders_refuted.
