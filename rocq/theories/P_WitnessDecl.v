(** C64: the [let ... satisfy] lines of certificates are conservative if their constants are new.  With constants of the
    registry they are not.  The clauses are those of Monomorphic.v, the values of the constants are chosen with the axioms of
    the standard library's ClassicalEpsilon as in P_Witness.v. *)
From Coq Require Import List Arith NArith Bool Lia Permutation.
Import ListNotations.
From Verif Require Import Pdt PdtProofs VariableMap Unifier Inference ClauseSet EqualityGraph Checker CertificateStep TraceChecker.
From Verif Require Import Term LocalContext Semantics TermProofs SemFacts TermNorm TermNormProofs Typing TypingProofs FiniteTyping FiniteModel Literal Clause ClauseSem RenumberProofs ClauseProofs ClauseWf InferenceProofs
  VariableMapProofs UnifierProofs BoolReduction BoolReductionProofs CheckerProofs CheckerSem CheckerSets P_TermNorm P_Clause P_EqualityInferences P_Unifier P_Instantiation P_LiteralSet P_Checker Fragment TraceProofs P_TraceChecker
  Monomorphic MonoProofs MonoNorm MonoReduce MonoUnify MonoRules MonoMatch MonoInfer MonoClaim P_Monomorphic SearchRules SearchProofs SearchSimplify SearchRewrite P_Search Witness WitnessProofs P_Witness
  WitnessDecl WitnessDeclProofs.

(** ** Declarations
    The constants of [ds] were declared one after the other ([declared] also says that each was new).  Every interpretation
    has values for them with which the declared clauses hold whose existence holds.  Nothing else changes. *)
Theorem witness_declarations_conservative : forall M0 K0 K ds, declared M0 K0 K ds -> closed_types K0 -> parameters_used K0 -> respects M0 K0 ->
  exists M, closed_types K /\ parameters_used K /\ respects M K /\
    (forall w d c, In (w, d) ds -> declared_clause w d = Some c -> mono_typed M K c /\ (valid M (existence d) -> valid M c)) /\
    forall x, (forall w, In w (map fst ds) -> clause_mentions w x = false) ->
      (mono_typed M0 K0 x -> mono_typed M K x) /\ (valid M0 x <-> valid M x).
Proof.
  intros M0 K0 K ds H CT UP R. destruct (declarations_have_values M0 K0 K ds H CT UP R) as (M & V & C & P & RM & Hd & Hm).
  exists M. split; [auto|]. split; [auto|]. split; [auto|]. split.
  - intros w d c Hi E. destruct (Hd w d c Hi E) as (X & _ & Y). auto.
  - intros x N. split; [apply Hm; auto|]. apply (revalued_valid _ _ _ V); auto.
Qed.
Print Assumptions witness_declarations_conservative.

(** ** Traces with declarations
    The line of a step declares one of the constants; the clauses it asserts follow from the declared one (by C56 those of
    the clausifier do). *)
Definition declaring_step (M : Model) (K : kctx) (n : nat) (al : aliases) (ds : list (N * declaration)) (t : tstep) : Prop :=
  exists w d cl c0 j sp ws, In (w, d) ds /\ justification d = Some cl /\ declared_clause w d = Some c0 /\
    claim_specialized n al cl = Ok (Some j) /\ st_parsed t = PSatisfy (claim_generic cl) (Some j) sp ws /\ mono M K (claim_generic cl) /\
    forall c, sp = Some c \/ In c ws -> mono M K c /\ forall M', closed_types K -> respects M' K -> mono_typed M' K c0 -> valid M' c0 -> valid M' c.

Lemma justified M K d cl : closed_types K -> respects M K -> mono_typed M K (existence d) -> justification d = Some cl ->
  valid M (claim_generic cl) -> valid M (existence d).
Proof.
  intros CT R H E V. unfold justification in E. destruct (normalized (existence d)) as [g|] eqn:En; [|discriminate]. injection E as <-.
  destruct (mt_suitable M K CT R _ H) as [S1 _ _]. apply (normalization_reflects_validity _ _ (or_introl (ex_intro _ 0 En))); auto. intros rho Hr l Hl. apply (pwt_wt _ _ S1); auto.
Qed.
Lemma declaring_step_good M K n al ds t : closed_types K -> respects M K -> eta_model M -> aliases_ok M al -> aliases_typed M K al ->
  (forall w d c, In (w, d) ds -> declared_clause w d = Some c -> mono_typed M K c /\ mono_typed M K (existence d) /\ (valid M (existence d) -> valid M c)) ->
  declaring_step M K n al ds t -> good_step M (mono M K) t.
Proof.
  intros CT R He Ha Ht Hd (w & d & cl & c0 & j & sp & ws & Hi & Ej & Ec & Es & Ep & Hg & Hc).
  destruct (Hd w d c0 Hi Ec) as (X1 & X2 & X3).
  assert (Hn : forall i, vget (clm_map cl) i = None).
  { unfold justification in Ej. destruct (normalized (existence d)); [|discriminate]. injection Ej as <-. intros [|i]; reflexivity. }
  destruct (monomorphic_claims_hold M K n al cl j CT R He Ha Ht (proj1 Hg)) as (Y1 & Y2 & Y3); auto.
  { intros i r E. rewrite Hn in E. discriminate. }
  constructor; rewrite Ep; try discriminate. intros g j' sp' ws' E. injection E as <- <- <- <-. split; [auto|]. split; [auto|]. split; [split; auto|].
  intros c Hx. destruct (Hc c Hx) as [Z1 Z2]. split; auto. intros V. apply Z2; auto. apply X3. apply (justified M K d cl); auto.
Qed.

(** C01 with witnesses: an accepted trace of claims and of declarations of new constants refutes the facts. *)
Theorem monomorphic_witness_traces_sound : forall K0 K ts inhab avail path ordk ordc orde,
  (forall n l, Permutation (ordk n l) l) -> (forall n l, Permutation (ordc n l) l) -> (forall l, incl (orde l) l) ->
  closed_types K0 -> parameters_used K0 ->
  forall n facts s steps al, deep_history K ts inhab avail path ordk ordc orde n facts [] s ->
  check_trace K ts inhab avail path ordk ordc orde n s steps = Ok true ->
  forall M0 ds, eta_model M0 -> respects M0 K0 -> declared M0 K0 K ds ->
  (forall M, revalued M0 (map fst ds) M -> forall T c, inhab T c = true -> inhabited_at M c T) ->
  aliases_ok M0 al -> aliases_typed M0 K al ->
  (forall s l s' w, al_lookup al s l = Some s' -> In w (map fst ds) -> mentions w (apply (TSym s) l) = false /\ s' <> SScoped w) ->
  (forall c, In c facts -> mono M0 K0 c /\ forall w, In w (map fst ds) -> clause_mentions w c = false) ->
  (forall t, In t steps -> claim_step M0 K n al t \/ declaring_step M0 K n al ds t) ->
  ~ (forall c, In c facts -> valid M0 c).
Proof.
  intros K0 K ts inhab avail path ordk ordc orde Pk Pc Pe CT0 UP0 n facts s steps al H E M0 ds He R0 HD Hs Ha Hat Hal Hf Ht Hv.
  destruct (declarations_have_values M0 K0 K ds HD CT0 UP0 R0) as (M & V & CT & UP & R & Hd & Hm).
  pose proof (revalued_mt _ _ _ V K) as EM. pose proof (revalued_types _ _ _ V K) as ET.
  assert (Mo : forall c, mono M0 K c -> mono M K c) by (intros c [X Y]; split; auto; apply EM; auto).
  pose proof (revalued_eta _ _ _ V He) as He'. pose proof (revalued_aliases _ _ _ al V Ha Hal) as Ha'.
  assert (Hat' : aliases_typed M K al).
  { intros s0 l s' El G bs U HU. apply (Hat s0 l s' El G bs). apply ET. auto. }
  apply (monomorphic_trace_sound_partial K ts inhab avail path ordk ordc orde Pk Pc Pe CT UP n facts s steps H E M He' R (Hs M V)).
  - intros c Hc. destruct (Hf c Hc) as [[X Y] N]. split; auto.
  - intros t Hi. destruct (Ht t Hi) as [(cl & c' & Ep & Es & Hg & Hc & Hl)|(w & d & cl & c0 & j & sp & ws & Hi' & Ej & Ec & Es & Ep & Hg & Hc)].
    + apply (claim_step_good M K n al t); auto. exists cl, c'. split; [auto|]. split; [auto|]. split; [auto|]. split; [|auto].
      intros i r Er. destruct (Hc i r Er) as (T & X & Y). exists T. split; auto. apply ET. auto.
    + apply (declaring_step_good M K n al ds t); auto. exists w, d, cl, c0, j, sp, ws. do 6 (split; [auto|]). intros c Hx. destruct (Hc c Hx). auto.
  - intros c Hc. destruct (Hf c Hc) as [_ N]. apply (revalued_valid _ _ _ V); auto.
Qed.
Print Assumptions monomorphic_witness_traces_sound.

(** A line that the parser accepts and that finds nothing in the registry is such a declaration. *)
Theorem new_witness_lines_declare : forall M n al K r w d K' s p ds t, parse_satisfy n al K r w d = Some (K', s, p) ->
  (forall cl j, justification d = Some cl -> claim_specialized n al cl = Ok (Some j) -> existing_witness r (claim_generic cl) j = None) ->
  K' = with_scoped K w (declared_type d) /\ s = w /\
  (st_parsed t = p -> In (w, d) ds -> forall K1, (forall cl, justification d = Some cl -> mono M K1 (claim_generic cl)) ->
   (forall g j sp ws c, p = PSatisfy g j sp ws -> In c ws -> mono M K1 c) -> declaring_step M K1 n al ds t).
Proof.
  intros M n al K r w d K' s p ds t E N. unfold parse_satisfy in E. destruct (justification d) as [cl|] eqn:Ej; [|discriminate].
  destruct (claim_specialized n al cl) as [[j|]| |] eqn:Es; try discriminate. rewrite (N cl j eq_refl Es) in E. cbn [register_constant] in E.
  destruct (declared_clause w d) as [c0|] eqn:Ec; [|discriminate]. destruct (normalized c0) as [c1|] eqn:En; [|discriminate]. injection E as <- <- <-.
  split; [auto|]. split; [auto|]. intros Ep Hi K1 Hg Hc. exists w, d, cl, c0, j, None, [c1].
  split; [auto|]. split; [auto|]. split; [auto|]. split; [auto|]. split; [auto|]. split; [auto|].
  intros c [X|[<-|[]]]; [discriminate|]. split; [eapply Hc; eauto; left; auto|]. intros M' CT R Hm V.
  destruct (normalize_faithful _ _ _ En) as [ids F]. destruct (mt_suitable M' K1 CT R _ Hm) as [S1 S2 S3].
  assert (Wt : clause_wt M' c0) by (intros rho Hr x Hx; apply (pwt_wt _ _ S1); auto).
  destruct (faithful_preserves M' _ _ _ F Wt (all_completable M' _ _ S2 (faithful_closed _ _ _ F) S3)) as [X _]. auto.
Qed.
Print Assumptions new_witness_lines_declare.

(** ** Concrete cases
    A type with two elements [a] and [b]; [P(x, y, z)] is [z = x]; the scoped constants are functions of two arguments, their
    value is the first argument.  [wd_swapped] is the line [let h(x: A, y: A) -> z: A satisfy { P(y, x, z) }]. *)
Definition wd_K : kctx :=
  {| k_type := fun _ _ => type0;
     k_global := fun _ i => if N.eqb i 5 then tarrow ei_A (tarrow ei_A (tarrow ei_A tbool)) else ei_A;
     k_scoped := fun _ => tarrow ei_A (tarrow ei_A ei_A);
     k_instance := fun _ _ _ => false; k_extends := fun _ _ => false; k_value_params := fun _ => false |}.
Definition wd_fun (x y : V) : V := VFun (VBase 0 0 2) [x; y].
Definition wd_I (s : symbol) : V :=
  match s with
  | SType _ _ => VBase 0 0 2
  | SGlobal _ i => if N.eqb i 5 then wd_fun (wd_fun (wd_fun VTrue VFalse) (wd_fun VTrue VFalse)) (wd_fun (wd_fun VFalse VTrue) (wd_fun VFalse VTrue))
                   else if N.eqb i 0 then ei_e0 else ei_e1
  | SScoped _ => wd_fun (wd_fun ei_e0 ei_e0) (wd_fun ei_e1 ei_e1)
  | STypeclass _ _ => VSort 1
  | _ => VTrue
  end.
Definition wd_M : Model := fin_model (fun k => if N.eqb k 0 then [VBool; VBase 0 0 2] else [VBase 0 0 2]) wd_I.
Definition wd_a := TSym (SGlobal 0 0).
Definition wd_b := TSym (SGlobal 0 6).
Definition wd_P (x y z : term) := TApp (TApp (TApp (TSym (SGlobal 0 5)) x) y) z.
Definition wd_w (i : N) (x y : term) := TApp (TApp (TSym (SScoped i)) x) y.
Definition wd_swapped := DECL [ei_A; ei_A] ei_A (wd_P (TVar 1) (TVar 0) (TBound 0)).
Definition wd_plain := DECL [ei_A; ei_A] ei_A (wd_P (TVar 0) (TVar 1) (TBound 0)).
Definition wd_ex := Clause [Lit true (TBind KEx ei_A (wd_P (TVar 0) (TVar 1) (TBound 0))) ttrue] [Some ei_A; Some ei_A].
Definition wd_known := Clause [Lit true (wd_P (TVar 0) (TVar 1) (wd_w 0 (TVar 0) (TVar 1))) ttrue] [Some ei_A; Some ei_A].
Definition wd_said (i : N) := Clause [Lit true (wd_P (TVar 0) (TVar 1) (wd_w i (TVar 1) (TVar 0))) ttrue] [Some ei_A; Some ei_A].

Definition wd_u := Clause [Lit false (wd_P (TVar 0) (TVar 1) (TVar 2)) ttrue; Lit true (TVar 0) (TVar 2)] [Some ei_A; Some ei_A; Some ei_A].
Definition wd_differ := Clause [Lit false wd_b wd_a] [].

Lemma wd_eta : eta_model wd_M.
Proof.
  apply fin_model_eta.
  - intros k x. simpl. destruct (N.eqb k 0); simpl; intros; intuition; subst; exact Logic.I.
  - intros x. simpl. intros; intuition; subst; exact Logic.I.
Qed.
Lemma wd_respects : respects wd_M wd_K.
Proof.
  apply fin_respects.
  - left; reflexivity.
  - intros x Hx. vm_compute in Hx. repeat (destruct Hx as [<-|Hx]; [exact Logic.I|]). contradiction.
  - intros; exact Logic.I.
  - intros m i rho. cbn [wd_K k_global]. destruct (N.eqb i 5); vm_compute; tauto.
  - intros i rho. vm_compute; tauto.
  - intros m i rho. vm_compute. tauto.
  - intros m i rho. cbn [wd_I wd_K k_global]. destruct (N.eqb_spec i 5) as [->|H5]; [vm_compute; tauto|]. destruct (N.eqb i 0); vm_compute; tauto.
  - intros i rho. vm_compute; tauto.
Qed.
Lemma wd_closed : closed_types wd_K.
Proof. intros []; try (split; reflexivity). cbn [symbol_type wd_K k_global]. destruct (N.eqb i 5); split; reflexivity. Qed.
Lemma wd_used : parameters_used wd_K.
Proof. intros [] H; try discriminate H; try (vm_compute; intuition; discriminate). cbn [symbol_type wd_K k_global]. destruct (N.eqb i 5); vm_compute; intuition; discriminate. Qed.
Lemma wd_A M : M = wd_M -> element_type M ei_A.
Proof. intros ->. split; [reflexivity|]. split; [exact Logic.I|]. exists ei_e0. vm_compute. tauto. Qed.
Lemma wd_tP K G bs x y z : (forall i, k_global K 0 i = k_global wd_K 0 i) -> has_type wd_M K G bs x ei_A -> has_type wd_M K G bs y ei_A -> has_type wd_M K G bs z ei_A -> has_type wd_M K G bs (wd_P x y z) tbool.
Proof.
  intros E Hx Hy Hz. unfold wd_P. pose proof (wd_A _ eq_refl) as EA.
  assert (X : has_type wd_M K G bs (TSym (SGlobal 0 5)) (tarrow ei_A (tarrow ei_A (tarrow ei_A tbool)))).
  { pose proof (ht_sym wd_M K G bs (SGlobal 0 5) eq_refl) as X. cbn [symbol_type] in X. rewrite E in X. exact X. }
  eapply ht_app; [|exact EA|reflexivity|exact Hz]. eapply ht_app; [|exact EA|reflexivity|exact Hy]. eapply ht_app; [exact X|exact EA|reflexivity|exact Hx].
Qed.
Lemma wd_tw K G bs i x y : k_scoped K i = tarrow ei_A (tarrow ei_A ei_A) -> has_type wd_M K G bs x ei_A -> has_type wd_M K G bs y ei_A -> has_type wd_M K G bs (wd_w i x y) ei_A.
Proof.
  intros E Hx Hy. unfold wd_w. pose proof (wd_A _ eq_refl) as EA. pose proof (ht_sym wd_M K G bs (SScoped i) eq_refl) as X. cbn [symbol_type] in X. rewrite E in X.
  eapply ht_app; [|exact EA|reflexivity|exact Hy]. eapply ht_app; [exact X|exact EA|reflexivity|exact Hx].
Qed.
Lemma wd_tc K G bs i : (forall i, k_global K 0 i = k_global wd_K 0 i) -> i <> 5%N -> has_type wd_M K G bs (TSym (SGlobal 0 i)) ei_A.
Proof. intros E H. pose proof (ht_sym wd_M K G bs (SGlobal 0 i) eq_refl) as X. cbn [symbol_type] in X. rewrite E in X. cbn [wd_K k_global] in X. apply N.eqb_neq in H. rewrite H in X. exact X. Qed.
Ltac wd_type := lazymatch goal with
  | |- has_type _ _ _ _ (TBind KEx _ _) _ => apply ht_quant; [right; reflexivity|exact (wd_A _ eq_refl)|wd_type]
  | |- has_type _ _ _ _ (wd_P _ _ _) _ => apply wd_tP; [reflexivity|wd_type|wd_type|wd_type]
  | |- has_type _ _ _ _ (wd_w _ _ _) _ => apply wd_tw; [reflexivity|wd_type|wd_type]
  | |- has_type _ _ _ _ (TAtom (FreeVar _)) _ => apply ht_var; [reflexivity|exact (wd_A _ eq_refl)]
  | |- has_type _ _ _ _ (TAtom (BoundVar _)) _ => apply ht_bound; [reflexivity|exact (wd_A _ eq_refl)]
  | |- has_type _ _ _ _ ttrue _ => exact (ht_sym _ _ _ _ STrue eq_refl)
  | |- has_type _ _ _ _ wd_a _ => apply wd_tc; [reflexivity|discriminate]
  | |- has_type _ _ _ _ wd_b _ => apply wd_tc; [reflexivity|discriminate]
  end.
Ltac wd_context := intros [|[|[|i]]] T HT; simpl in HT; try discriminate HT; try (injection HT as <-; exact (wd_A _ eq_refl)); destruct i; discriminate HT.
Ltac wd_literal := first [exists tbool; split; [apply et_bool|split; cbn [left right]; wd_type]|exists ei_A; split; [exact (wd_A _ eq_refl)|split; cbn [left right]; wd_type]].
Ltac wd_mono := split; [split; [wd_context|repeat (constructor; [wd_literal|]); constructor]|reflexivity].
Lemma wd_env G rho i : valid_env wd_M G rho -> get_var_type G i = Some ei_A -> rho i = ei_e0 \/ rho i = ei_e1.
Proof. intros H X. specialize (H i _ X). vm_compute in H. intuition. Qed.
Ltac wd_holds V := unfold lit_holds, ev, wd_P, wd_w, wd_a, wd_b; cbn [positive left right eval];
  destruct (wd_env _ _ 0 V eq_refl) as [E0|E0], (wd_env _ _ 1 V eq_refl) as [E1|E1]; rewrite ?E0, ?E1; vm_compute; try reflexivity.

(** ** A constant of the registry
    The value of the source [let z: A satisfy { P(x, y, z) }] has the constant 0 applied to [x] and [y], its fact is [wd_known].
    The line [wd_swapped] of the certificate has the same existence clause, so it is about the constant 0, and asserts
    [P(y, x, w0(x, y))].  With the fact it follows that all elements are equal.  The trace is accepted although
    the facts hold.  All its other steps are claims as in C51. *)
Definition wd_ab := Clause [Lit true (wd_P wd_a wd_b (wd_w 0 wd_a wd_b)) ttrue] [].
Definition wd_ba := Clause [Lit true (wd_P wd_b wd_a (wd_w 0 wd_a wd_b)) ttrue] [].
Definition wd_uab := Clause [Lit false (wd_P wd_a wd_b (wd_w 0 wd_a wd_b)) ttrue; Lit true (wd_w 0 wd_a wd_b) wd_a] [].
Definition wd_uba := Clause [Lit false (wd_P wd_b wd_a (wd_w 0 wd_a wd_b)) ttrue; Lit true (wd_w 0 wd_a wd_b) wd_b] [].
Definition wd_facts := [wd_differ; wd_u; wd_known; wd_ex].
Definition wd_line (p : parsed) := TS RWit p false [] false None None.
Definition wd_trace p := [wd_line p; gc_step RInst (wd_said 0) wd_ba [0]; gc_step RClaim wd_known wd_known []; gc_step RInst wd_known wd_ab [2];
  gc_step RClaim wd_u wd_u []; gc_step RInst wd_u wd_uab [4]; gc_step RInst wd_u wd_uba [4]].

Theorem reused_witnesses_refuted : exists M K r d p facts s,
  eta_model M /\ respects M K /\ closed_types K /\ parameters_used K /\
  (forall c, In c facts -> mono M K c /\ valid M c) /\
  (forall w c, In (w, c) r -> exists d0 c0 c', normalized (existence d0) = Some c /\ declared_clause w d0 = Some c0 /\ normalized c0 = Some c' /\ In c' facts) /\
  mono_typed M K (existence d) /\ parse_satisfy 20 no_aliases K r 9 d = Some (K, 0%N, p) /\
  deep_history K un_ts ck_none (fun _ => true) (fun _ _ => true) ck_idk ck_idc (fun l => l) 20 facts [] s /\
  gc_run K [] s = Ok false /\ gc_run K (wd_trace p) s = Ok true /\
  (forall t, In t (tl (wd_trace p)) -> claim_step M K 20 no_aliases t).
Proof.
  exists wd_M, wd_K, [(0%N, wd_ex)], wd_swapped, (PSatisfy wd_ex (Some wd_ex) None [wd_said 0]), wd_facts.
  assert (H : exists s, deep_history wd_K un_ts ck_none (fun _ => true) (fun _ _ => true) ck_idk ck_idc (fun l => l) 20 wd_facts [] s /\
    gc_run wd_K [] s = Ok false /\ gc_run wd_K (wd_trace (PSatisfy wd_ex (Some wd_ex) None [wd_said 0])) s = Ok true).
  { eexists. split; [|split].
    - eapply dh_deep with (c := wd_differ) (re := true);
      [eapply dh_deep with (c := wd_u) (re := true);
        [eapply dh_deep with (c := wd_known) (re := true);
          [eapply dh_deep with (c := wd_ex) (re := true); [apply dh_new|vm_compute; reflexivity|vm_compute; reflexivity]
          |vm_compute; reflexivity|vm_compute; reflexivity]
        |vm_compute; reflexivity|vm_compute; reflexivity]
      |vm_compute; reflexivity|vm_compute; reflexivity].
    - vm_compute. reflexivity.
    - vm_compute. reflexivity. }
  destruct H as (s & H1 & H2 & H3). exists s. split; [exact wd_eta|]. split; [exact wd_respects|]. split; [exact wd_closed|]. split; [exact wd_used|].
  split; [|split; [|split; [|split; [|split; [exact H1|split; [exact H2|split; [exact H3|]]]]]]].
  - intros c [<-|[<-|[<-|[<-|[]]]]]; (split; [wd_mono|]).
    + intros rho _. eexists. split; [left; reflexivity|]. vm_compute. discriminate.
    + intros rho V. destruct (wd_env _ _ 0 V eq_refl) as [X0|X0], (wd_env _ _ 2 V eq_refl) as [X2|X2].
      * eexists. split; [right; left; reflexivity|]. unfold lit_holds, ev. cbn [positive left right eval]. congruence.
      * eexists. split; [left; reflexivity|]. unfold lit_holds, ev, wd_P. cbn [positive left right eval]. rewrite X0, X2. destruct (wd_env _ _ 1 V eq_refl) as [X1|X1]; rewrite X1; vm_compute; discriminate.
      * eexists. split; [left; reflexivity|]. unfold lit_holds, ev, wd_P. cbn [positive left right eval]. rewrite X0, X2. destruct (wd_env _ _ 1 V eq_refl) as [X1|X1]; rewrite X1; vm_compute; discriminate.
      * eexists. split; [right; left; reflexivity|]. unfold lit_holds, ev. cbn [positive left right eval]. congruence.
    + intros rho V. eexists. split; [left; reflexivity|]. wd_holds V.
    + intros rho V. eexists. split; [left; reflexivity|]. wd_holds V.
  - intros w c [E|[]]. injection E as <- <-. exists wd_plain. do 2 eexists. split; [vm_compute; reflexivity|]. split; [vm_compute; reflexivity|].
    split; [vm_compute; reflexivity|]. right. right. left. reflexivity.
  - unfold existence. split; [wd_context|]. constructor; [|constructor]. apply typed_positive. cbn [d_type d_body wd_swapped]. wd_type.
  - reflexivity.
  - assert (Q : forall t cl c', st_parsed t = PClaim (claim_generic cl) (Some c') -> claim_specialized 20 no_aliases cl = Ok (Some c') -> mono wd_M wd_K (claim_generic cl) ->
      Forall (fun o => o = Some wd_a \/ o = Some wd_b \/ o = Some (wd_w 0 wd_a wd_b)) (clm_map cl) -> (forall i, i < length (clm_map cl) -> get_var_type (context (claim_generic cl)) i = Some ei_A) ->
      (lifts t = true -> clm_map cl = []) -> claim_step wd_M wd_K 20 no_aliases t).
    { intros t cl c' E1 E2 Hm Fm Fc Hl. exists cl, c'. split; [auto|]. split; [auto|]. split; [auto|]. split; [|intros L i; rewrite (Hl L); destruct i; reflexivity].
      intros i r Er. exists ei_A. unfold vget in Er. destruct (nth_error (clm_map cl) i) as [o|] eqn:En; [|discriminate]. split.
      - apply Fc. apply nth_error_Some. congruence.
      - rewrite Forall_forall in Fm. destruct (Fm o (nth_error_In _ _ En)) as [-> | [-> | ->]]; injection Er as <-; wd_type. }
    intros t [<-|[<-|[<-|[<-|[<-|[<-|[]]]]]]].
    + apply (Q _ (CLAIM (wd_said 0) [Some wd_b; Some wd_a]) wd_ba); try reflexivity; [wd_mono|repeat (constructor; [auto|]); constructor|intros [|[|i]] L; try reflexivity; simpl in L; lia|discriminate].
    + apply (Q _ (CLAIM wd_known []) wd_known); try reflexivity; [wd_mono|constructor|intros i L; simpl in L; lia].
    + apply (Q _ (CLAIM wd_known [Some wd_a; Some wd_b]) wd_ab); try reflexivity; [wd_mono|repeat (constructor; [auto|]); constructor|intros [|[|i]] L; try reflexivity; simpl in L; lia|discriminate].
    + apply (Q _ (CLAIM wd_u []) wd_u); try reflexivity; [wd_mono|constructor|intros i L; simpl in L; lia].
    + apply (Q _ (CLAIM wd_u [Some wd_a; Some wd_b; Some (wd_w 0 wd_a wd_b)]) wd_uab); try reflexivity; [wd_mono|repeat (constructor; [auto|]); constructor|intros [|[|[|i]]] L; try reflexivity; simpl in L; lia|discriminate].
    + apply (Q _ (CLAIM wd_u [Some wd_b; Some wd_a; Some (wd_w 0 wd_a wd_b)]) wd_uba); try reflexivity; [wd_mono|repeat (constructor; [auto|]); constructor|intros [|[|[|i]]] L; try reflexivity; simpl in L; lia|discriminate].
Qed.
Print Assumptions reused_witnesses_refuted.

(** ** A new constant
    The same line with an empty registry declares the constant 9.  With [not P(a, b, x0)] there is a contradiction. *)
Definition wd_no := Clause [Lit false (wd_P wd_a wd_b (TVar 0)) ttrue] [Some ei_A].
Definition wd_yes9 := Clause [Lit true (wd_P wd_a wd_b (wd_w 9 wd_b wd_a)) ttrue] [].
Definition wd_no9 := Clause [Lit false (wd_P wd_a wd_b (wd_w 9 wd_b wd_a)) ttrue] [].
Definition wd_K9 := with_scoped wd_K 9 (declared_type wd_swapped).
Definition wd_p9 := PSatisfy wd_ex (Some wd_ex) None [wd_said 9].
Definition wd_trace9 := [wd_line wd_p9; gc_step RInst (wd_said 9) wd_yes9 [0]; gc_step RClaim wd_no wd_no []; gc_step RInst wd_no wd_no9 [2]].
Lemma wd_existence : mono_typed wd_M wd_K (existence wd_swapped).
Proof. unfold existence. split; [wd_context|]. constructor; [|constructor]. apply typed_positive. cbn [d_type d_body wd_swapped]. wd_type. Qed.
Lemma wd_declared : declared wd_M wd_K wd_K9 [(9%N, wd_swapped)].
Proof.
  eapply d_more; [apply d_none| |reflexivity|intros x e []|exact wd_existence|vm_compute; reflexivity].
  intros []; try reflexivity. cbn [symbol_type wd_K k_global]. destruct (N.eqb i 5); reflexivity.
Qed.
Lemma wd_parse9 : parse_satisfy 20 no_aliases wd_K [] 9 wd_swapped = Some (wd_K9, 9%N, wd_p9).
Proof. reflexivity. Qed.

Example witness_declarations_case : declared wd_M wd_K wd_K9 [(9%N, wd_swapped)] /\ closed_types wd_K /\ parameters_used wd_K /\ respects wd_M wd_K /\
  valid wd_M (existence wd_swapped) /\ exists c, declared_clause 9 wd_swapped = Some c /\ normalized c = Some (wd_said 9) /\ ~ valid wd_M c.
Proof.
  split; [exact wd_declared|]. split; [exact wd_closed|]. split; [exact wd_used|]. split; [exact wd_respects|]. split.
  - intros rho V. eexists. split; [left; reflexivity|]. apply lit_new_holds. cbn [d_type d_body wd_swapped]. wd_holds V.
  - eexists. split; [vm_compute; reflexivity|]. split; [vm_compute; reflexivity|]. intros V.
    destruct (V (fun i => match i with 0 => ei_e0 | _ => ei_e1 end)) as (l & [<-|[]] & H).
    + intros [|[|i]] T HT; simpl in HT; try discriminate; [| |destruct i; discriminate]; injection HT as <-; vm_compute; tauto.
    + vm_compute in H. discriminate.
Qed.

Example new_witness_lines_case : parse_satisfy 20 no_aliases wd_K [] 9 wd_swapped = Some (wd_K9, 9%N, wd_p9) /\
  (forall cl j, justification wd_swapped = Some cl -> claim_specialized 20 no_aliases cl = Ok (Some j) -> existing_witness [] (claim_generic cl) j = None) /\
  (forall cl, justification wd_swapped = Some cl -> mono wd_M wd_K9 (claim_generic cl)) /\
  (forall g j sp ws c, wd_p9 = PSatisfy g j sp ws -> In c ws -> mono wd_M wd_K9 c).
Proof.
  split; [exact wd_parse9|]. split; [reflexivity|]. split.
  - intros cl E. replace (justification wd_swapped) with (Some (CLAIM wd_ex [])) in E by reflexivity. injection E as <-. cbn [claim_generic clm_clause]. wd_mono.
  - intros g j sp ws c E. injection E as <- <- <- <-. intros [<-|[]]. wd_mono.
Qed.

Example monomorphic_witness_traces_case : exists s, deep_history wd_K9 un_ts ck_none (fun _ => true) (fun _ _ => true) ck_idk ck_idc (fun l => l) 20 [wd_no; wd_ex] [] s /\
  gc_run wd_K9 [] s = Ok false /\ gc_run wd_K9 wd_trace9 s = Ok true /\ aliases_ok wd_M no_aliases /\ aliases_typed wd_M wd_K9 no_aliases /\
  (forall c, In c [wd_no; wd_ex] -> mono wd_M wd_K c /\ forall w, In w [9%N] -> clause_mentions w c = false) /\
  (forall t, In t wd_trace9 -> claim_step wd_M wd_K9 20 no_aliases t \/ declaring_step wd_M wd_K9 20 no_aliases [(9%N, wd_swapped)] t).
Proof.
  eexists. split; [|split; [|split; [|split; [|split; [|split]]]]].
  - eapply dh_deep with (c := wd_no) (re := true);
      [eapply dh_deep with (c := wd_ex) (re := true); [apply dh_new|vm_compute; reflexivity|vm_compute; reflexivity]
      |vm_compute; reflexivity|vm_compute; reflexivity].
  - vm_compute. reflexivity.
  - vm_compute. reflexivity.
  - intros s l s' E. discriminate E.
  - intros s l s' E. discriminate E.
  - intros c [<-|[<-|[]]]; (split; [wd_mono|intros w [<-|[]]; reflexivity]).
  - destruct new_witness_lines_case as (E & N & G & C).
    intros t [<-|[<-|[<-|[<-|[]]]]].
    + right. destruct (new_witness_lines_declare wd_M 20 no_aliases wd_K [] 9 wd_swapped _ _ _ [(9%N, wd_swapped)] (wd_line wd_p9) E N) as (_ & _ & X).
      apply X; auto. left. reflexivity.
    + left. exists (CLAIM (wd_said 9) [Some wd_a; Some wd_b]), wd_yes9. split; [reflexivity|]. split; [vm_compute; reflexivity|]. split; [cbn [claim_generic clm_clause]; wd_mono|]. split; [|discriminate].
      intros [|[|[|i]]] r Er; try discriminate Er; injection Er as <-; exists ei_A; (split; [reflexivity|]); wd_type.
    + left. exists (CLAIM wd_no []), wd_no. split; [reflexivity|]. split; [vm_compute; reflexivity|]. split; [cbn [claim_generic clm_clause]; wd_mono|]. split; [|intros _ [|i]; reflexivity].
      intros [|i] r Er; discriminate Er.
    + left. exists (CLAIM wd_no [Some (wd_w 9 wd_b wd_a)]), wd_no9. split; [reflexivity|]. split; [vm_compute; reflexivity|]. split; [cbn [claim_generic clm_clause]; wd_mono|]. split; [|discriminate].
      intros [|[|i]] r Er; try discriminate Er; injection Er as <-; exists ei_A; (split; [reflexivity|]); wd_type.
Qed.

(** ** The clauses of the registry
    The source [function(x: A, y: A) { let z: A satisfy { P(y, x, z) } z }] uses all its arguments, so the constant is
    applied to them in their order (evaluator.rs:663-665).  The registry applies it to the variables in the order in
    which the normalized clause has them, so a certificate that declares the constant of the registry asserts
    [P(x, y, w0(x, y))] instead of [P(y, x, w0(x, y))]. *)
Definition wd_second := wd_fun (wd_fun ei_e0 ei_e1) (wd_fun ei_e0 ei_e1).
Definition wd_M2 := with_value wd_M 0 wd_second.
Theorem registered_clauses_refuted : exists M K w d c fact e, eta_model M /\ mono_typed M K (existence d) /\ mono_typed M K e /\
  normalized (existence d) = Some c /\ obind (declared_clause w d) normalized = Some fact /\ valid M c /\ valid M fact /\
  registered_clause w c = Some e /\ ~ valid M e.
Proof.
  exists wd_M2, wd_K, 0%N, wd_swapped, wd_ex, (wd_said 0), wd_known. split; [exact wd_eta|].
  split; [apply mt_up; exact wd_existence|]. split; [apply mt_up; enough (H : mono wd_M wd_K wd_known) by exact (proj1 H); wd_mono|].
  split; [vm_compute; reflexivity|]. split; [vm_compute; reflexivity|]. split; [|split; [|split; [vm_compute; reflexivity|]]].
  - apply valid_other; [reflexivity|]. intros rho V. eexists. split; [left; reflexivity|]. wd_holds V.
  - intros rho V. eexists. split; [left; reflexivity|]. pose proof (V 0 ei_A eq_refl) as V0. pose proof (V 1 ei_A eq_refl) as V1.
    assert (X0 : rho 0 = ei_e0 \/ rho 0 = ei_e1) by (vm_compute in V0; intuition). assert (X1 : rho 1 = ei_e0 \/ rho 1 = ei_e1) by (vm_compute in V1; intuition).
    unfold lit_holds, ev, wd_P, wd_w. cbn [positive left right eval]. destruct X0 as [E0|E0], X1 as [E1|E1]; rewrite E0, E1; vm_compute; reflexivity.
  - intros V. destruct (V (fun i => match i with 0 => ei_e0 | _ => ei_e1 end)) as (l & [<-|[]] & H).
    + intros [|[|i]] T HT; simpl in HT; try discriminate; [| |destruct i; discriminate]; injection HT as <-; vm_compute; tauto.
    + vm_compute in H. discriminate.
Qed.
Print Assumptions registered_clauses_refuted.
