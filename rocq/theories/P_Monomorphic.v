(** C01, C02, C07, C08, C09: what the checker does is sound for clauses without type variables.
    The clauses are those of Monomorphic.v.  [closed_types] and [parameters_used] say that the types of
    the constants have no variables and use their type parameters, [respects] that the interpretation
    gives each constant an element of its type. *)
From Coq Require Import List Arith NArith Bool Lia Permutation.
Import ListNotations.
From Verif Require Import VariableMap Unifier Inference ClauseSet EqualityGraph Checker.
From Verif Require Import Term LocalContext Semantics TermProofs SemFacts TermNorm TermNormProofs Typing TypingProofs FiniteTyping FiniteModel Literal Clause ClauseSem RenumberProofs ClauseProofs ClauseWf InferenceProofs
  VariableMapProofs UnifierProofs BoolReduction BoolReductionProofs CheckerProofs CheckerSem CheckerSets P_TermNorm P_EqualityInferences P_Unifier P_Instantiation P_Checker Fragment CertificateStep TraceChecker TraceProofs P_TraceChecker
  Monomorphic MonoProofs MonoNorm MonoReduce MonoUnify MonoRules MonoMatch MonoInfer MonoClaim.

(** ** The rules *)
Section Rules.
Context (M : Model) (K : kctx) (CT : closed_types K) (R : respects M K).

(** Resolution and factoring (clause.rs): the results are monomorphic and follow. *)
Theorem monomorphic_resolution_sound : forall ts n c rs ls out, mono_typed M K c ->
  find_equality_resolutions K ts n c = Some rs -> In (ls, out) (result_pairs rs) ->
  mono_typed M K (Clause ls out) /\ (valid M c -> valid M (Clause ls out)).
Proof. intros ts n c rs ls out. apply mono_resolution; auto. Qed.
Theorem monomorphic_factoring_sound : forall ts n c rs ls out, mono_typed M K c ->
  find_equality_factorings K ts n c = Some rs -> In (ls, out) (result_pairs rs) ->
  mono_typed M K (Clause ls out) /\ (valid M c -> valid M (Clause ls out)).
Proof. intros ts n c rs ls out. apply mono_factoring; auto. Qed.
(** Injectivity and extensionality *)
Theorem monomorphic_injectivity_sound : forall c rs ls, parameters_used K -> mono M K c -> find_injectivities c = Some rs -> In ls rs ->
  mono M K (Clause ls (context c)) /\ (valid M c -> valid M (Clause ls (context c))).
Proof. intros c rs ls UP. apply mono_injectivity; auto. Qed.
Theorem monomorphic_extensionality_typed : forall c ls, mono M K c -> find_extensionality K c = Some (Some ls) ->
  mono M K (Clause ls (context c)) /\ (valid M c -> valid M (Clause ls (context c))).
Proof. intros c ls. apply mono_extensionality; auto. Qed.
(** Matching: a clause that an earlier one matches holds. *)
Theorem monomorphic_match_sound : forall a b, mono_typed M K a -> mono_typed M K b -> Checker.clause_matches K a b = Some true ->
  valid M a -> valid M b.
Proof. intros a b. apply mono_match; auto. Qed.
End Rules.
Print Assumptions monomorphic_resolution_sound.
Print Assumptions monomorphic_factoring_sound.
Print Assumptions monomorphic_injectivity_sound.
Print Assumptions monomorphic_extensionality_typed.
Print Assumptions monomorphic_match_sound.

(** ** The checker *)
Theorem monomorphic_fragment : forall M K ts n, eta_model M -> respects M K -> closed_types K -> parameters_used K ->
  fragment M K ts n (mono M K).
Proof.
  intros M K ts n He R CT UP.
  assert (Res : forall ls out c', checked_result M n ls out c' -> mono_typed M K (Clause ls out) ->
    mono M K c' /\ (valid M (Clause ls out) -> valid M c')).
  { intros ls out c' Hc Hm. split; [eapply mono_result; eauto|]. destruct (mt_suitable M K CT R _ Hm) as [S1 S2 S3].
    exact (proj1 (proj2 (proj2 (checked_sound M n ls out c' He S2 S1 Hc)))). }
  assert (New : forall ls G c', clause_new ls G = Some c' -> mono M K (Clause ls G) -> mono M K c').
  { intros ls G c' E [Hm N]. destruct (mt_clause_new M K _ _ _ E Hm) as [H1 H2]. split; [exact H1|exact (H2 N)]. }
  constructor.
  - intros c [H _]. apply (mt_suitable M K CT R c H).
  - intros c [H _]. apply (mt_reducible M K CT R c H).
  - intros c l [H _] Hl. apply mt_in in H. eapply (ml_witness M K). apply H; eauto.
  - intros c k i ls c' [H _] E. apply (mt_reduced M K CT) in E; auto. apply (mt_suitable M K CT R _ E).
  - intros c c' [H _] E. eapply mono_checker_normal; eauto.
  - intros c ls c' [H N] Hk E. apply (New ls (context c)); auto. pose proof (kept_incl _ _ _ Hk) as I.
    split; [apply mt_in in H; apply mt_in; split; [apply H|]; intros l Hl; apply H, I, Hl|].
    apply forallb_forall. rewrite forallb_forall in N. intros l Hl. apply N, I, Hl.
  - intros c l c' [H N] El E. apply (New [negate l] (context c)); auto. apply mt_in in H. rewrite El in H, N. split.
    + apply mt_in. split; [apply H|]. intros x [<-|[]]. exact (proj2 H l (or_introl eq_refl)).
    + exact N.
  - intros c rs ls out c' [H _] E Hi Hc. destruct (mono_resolution M K ts CT R n c rs ls out H E Hi) as [H1 H2].
    destruct (Res _ _ _ Hc H1). auto.
  - intros c rs ls out c' [H _] E Hi Hc. destruct (mono_factoring M K ts CT R n c rs ls out H E Hi) as [H1 H2].
    destruct (Res _ _ _ Hc H1). auto.
  - intros c rs ls c' H E Hi Hc. destruct (mono_injectivity M K CT UP c rs ls H E Hi) as [[H1 _] H2].
    destruct (Res _ _ _ Hc H1). auto.
  - intros c ls c' H E Hn. destruct (mono_extensionality M K CT R c ls H E) as [H1 H2]. split; [eapply New; eauto|].
    intros V. destruct H1 as [H1 _]. destruct (mt_suitable M K CT R _ H1) as [S1 S2 S3]. specialize (H2 V).
    apply (sub_valid M (Clause ls (context c)) ls c'); auto; [constructor; auto|apply incl_refl].
  - intros c k i t c' [H _] E Hc. eapply mono_reduction; eauto.
  - intros a b [Ha _] [Hb _] E V. exact (mono_match M K CT R a b Ha Hb E V).
Qed.
Print Assumptions monomorphic_fragment.

(** C02: whatever monomorphic clauses were inserted, the checker finds no contradiction among clauses
    that hold and confirms only clauses that hold. *)
Theorem monomorphic_checking_sound : forall K ts inhab avail path ordk ordc orde,
  (forall n l, Permutation (ordk n l) l) -> (forall n l, Permutation (ordc n l) l) -> (forall l, incl (orde l) l) ->
  closed_types K -> parameters_used K ->
  forall n ins asked s, deep_history K ts inhab avail path ordk ordc orde n ins asked s ->
  forall M, eta_model M -> respects M K -> (forall T c, inhab T c = true -> inhabited_at M c T) ->
  (forall c, In c ins -> mono M K c /\ valid M c) -> (forall c, In c asked -> mono M K c) ->
  has_contradiction s = false /\
  (forall c s', mono_typed M K c -> check K inhab path ordk ordc n s c = Ok (s', true) -> valid M c).
Proof.
  intros K ts inhab avail path ordk ordc orde Pk Pc Pe CT UP n ins asked s H M He R Hs Hi Ha.
  pose proof (monomorphic_fragment M K ts n He R CT UP) as F.
  destruct (deep_checking_sound_partial K ts inhab avail path ordk ordc orde Pk Pc Pe n ins asked s H M (true_in M (mono M K)) (mono M K) He R
    (frag_basic M K ts n _ F) (frag_closed M K ts n _ F He R) (frag_answerable M K ts n _ F) Hs) as [H1 H2].
  - exact Hi.
  - intros c Hc. split; [auto|]. apply (frag_query M K ts n _ F). auto.
  - split; auto. intros c s' Hc E. pose proof E as E0. unfold check in E0. destruct (checker_normal n c) as [c'| |] eqn:N; try discriminate. clear E0.
    pose proof (mono_checker_normal M K n c c' N Hc) as Hc'. destruct (mt_suitable M K CT R c Hc) as [S1 _ _].
    apply (normal_reflects M n c c' He S1 N). eapply H2; eauto. apply (frag_query M K ts n _ F). auto.
Qed.
Print Assumptions monomorphic_checking_sound.

(** C01: an accepted trace refutes the facts, if they and its clauses are monomorphic.  [good_step] still
    asks that generic clauses hold where only an instance was justified; the code does not check that. *)
Theorem monomorphic_trace_sound_partial : forall K ts inhab avail path ordk ordc orde,
  (forall n l, Permutation (ordk n l) l) -> (forall n l, Permutation (ordc n l) l) -> (forall l, incl (orde l) l) ->
  closed_types K -> parameters_used K ->
  forall n facts s steps, deep_history K ts inhab avail path ordk ordc orde n facts [] s ->
  check_trace K ts inhab avail path ordk ordc orde n s steps = Ok true ->
  forall M, eta_model M -> respects M K -> (forall T c, inhab T c = true -> inhabited_at M c T) ->
  (forall c, In c facts -> mono M K c) -> (forall t, In t steps -> good_step M (mono M K) t) ->
  ~ (forall c, In c facts -> valid M c).
Proof.
  intros K ts inhab avail path ordk ordc orde Pk Pc Pe CT UP n facts s steps H E M He R Hs Hf Ht.
  exact (trace_acceptance_sound_partial K ts inhab avail path ordk ordc orde Pk Pc Pe n facts s steps H E M (mono M K) He R (monomorphic_fragment M K ts n He R CT UP) Hs Hf Ht).
Qed.
Print Assumptions monomorphic_trace_sound_partial.

(** ** Claims
    The specialized clause of a claim is monomorphic and an instance of the generic one, if the arguments have
    the types of their variables; without arguments the two are equivalent. *)
Theorem monomorphic_claims_hold : forall M K n al cl c', closed_types K -> respects M K -> eta_model M ->
  aliases_ok M al -> aliases_typed M K al -> mono_typed M K (claim_generic cl) ->
  (forall i r, vget (clm_map cl) i = Some r -> exists T,
     get_var_type (context (claim_generic cl)) i = Some T /\ has_type M K (context (claim_generic cl)) [] r T) ->
  claim_specialized n al cl = Ok (Some c') ->
  mono M K c' /\ (valid M (claim_generic cl) -> valid M c') /\
  ((forall i, vget (clm_map cl) i = None) -> valid M c' -> valid M (claim_generic cl)).
Proof.
  intros M K n al cl c' CT R He Ha Ht Hg Hm E. destruct (mono_claim M K CT R n al cl c' He Ha Ht Hg Hm E) as [H1 H2].
  split; auto. split; auto. intros Hn. apply (mono_claim_trivial M K CT R n al cl c' He Ha Ht Hg Hn E).
Qed.
Print Assumptions monomorphic_claims_hold.

(** ** Traces of claims
    A step whose code is a claim with arguments of the right types.  Where the generic clause is inserted
    on the strength of the specialized one ([lifts], finding F1) there are no arguments. *)
Definition claim_step (M : Model) (K : kctx) (n : nat) (al : aliases) (t : tstep) : Prop :=
  exists cl c', st_parsed t = PClaim (claim_generic cl) (Some c') /\ claim_specialized n al cl = Ok (Some c') /\
    mono M K (claim_generic cl) /\
    (forall i r, vget (clm_map cl) i = Some r -> exists T,
       get_var_type (context (claim_generic cl)) i = Some T /\ has_type M K (context (claim_generic cl)) [] r T) /\
    (lifts t = true -> forall i, vget (clm_map cl) i = None).
Lemma claim_step_good M K n al t : closed_types K -> respects M K -> eta_model M -> aliases_ok M al -> aliases_typed M K al ->
  claim_step M K n al t -> good_step M (mono M K) t.
Proof.
  intros CT R He Ha Ht (cl & c' & Ep & Ec & Hg & Hm & Hl).
  destruct (monomorphic_claims_hold M K n al cl c' CT R He Ha Ht (proj1 Hg) Hm Ec) as (H1 & H2 & H3).
  constructor; rewrite Ep.
  - intros g sp E. injection E as <- _. exact Hg.
  - intros g sp E. injection E as <- <-. auto.
  - intros g sp E L V. injection E as <- <-. auto.
  - intros g j sp ws E. discriminate.
Qed.
Theorem monomorphic_claim_traces_sound : forall K ts inhab avail path ordk ordc orde,
  (forall n l, Permutation (ordk n l) l) -> (forall n l, Permutation (ordc n l) l) -> (forall l, incl (orde l) l) ->
  closed_types K -> parameters_used K ->
  forall n facts s steps al, deep_history K ts inhab avail path ordk ordc orde n facts [] s ->
  check_trace K ts inhab avail path ordk ordc orde n s steps = Ok true ->
  forall M, eta_model M -> respects M K -> (forall T c, inhab T c = true -> inhabited_at M c T) ->
  aliases_ok M al -> aliases_typed M K al ->
  (forall c, In c facts -> mono M K c) -> (forall t, In t steps -> claim_step M K n al t) ->
  ~ (forall c, In c facts -> valid M c).
Proof.
  intros K ts inhab avail path ordk ordc orde Pk Pc Pe CT UP n facts s steps al H E M He R Hs Ha Hat Hf Ht.
  apply (monomorphic_trace_sound_partial K ts inhab avail path ordk ordc orde Pk Pc Pe CT UP n facts s steps H E M He R Hs Hf).
  intros t It. eapply claim_step_good; eauto.
Qed.
Print Assumptions monomorphic_claim_traces_sound.

(** ** Concrete cases
    A type with two elements, [c] the first one, [f] and [g] swap them, [id] is a polymorphic identity and
    [idA] (number 4) its instance. *)
Definition mn_K : kctx :=
  {| k_type := fun _ _ => type0;
     k_global := fun _ i => if N.eqb i 0 then ei_A else if N.eqb i 2 then TBind KPi type0 (TBind KPi (TBound 0) (TBound 1)) else tarrow ei_A ei_A;
     k_scoped := fun _ => tbool;
     k_instance := fun _ _ _ => false; k_extends := fun _ _ => false; k_value_params := fun _ => false |}.
Definition mn_I (s : symbol) : V :=
  match s with
  | SType _ _ => VBase 0 0 2
  | SGlobal _ i => if N.eqb i 0 then ei_e0
                   else if N.eqb i 2 then VFun (VSort 0) [VFun VBool [VTrue; VFalse]; VFun (VBase 0 0 2) [ei_e0; ei_e1]]
                   else if N.eqb i 4 then VFun (VBase 0 0 2) [ei_e0; ei_e1]
                   else VFun (VBase 0 0 2) [ei_e1; ei_e0]
  | STypeclass _ _ => VSort 1
  | _ => VTrue
  end.
Definition mn_M : Model := fin_model (fun k => if N.eqb k 0 then [VBool; VBase 0 0 2] else [VBase 0 0 2]) mn_I.
Definition mn_c := TSym (SGlobal 0 0).
Definition mn_f (t : term) := TApp (TSym (SGlobal 0 1)) t.
Definition mn_g (t : term) := TApp (TSym (SGlobal 0 3)) t.
Definition mn_id (t : term) := TApp (TApp (TSym (SGlobal 0 2)) ei_A) t.

Lemma mn_eta : eta_model mn_M.
Proof.
  apply fin_model_eta.
  - intros k x. simpl. destruct (N.eqb k 0); simpl; intros; intuition; subst; exact Logic.I.
  - intros x. simpl. intros; intuition; subst; exact Logic.I.
Qed.
Lemma mn_respects : respects mn_M mn_K.
Proof.
  apply fin_respects.
  - left; reflexivity.
  - intros x Hx. vm_compute in Hx. repeat (destruct Hx as [<-|Hx]; [exact Logic.I|]). contradiction.
  - intros; exact Logic.I.
  - intros m i rho. cbn [mn_K k_global]. destruct (N.eqb i 0); [vm_compute; tauto|]. destruct (N.eqb i 2); [|vm_compute; tauto].
    unfold wt, swt. cbn [swtg]. split; [exact Logic.I|]. split; [vm_compute; tauto|]. intros x Hx.
    assert (E : x = VBool \/ x = VBase 0 0 2) by (vm_compute in Hx; intuition). destruct E as [-> | ->]; vm_compute; tauto.
  - intros; exact Logic.I.
  - intros m i rho. vm_compute. tauto.
  - intros m i rho. cbn [mn_I mn_K k_global]. destruct (N.eqb_spec i 0) as [->|H0]; [vm_compute; tauto|].
    destruct (N.eqb_spec i 2) as [->|H1]; [vm_compute; tauto|]. destruct (N.eqb i 4); vm_compute; tauto.
  - intros i rho. vm_compute; tauto.
Qed.
Lemma mn_closed : closed_types mn_K.
Proof.
  intros []; try (split; reflexivity). cbn [symbol_type mn_K k_global]. destruct (N.eqb i 0), (N.eqb i 2); split; reflexivity.
Qed.
Lemma mn_used : parameters_used mn_K.
Proof.
  intros [] H; try discriminate H; try (vm_compute; intuition; discriminate). cbn [symbol_type mn_K k_global].
  destruct (N.eqb i 0), (N.eqb i 2); vm_compute; intuition; discriminate.
Qed.
Lemma mn_A : element_type mn_M ei_A.
Proof. split; [reflexivity|]. split; [exact Logic.I|]. exists ei_e0. vm_compute. tauto. Qed.
Ltac mn_type := lazymatch goal with
  | |- has_type _ _ _ _ (TApp (TApp (TSym SEq) _) _) _ => fail
  | |- has_type _ _ _ _ (TAtom (FreeVar _)) _ => apply ht_var; [reflexivity|exact mn_A]
  | |- has_type _ _ _ _ (TAtom (Sym ?s)) _ => apply (ht_sym mn_M mn_K _ _ s); reflexivity
  | |- has_type _ _ _ _ (mn_id ?t) _ => unfold mn_id; eapply ht_app;
       [eapply ht_inst; [apply (ht_sym mn_M mn_K _ _ (SGlobal 0 2)); reflexivity|repeat split; vm_compute; auto|vm_compute; reflexivity]|exact mn_A|reflexivity|mn_type]
  | |- has_type _ _ _ _ (mn_f ?t) _ => unfold mn_f; eapply ht_app; [apply (ht_sym mn_M mn_K _ _ (SGlobal 0 1)); reflexivity|exact mn_A|reflexivity|mn_type]
  | |- has_type _ _ _ _ (mn_g ?t) _ => unfold mn_g; eapply ht_app; [apply (ht_sym mn_M mn_K _ _ (SGlobal 0 3)); reflexivity|exact mn_A|reflexivity|mn_type]
  | |- has_type _ _ _ _ mn_c _ => apply (ht_sym mn_M mn_K _ _ (SGlobal 0 0)); reflexivity
  end.
Ltac mn_context := intros [|[|i]] T HT; simpl in HT; try discriminate HT; try (injection HT as <-; exact mn_A); destruct i; discriminate HT.
Ltac mn_mono := split; [split; [mn_context|repeat (constructor; [exists ei_A; split; [exact mn_A|split; cbn [left right]; mn_type]|]); constructor]|reflexivity].

Definition mn_res := Clause [Lit false (TVar 0) mn_c; Lit true (mn_id (mn_f (TVar 0))) (mn_f (TVar 0))] [Some ei_A].
Lemma mn_res_mono : mono mn_M mn_K mn_res.
Proof. mn_mono. Qed.
Definition mn_out := [Lit true (mn_id (mn_f mn_c)) (mn_f mn_c)].
Lemma mn_env rho i : valid_env mn_M [Some ei_A; Some ei_A] rho -> i < 2 -> rho i = ei_e0 \/ rho i = ei_e1.
Proof. intros H L. assert (X : get_var_type [Some ei_A; Some ei_A] i = Some ei_A) by (destruct i as [|[|i]]; [reflexivity|reflexivity|lia]). specialize (H i _ X). vm_compute in H. intuition. Qed.
Lemma mn_env1 rho : valid_env mn_M [Some ei_A] rho -> rho 0 = ei_e0 \/ rho 0 = ei_e1.
Proof. intros H. specialize (H 0 _ eq_refl). vm_compute in H. intuition. Qed.
Ltac mn_holds V := unfold lit_holds, ev, mn_id, mn_f, mn_g, mn_c; cbn [positive left right eval]; destruct (mn_env1 _ V) as [E|E]; rewrite ?E; vm_compute; try reflexivity; try discriminate.

(** [x0 != c or id(f(x0)) = f(x0)] gives [id(f(c)) = f(c)] *)
Example monomorphic_resolution_case : exists rs out, mono_typed mn_M mn_K mn_res /\ find_equality_resolutions mn_K un_ts 30 mn_res = Some rs /\ In (mn_out, out) (result_pairs rs) /\ valid mn_M mn_res /\ closed_types mn_K /\ respects mn_M mn_K.
Proof.
  eexists. eexists. split; [exact (proj1 mn_res_mono)|]. split; [vm_compute; reflexivity|]. split; [left; vm_compute; reflexivity|].
  split; [|split; [exact mn_closed|exact mn_respects]].
  intros rho V. eexists. split; [right; left; reflexivity|]. mn_holds V.
Qed.
(** [id(x0) = c or id(f(x0)) = c or id(x1) = x1] gives [c != x0 or id(x0) = x0 or id(f(x0)) = c] *)
Definition mn_fac := Clause [Lit true (mn_id (TVar 0)) mn_c; Lit true (mn_id (mn_f (TVar 0))) mn_c; Lit true (mn_id (TVar 1)) (TVar 1)] [Some ei_A; Some ei_A].
Definition mn_fac_out := [Lit false mn_c (TVar 0); Lit true (mn_id (TVar 0)) (TVar 0); Lit true (mn_id (mn_f (TVar 0))) mn_c].
Example monomorphic_factoring_case : exists rs, mono_typed mn_M mn_K mn_fac /\
  find_equality_factorings mn_K un_ts 30 mn_fac = Some rs /\ In (mn_fac_out, [Some ei_A]) (result_pairs rs) /\ valid mn_M mn_fac.
Proof.
  eexists. split; [enough (H : mono mn_M mn_K mn_fac) by (exact (proj1 H)); mn_mono|]. split; [vm_compute; reflexivity|].
  split; [left; vm_compute; reflexivity|]. intros rho V. eexists. split; [right; right; left; reflexivity|].
  unfold lit_holds, ev, mn_id. cbn [positive left right eval]. destruct (mn_env _ 1 V ltac:(lia)) as [E|E]; rewrite E; reflexivity.
Qed.
(** [id(x0) != id(c) or x0 = c] gives [x0 != c or x0 = c] *)
Definition mn_inj := Clause [Lit false (mn_id (TVar 0)) (mn_id mn_c); Lit true (TVar 0) mn_c] [Some ei_A].
Example monomorphic_injectivity_case : parameters_used mn_K /\ mono mn_M mn_K mn_inj /\
  find_injectivities mn_inj = Some [[lit_new false (TVar 0) mn_c; Lit true (TVar 0) mn_c]] /\ valid mn_M mn_inj.
Proof.
  split; [exact mn_used|]. split; [mn_mono|]. split; [vm_compute; reflexivity|]. intros rho V. destruct (mn_env1 _ V) as [E|E].
  - eexists. split; [right; left; reflexivity|]. unfold lit_holds, ev. cbn [positive left right eval mn_c]. rewrite E. reflexivity.
  - eexists. split; [left; reflexivity|]. unfold lit_holds, ev, mn_id. cbn [positive left right eval mn_c]. rewrite E. vm_compute. discriminate.
Qed.
(** [f(x0) = g(x0)] gives [f = g] *)
Definition mn_ext := Clause [Lit true (mn_f (TVar 0)) (mn_g (TVar 0))] [Some ei_A].
Example monomorphic_extensionality_case : mono mn_M mn_K mn_ext /\
  find_extensionality mn_K mn_ext = Some (Some [lit_new true (TSym (SGlobal 0 1)) (TSym (SGlobal 0 3))]) /\ valid mn_M mn_ext.
Proof. split; [mn_mono|]. split; [vm_compute; reflexivity|]. intros rho V. eexists. split; [left; reflexivity|]. mn_holds V. Qed.
(** [id(x0) = x0] matches [id(f(x0)) = f(x0)] *)
Definition mn_all := Clause [Lit true (mn_id (TVar 0)) (TVar 0)] [Some ei_A].
Definition mn_one := Clause [Lit true (mn_id (mn_f (TVar 0))) (mn_f (TVar 0))] [Some ei_A].
Lemma mn_all_mono : mono mn_M mn_K mn_all. Proof. mn_mono. Qed.
Lemma mn_all_valid : valid mn_M mn_all.
Proof. intros rho V. eexists. split; [left; reflexivity|]. mn_holds V. Qed.
Example monomorphic_match_case : mono_typed mn_M mn_K mn_all /\ mono_typed mn_M mn_K mn_one /\ Checker.clause_matches mn_K mn_all mn_one = Some true /\ valid mn_M mn_all.
Proof.
  split; [exact (proj1 mn_all_mono)|]. split; [enough (H : mono mn_M mn_K mn_one) by (exact (proj1 H)); mn_mono|].
  split; [vm_compute; reflexivity|exact mn_all_valid].
Qed.
Example monomorphic_fragment_case : eta_model mn_M /\ respects mn_M mn_K /\ closed_types mn_K /\ parameters_used mn_K /\ mono mn_M mn_K mn_res.
Proof. repeat split; try exact mn_eta; try apply mn_respects; try apply mn_closed; try exact mn_used; apply mn_res_mono. Qed.

(** [x0 != c or id(f(x0)) = f(x0)] and [f(x0) = g(x0)] are inserted.  [id(g(c)) = f(c)] is confirmed and [f(c) = c] is not. *)
Definition mn_yes := Clause [Lit true (mn_id (mn_g mn_c)) (mn_f mn_c)] [].
Definition mn_no := Clause [Lit true (mn_f mn_c) mn_c] [].
Example monomorphic_checking_case : exists ins s, deep_history mn_K un_ts ck_none (fun _ => true) (fun _ _ => true) ck_idk ck_idc (fun l => l) 20 ins [] s /\
  length ins = 2 /\ (forall c, In c ins -> mono mn_M mn_K c /\ valid mn_M c) /\ mono_typed mn_M mn_K mn_yes /\ mono_typed mn_M mn_K mn_no /\
  (exists s', check mn_K ck_none (fun _ _ => true) ck_idk ck_idc 20 s mn_yes = Ok (s', true)) /\
  (exists s', check mn_K ck_none (fun _ _ => true) ck_idk ck_idc 20 s mn_no = Ok (s', false)).
Proof.
  do 2 eexists. split; [|split; [|split; [|split; [|split; [|split]]]]].
  - eapply dh_deep with (c := mn_res) (re := true);
      [eapply dh_deep with (c := mn_ext) (re := true); [apply dh_new|vm_compute; reflexivity|vm_compute; reflexivity]
      |vm_compute; reflexivity|vm_compute; reflexivity].
  - reflexivity.
  - assert (G : forall c c', mono mn_M mn_K c -> valid mn_M c -> checker_normal 20 c = Ok c' -> mono mn_M mn_K c' /\ valid mn_M c').
    { intros c c' Hc V E. pose proof (monomorphic_fragment mn_M mn_K un_ts 20 mn_eta mn_respects mn_closed mn_used) as F.
      destruct (frag_normal mn_M mn_K un_ts 20 _ F mn_eta c c' Hc E) as [H1 H2]. split; auto. apply H2; auto. }
    intros c [<-|[<-|[]]].
    + apply (G mn_res); [exact mn_res_mono| |vm_compute; reflexivity]. intros rho V. eexists. split; [right; left; reflexivity|]. mn_holds V.
    + apply (G mn_ext); [mn_mono| |vm_compute; reflexivity]. intros rho V. eexists. split; [left; reflexivity|]. mn_holds V.
  - enough (H : mono mn_M mn_K mn_yes) by (exact (proj1 H)). mn_mono.
  - enough (H : mono mn_M mn_K mn_no) by (exact (proj1 H)). mn_mono.
  - eexists. vm_compute. reflexivity.
  - eexists. vm_compute. reflexivity.
Qed.
(** [id(x0) = x0] is given and [id(c) = c] to be proved: [id(c) != c] is inserted, the trace claims [id(c) = c]. *)
Definition mn_goal := Clause [Lit true (mn_id mn_c) mn_c] [].
Definition mn_ngoal := Clause [Lit false (mn_id mn_c) mn_c] [].
Definition mn_trace := [gc_step RClaim mn_all mn_goal []].
Example monomorphic_trace_case : exists s, deep_history mn_K un_ts ck_none (fun _ => true) (fun _ _ => true) ck_idk ck_idc (fun l => l) 20 [mn_ngoal; mn_all] [] s /\
  gc_run mn_K mn_trace s = Ok true /\ gc_run mn_K [] s = Ok false /\
  (forall c, In c [mn_ngoal; mn_all] -> mono mn_M mn_K c) /\ (forall t, In t mn_trace -> good_step mn_M (mono mn_M mn_K) t) /\ valid mn_M mn_all.
Proof.
  eexists. split; [|split; [|split; [|split; [|split]]]].
  - eapply dh_deep with (c := mn_ngoal) (re := true);
      [eapply dh_deep with (c := mn_all) (re := true); [apply dh_new|vm_compute; reflexivity|vm_compute; reflexivity]
      |vm_compute; reflexivity|vm_compute; reflexivity].
  - vm_compute. reflexivity.
  - vm_compute. reflexivity.
  - intros c [<-|[<-|[]]]; [mn_mono|exact mn_all_mono].
  - intros t [<-|[]]. constructor.
    + intros g sp H. injection H as <- <-. exact mn_all_mono.
    + intros g sp H. injection H as <- <-. split; [mn_mono|]. intros _ rho _. eexists. split; [left; reflexivity|]. vm_compute. reflexivity.
    + intros g sp H _ _. injection H as <- <-. exact mn_all_valid.
    + intros g j sp ws H. discriminate.
  - exact mn_all_valid.
Qed.

(** The claim [function(x0: A) { id(x0) = x0 }(c)]: with the alias [idA] for [id[A]] its specialized clause is
    [idA(c) = c]. *)
Definition mn_al : aliases :=
  {| al_params := fun s => match s with SGlobal 0 2 => Some 1 | _ => None end;
     al_lookup := fun s l => match s, l with
       | SGlobal 0 2, [T] => if term_eqb T ei_A then Some (SGlobal 0 4) else None
       | _, _ => None end |}.
Lemma mn_lookup s l s' : al_lookup mn_al s l = Some s' -> s = SGlobal 0 2 /\ l = [ei_A] /\ s' = SGlobal 0 4.
Proof.
  cbn [mn_al al_lookup]. destruct s as [| | | | | | | | | | |m i|]; try discriminate. destruct m; try discriminate.
  destruct i as [|[p|[p|p|]|]]; try discriminate. destruct l as [|T [|]]; try discriminate.
  destruct (term_eqb T ei_A) eqn:E; [|discriminate]. intros H. injection H as <-. apply term_eqb_eq in E. subst. auto.
Qed.
Definition mn_claim := CLAIM mn_all [Some mn_c].
Definition mn_open_claim := CLAIM mn_all [].
Example monomorphic_claims_case : aliases_ok mn_M mn_al /\ aliases_typed mn_M mn_K mn_al /\ mono mn_M mn_K (claim_generic mn_claim) /\
  get_var_type (context (claim_generic mn_claim)) 0 = Some ei_A /\ has_type mn_M mn_K (context (claim_generic mn_claim)) [] mn_c ei_A /\
  claim_specialized 20 mn_al mn_claim = Ok (Some (Clause [Lit true (TApp (TSym (SGlobal 0 4)) mn_c) mn_c] [])) /\
  claim_specialized 20 mn_al mn_open_claim = Ok (Some (Clause [Lit true (TApp (TSym (SGlobal 0 4)) (TVar 0)) (TVar 0)] [Some ei_A])) /\
  valid mn_M mn_all.
Proof.
  split; [|split; [|split; [exact mn_all_mono|split; [reflexivity|split; [apply (ht_sym mn_M mn_K _ _ (SGlobal 0 0)); reflexivity|split; [vm_compute; reflexivity|split; [vm_compute; reflexivity|exact mn_all_valid]]]]]]].
  - intros s l s' E. apply mn_lookup in E. destruct E as (-> & -> & ->). intros rho bs. reflexivity.
  - intros s l s' E. apply mn_lookup in E. destruct E as (-> & -> & ->). intros G bs U HU. split; [reflexivity|].
    assert (X : has_type mn_M mn_K G bs (apply (TSym (SGlobal 0 2)) [ei_A]) (tarrow ei_A ei_A)).
    { eapply ht_inst; [apply (ht_sym mn_M mn_K _ _ (SGlobal 0 2)); reflexivity|repeat split; vm_compute; auto|vm_compute; reflexivity]. }
    exact (ht_unique_bs mn_M mn_K _ _ _ _ _ X HU).
Qed.
(** The trace claims [id(x0) = x0] and then its instance [id(c) = c], which contradicts the negated goal. *)
Definition mn_claims := [gc_step RClaim mn_all mn_all []; gc_step RInst mn_all mn_goal [0]].
Example monomorphic_claim_traces_case : exists s, deep_history mn_K un_ts ck_none (fun _ => true) (fun _ _ => true) ck_idk ck_idc (fun l => l) 20 [mn_ngoal; mn_all] [] s /\
  gc_run mn_K mn_claims s = Ok true /\
  aliases_ok mn_M no_aliases /\ aliases_typed mn_M mn_K no_aliases /\
  (forall c, In c [mn_ngoal; mn_all] -> mono mn_M mn_K c) /\ (forall t, In t mn_claims -> claim_step mn_M mn_K 20 no_aliases t).
Proof.
  eexists. split; [|split; [|split; [|split; [|split]]]].
  - eapply dh_deep with (c := mn_ngoal) (re := true);
      [eapply dh_deep with (c := mn_all) (re := true); [apply dh_new|vm_compute; reflexivity|vm_compute; reflexivity]
      |vm_compute; reflexivity|vm_compute; reflexivity].
  - vm_compute. reflexivity.
  - intros s l s' E. discriminate E.
  - intros s l s' E. discriminate E.
  - intros c [<-|[<-|[]]]; [mn_mono|exact mn_all_mono].
  - intros t [<-|[<-|[]]].
    + exists mn_open_claim, mn_all. split; [reflexivity|]. split; [vm_compute; reflexivity|]. split; [exact mn_all_mono|].
      split; [intros i r E; destruct i; discriminate|]. intros _ [|i]; reflexivity.
    + exists mn_claim, mn_goal. split; [reflexivity|]. split; [vm_compute; reflexivity|]. split; [exact mn_all_mono|]. split; [|discriminate].
      intros [|[|i]] r E; try discriminate E. injection E as <-. exists ei_A. split; [reflexivity|]. apply (ht_sym mn_M mn_K _ _ (SGlobal 0 0)); reflexivity.
Qed.

(** A type parameter that the type of the constant does not use: [h : forall a. A -> A].  Injectivity turns
    [h[Bool](c) != h[A](c)] into [Bool != A], a literal between types. *)
Definition ph_K : kctx :=
  {| k_type := fun _ _ => type0;
     k_global := fun _ i => if N.eqb i 0 then ei_A else TBind KPi type0 (tarrow ei_A ei_A);
     k_scoped := fun _ => tbool;
     k_instance := fun _ _ _ => false; k_extends := fun _ _ => false; k_value_params := fun _ => false |}.
Definition ph_I (s : symbol) : V :=
  match s with
  | SType _ _ => VBase 0 0 2
  | SGlobal _ i => if N.eqb i 0 then ei_e0
                   else VFun (VSort 0) [VFun (VBase 0 0 2) [ei_e0; ei_e1]; VFun (VBase 0 0 2) [ei_e1; ei_e0]]
  | STypeclass _ _ => VSort 1
  | _ => VTrue
  end.
Definition ph_M : Model := fin_model (fun k => if N.eqb k 0 then [VBool; VBase 0 0 2] else [VBase 0 0 2]) ph_I.
Definition ph_h (T t : term) := TApp (TApp (TSym (SGlobal 0 1)) T) t.
Definition ph_clause := Clause [Lit false (ph_h tbool mn_c) (ph_h ei_A mn_c)] [].
Lemma ph_respects : respects ph_M ph_K.
Proof.
  apply fin_respects.
  - left; reflexivity.
  - intros x Hx. vm_compute in Hx. repeat (destruct Hx as [<-|Hx]; [exact Logic.I|]). contradiction.
  - intros; exact Logic.I.
  - intros m i rho. cbn [ph_K k_global]. destruct (N.eqb i 0); [vm_compute; tauto|].
    unfold wt, swt. cbn [swtg]. split; [exact Logic.I|]. split; [vm_compute; tauto|]. intros x Hx.
    assert (E : x = VBool \/ x = VBase 0 0 2) by (vm_compute in Hx; intuition). destruct E as [-> | ->]; vm_compute; tauto.
  - intros; exact Logic.I.
  - intros m i rho. vm_compute. tauto.
  - intros m i rho. cbn [ph_I ph_K k_global]. destruct (N.eqb_spec i 0) as [->|H0]; vm_compute; tauto.
  - intros i rho. vm_compute; tauto.
Qed.
Theorem phantom_parameters_refuted : exists M K c rs ls, eta_model M /\ respects M K /\ closed_types K /\ mono M K c /\ valid M c /\
  find_injectivities c = Some rs /\ In ls rs /\ ls = [lit_new false tbool ei_A] /\ ~ mono_typed M K (Clause ls (context c)).
Proof.
  exists ph_M, ph_K, ph_clause. do 2 eexists.
  assert (HA : element_type ph_M ei_A) by (split; [reflexivity|]; split; [exact Logic.I|]; exists ei_e0; vm_compute; tauto).
  split; [|split; [exact ph_respects|split; [|split; [|split; [|split; [vm_compute; reflexivity|split; [left; reflexivity|split]]]]]]].
  - apply fin_model_eta.
    + intros k x. simpl. destruct (N.eqb k 0); simpl; intros; intuition; subst; exact Logic.I.
    + intros x. simpl. intros; intuition; subst; exact Logic.I.
  - intros []; try (split; reflexivity). cbn [symbol_type ph_K k_global]. destruct (N.eqb i 0); split; reflexivity.
  - split; [split|reflexivity].
    + intros i T HT. destruct i; discriminate HT.
    + constructor; [|constructor]. exists ei_A. split; [exact HA|]. cbn [left right].
      split; unfold ph_h; (eapply ht_app; [eapply ht_inst; [apply (ht_sym ph_M ph_K _ _ (SGlobal 0 1)); reflexivity|repeat split; vm_compute; auto|vm_compute; reflexivity]
        |exact HA|reflexivity|apply (ht_sym ph_M ph_K _ _ (SGlobal 0 0)); reflexivity]).
  - intros rho V. eexists. split; [left; reflexivity|]. vm_compute. discriminate.
  - reflexivity.
  - intros [_ F]. apply Forall_inv in F. destruct F as (T & _ & H & H').
    assert (X : forall s T, value_symbol s = false -> ~ has_type ph_M ph_K [] [] (TSym s) T).
    { intros s U Vs X. inversion X; subst. congruence. }
    cbn in H, H'. first [exact (X SBool _ eq_refl H)|exact (X SBool _ eq_refl H')].
Qed.
Print Assumptions phantom_parameters_refuted.
