(** C01: a certificate that is accepted shows that the facts and the negated goal have no model. *)
From Coq Require Import List Arith NArith Bool Lia Permutation.
Import ListNotations.
From Verif Require Import Term LocalContext Semantics TermProofs SemFacts TermNorm TermNormProofs Literal Clause ClauseSem RenumberProofs ClauseProofs ClauseWf P_Clause P_TermNorm
  Typing VariableMap VariableMapProofs Unifier Inference BoolReduction ClauseSet EqualityGraph Checker CheckerProofs CheckerSem TypingProofs FiniteTyping BoolReductionProofs BoolReductionConverse CheckerSets FiniteModel
  P_Unifier P_EqualityInferences P_Instantiation P_Checker Fragment CertificateStep TraceChecker TraceProofs.

(** ** Accepted traces
    [s] is the checker after the facts and the negated goal were inserted.  [W] is a set of well-typed
    clauses that the rules stay inside of and are sound in (Fragment.v); the clauses named by the trace are
    in it.  What is missing from the full property is exactly [gs_lift] in [good_step]: the code inserts the
    generic clause of a claim when only its instance was justified. *)
Theorem trace_acceptance_sound_partial : forall K ts inhab avail path ordk ordc orde,
  (forall n l, Permutation (ordk n l) l) -> (forall n l, Permutation (ordc n l) l) -> (forall l, incl (orde l) l) ->
  forall n facts s steps, deep_history K ts inhab avail path ordk ordc orde n facts [] s ->
  check_trace K ts inhab avail path ordk ordc orde n s steps = Ok true ->
  forall M W, eta_model M -> respects M K -> fragment M K ts n W ->
  (forall T c, inhab T c = true -> inhabited_at M c T) ->
  (forall c, In c facts -> W c) -> (forall t, In t steps -> good_step M W t) ->
  ~ (forall c, In c facts -> valid M c).
Proof.
  intros K ts inhab avail path ordk ordc orde Pk Pc Pe n facts s steps H E M W He R F Hs HW HG HV.
  refine (steps_ok K ts inhab avail path ordk ordc orde Pk Pc Pe M n W F He R Hs steps (s, []) _ HG E). split; simpl; [|intros ? ? []].
  pose proof (answerable_queries M K R He n W (frag_answerable M K ts n W F) inhab ordk ordc (true_in M W) Hs) as QS.
  refine (deep_ok K ts inhab avail path ordk ordc orde Pk Pc Pe M (true_in M W) W n Hs (frag_basic M K ts n W F) (frag_closed M K ts n W F He R) QS facts [] s H _ _).
  - intros c Hc. split; auto.
  - intros c [].
Qed.
Print Assumptions trace_acceptance_sound_partial.

(** ** Claims
    The specialized clause of a claim holds wherever its generic clause does, if the terms of the map have the
    types of the variables they replace. *)
Lemma Forall2_in_l {A B} (R : A -> B -> Prop) l l' : Forall2 R l l' -> forall x, In x l -> exists y, In y l' /\ R x y.
Proof. induction 1; intros z Hz; [destruct Hz|]. destruct Hz as [<-|Hz]; [exists y; simpl; auto|]. destruct (IHForall2 z Hz) as (w & ? & ?). exists w; simpl; auto. Qed.
Lemma compact_sound M c c' : suitable M c -> compact_var_ids c = Some c' -> suitable M c' /\ (valid M c <-> valid M c').
Proof.
  intros [W A I] E. unfold compact_var_ids in E. destruct (compact_literals (context c) [] (literals c)) as [[ls ids]|] eqn:E1; [|discriminate].
  destruct (LocalContext.remap (context c) ids) as [c1|] eqn:R; [|discriminate]. simpl in E. injection E as <-.
  destruct (compact_spec _ _ _ _ _ E1) as [(_ & N & Dp) Rn]. assert (Nd : NoDup ids) by (apply N; constructor).
  assert (Df : deps_first (context c) ids) by (apply Dp; intros p v Hp; destruct p; discriminate).
  assert (Cl : forall v d, In v ids -> In d (deps (context c) v) -> In d ids) by (intros v d Hv; eapply deps_in_ids; eauto).
  assert (L : forall rho rho', follows M ids rho rho' -> forall l l', positive l' = positive l /\ renumber_variables ids (left l) = Some (left l') /\
     renumber_variables ids (right l) = Some (right l') -> (lit_holds M rho l <-> lit_holds M rho' l')).
  { intros rho rho' Hf l l' (L1 & L2 & L3). unfold lit_holds, ev. rewrite L1, (eval_renumber M _ _ _ _ Hf _ _ L2), (eval_renumber M _ _ _ _ Hf _ _ L3). tauto. }
  assert (G : forall rho', valid_env M c1 rho' -> exists rho, follows M ids rho rho' /\ valid_env M (context c) rho).
  { intros rho' Hv. destruct (follows_inv M ids rho' Nd) as [rho0 Hf].
    destruct (all_completable M _ ids A Cl I rho0) as (rho & Ha & V).
    { intros v U Hi HU. apply (proj1 (valid_remap M _ _ _ _ _ R Hf) Hv); auto. }
    exists rho. split; auto. intros p v Hp. rewrite (Hf p v Hp). symmetry. apply Ha. eapply nth_error_In; eauto. }
  split; [constructor; simpl|split].
  - intros rho' Hv l Hl. destruct (G rho' Hv) as (rho & Hf & V). destruct (Forall2_in_r _ _ _ Rn l Hl) as (x & Hx & (X1 & X2 & X3)).
    destruct (W rho V x Hx) as [W1 W2]. split; [apply (swt_renumber M _ _ _ _ _ Hf _ _ X2)|apply (swt_renumber M _ _ _ _ _ Hf _ _ X3)]; auto.
  - exact (remap_acyclic _ _ _ R A).
  - exact (inhabited_remap M _ _ _ Nd R I).
  - intros V rho' Hv. simpl in *. destruct (G rho' Hv) as (rho & Hf & V'). destruct (V rho V') as (l & Hl & Hh).
    destruct (Forall2_in_l _ _ _ Rn l Hl) as (l' & Hl' & X). exists l'. split; auto. apply (L _ _ Hf l l' X); auto.
  - intros V rho Hv. destruct (V (fun p => rho (nth p ids 0))) as (l' & Hl' & Hh).
    + simpl. apply (valid_remap M _ _ _ _ _ R (follows_nth M ids rho)). intros v T _ HT. apply Hv; auto.
    + simpl in Hl'. destruct (Forall2_in_r _ _ _ Rn l' Hl') as (x & Hx & X). exists x. split; auto. apply (L _ _ (follows_nth M ids rho) x l' X); auto.
Qed.

Theorem specialized_claims_hold_partial : forall n al cl c c', claim_specialized n al cl = Ok (Some c') ->
  specialize_clause al (clm_map cl) (claim_generic cl) = Some c ->
  forall M, eta_model M -> aliases_ok M al -> suitable M c ->
  (forall i r, vget (clm_map cl) i = Some r -> lc r) ->
  (forall i T v, get_var_type (context (claim_generic cl)) i = Some T -> vget (clm_map cl) i = None -> In v (vars T) -> vget (clm_map cl) v = None) ->
  (forall rho, valid_env M (context c) rho -> forall i T r, get_var_type (context (claim_generic cl)) i = Some T ->
     vget (clm_map cl) i = Some r -> mem M (ev M rho r) (ev M rho (apply_to_term (clm_map cl) T))) ->
  valid M (claim_generic cl) -> valid M c'.
Proof.
  intros n al cl c c' E Es M He Ha Sc Hm Hu Hr V. unfold claim_specialized in E. destruct (map_in_scope cl); [|discriminate].
  dob E. apply unwrap_ok in E0. unfold specialize_clause_compact in E0. change (clm_clause cl) with (claim_generic cl) in E0. rewrite Es in E0.
  dob E. injection E as ->. destruct (compact_sound M c a Sc E0) as [[S1 S2 S3] V1].
  apply (normal_holds_in M n a c' He S1 S2 S3 E1). apply V1.
  exact (proj1 (specialized_clause_valid_partial M al _ _ c (or_introl Es) Ha Hm Hu Hr) V).
Qed.
Print Assumptions specialized_claims_hold_partial.


(** ** The normal form of a claim *)
Lemma renumber_literals_prefix c l : forall ids l' ids', renumber_literals c ids l = Some (l', ids') -> exists e, ids' = ids ++ e.
Proof.
  induction l as [|x l IH]; intros ids l' ids'; cbn [renumber_literals].
  - intros H; injection H as <- <-. exists []. symmetry; apply app_nil_r.
  - unfold lit_normalize_var_ids. destruct (normalize_var_ids c ids (left x)) as [[a i1]|] eqn:E1; [|discriminate].
    destruct (normalize_var_ids c i1 (right x)) as [[b i2]|] eqn:E2; [|discriminate].
    destruct (normalize_var_ids_spec _ _ _ _ _ E1) as [((e1 & -> & _) & _) _].
    destruct (normalize_var_ids_spec _ _ _ _ _ E2) as [((e2 & -> & _) & _) _].
    destruct (lit_new_with_flip _ _ _) as [y f].
    destruct (renumber_literals c ((ids ++ e1) ++ e2) l) as [[r i3]|] eqn:E3; [|discriminate]. intros H; injection H as <- <-.
    destruct (IH _ _ _ E3) as [e3 ->]. exists (e1 ++ e2 ++ e3). rewrite !app_assoc. reflexivity.
Qed.
Lemma renumber_map_spec c : forall m ids m2 ids', renumber_map c ids m = Some (m2, ids') ->
  (exists e, ids' = ids ++ e) /\ (NoDup ids -> NoDup ids') /\ (forall i, vget m i = None -> vget m2 i = None) /\
  forall i t, vget m i = Some t -> exists t', vget m2 i = Some t' /\ renumber_variables ids' t = Some t'.
Proof.
  induction m as [|[t|] m IH]; intros ids m2 ids' H; cbn [renumber_map] in H.
  - injection H as <- <-. split; [exists []; symmetry; apply app_nil_r|]. split; auto. split; auto. intros [|i] t H; discriminate.
  - destruct (normalize_var_ids c ids t) as [[t' i1]|] eqn:E; [|discriminate].
    destruct (renumber_map c i1 m) as [[r i2]|] eqn:E2; [|discriminate]. injection H as <- <-. cbn [fst snd].
    destruct (normalize_var_ids_spec _ _ _ _ _ E) as [((e1 & -> & _) & N1 & _) R1].
    destruct (IH _ _ _ E2) as ((e2 & ->) & N2 & G0 & G). split; [exists (e1 ++ e2); apply eq_sym, app_assoc|]. split; auto. split.
    + intros [|i]; [discriminate|apply (G0 i)].
    + intros [|i] u Hu; [|apply (G i u Hu)]. injection Hu as <-. exists t'. split; auto. apply renumber_app_l. exact R1.
  - destruct (renumber_map c ids m) as [[r i2]|] eqn:E2; [|discriminate]. injection H as <- <-. cbn [fst snd].
    destruct (IH _ _ _ E2) as (P & N2 & G0 & G). split; auto. split; auto. split.
    + intros [|i]; [reflexivity|apply (G0 i)].
    + intros [|i] u Hu; [discriminate|apply (G i u Hu)].
Qed.
Lemma normalize_map_spec n : forall m m', normalize_map n m = Some m' -> (forall i, vget m i = None -> vget m' i = None) /\
  forall i t, vget m i = Some t -> exists t', vget m' i = Some t' /\ normalize_term n t = Some t'.
Proof.
  induction m as [|[t|] m IH]; intros m' H; cbn [normalize_map] in H.
  - injection H as <-. split; auto. intros [|i] t H; discriminate.
  - destruct (normalize_term n t) as [t'|] eqn:E; [|discriminate]. destruct (normalize_map n m) as [r|]; [|discriminate]. injection H as <-.
    destruct (IH r eq_refl) as [G0 G]. split; [intros [|i]; [discriminate|apply (G0 i)]|].
    intros [|i] u Hu; [injection Hu as <-; exists t'; auto|apply (G i u Hu)].
  - destruct (normalize_map n m) as [r|]; [|discriminate]. injection H as <-.
    destruct (IH r eq_refl) as [G0 G]. split; [intros [|i]; [reflexivity|apply (G0 i)]|].
    intros [|i] u Hu; [discriminate|apply (G i u Hu)].
Qed.
Lemma vget_map m ids k : vget (map (vget m) ids) k = match nth_error ids k with Some v => vget m v | None => None end.
Proof. unfold vget at 1. rewrite nth_error_map. destruct (nth_error ids k) as [v|]; simpl; auto. destruct (vget m v); auto. Qed.

(** The normal form of a claim says the same as what was given: its variables are some of the given ones, the
    leading type parameters keep their numbers, the clause has the same meaning, every variable is mapped to a
    term with the same value, and what it mentions is in scope. *)
Theorem claims_keep_meaning : forall n c m cl, claim_new n c m = Ok (Some cl) ->
  exists ids, NoDup ids /\ length ids = length (context (claim_generic cl)) /\
  (forall i, i < leading_type_params (context c) -> nth_error ids i = Some i) /\
  (forall k v, nth_error ids k = Some v -> vget m v = None -> vget (clm_map cl) k = None) /\
  (forall k t v, vget (clm_map cl) k = Some t -> k < length (context (claim_generic cl)) /\ (In v (vars t) -> v < length (context (claim_generic cl)))) /\
  forall M rho rho', eta_model M -> (forall k v, nth_error ids k = Some v -> rho' k = rho v) ->
  (valid_env M (context c) rho -> valid_env M (context (claim_generic cl)) rho') /\
  ((forall l, In l (literals c) -> lit_wt M rho l) ->
    (cholds M rho' (literals (claim_generic cl)) <-> cholds M rho (literals c))) /\
  forall k v t, nth_error ids k = Some v -> vget m v = Some t -> swtg M (proper_inhabited M) rho (nobs M) t ->
    exists t', vget (clm_map cl) k = Some t' /\ ev M rho' t' = ev M rho t.
Proof.
  intros n c m cl H. unfold claim_new in H.
  destruct (normalize_with_trace_pinned (literals c) (context c) (leading_type_params (context c))) as [[d ids0]|] eqn:E1; [|discriminate].
  cbn [unwrap rbind fst snd] in H.
  destruct (normalize_map n m) as [m1|] eqn:E2; [|discriminate]. cbn [fueled rbind] in H.
  destruct (renumber_map (context c) ids0 m1) as [[m2 ids]|] eqn:E3; [|discriminate]. cbn [unwrap rbind] in H.
  destruct (LocalContext.remap (context c) ids) as [out|] eqn:E4; [|discriminate]. cbn [unwrap rbind] in H.
  destruct (map_in_scope _) eqn:E5; [|discriminate]. injection H as <-. unfold claim_generic in *. cbn [clm_clause clm_map literals context] in *.
  destruct (renumber_map_spec _ _ _ _ _ E3) as ((e & ->) & N & G0 & G). destruct (normalize_map_spec _ _ _ E2) as [Q0 Q].
  pose proof (prefilled_faithful _ _ _ _ _ (seq_NoDup _ _) E1) as F.
  pose proof (N (f_nodup _ _ _ F)) as N'. clear N.
  assert (L : length (ids0 ++ e) = length out) by (destruct (remap_get _ _ _ E4) as [L _]; auto).
  exists (ids0 ++ e). split; auto. split; auto. split; [|split; [|split]].
  - intros i Hi. unfold normalize_with_trace_pinned, normalize_with_var_ids_prefilled in E1.
    destruct (renumber_literals (context c) (seq 0 (leading_type_params (context c))) (normalize_literals (literals c))) as [[ls i1]|] eqn:E; [|discriminate].
    destruct (LocalContext.remap (context c) i1); [|discriminate]. injection E1 as _ <-.
    destruct (renumber_literals_prefix _ _ _ _ _ E) as [e1 ->].
    rewrite <- app_assoc, nth_error_app1 by (rewrite seq_length; auto).
    rewrite (nth_error_nth' _ 0) by (rewrite seq_length; auto). rewrite seq_nth; auto.
  - intros k v Hk Hv. rewrite vget_map, Hk. apply G0, Q0, Hv.
  - intros k t v Hk. unfold map_in_scope in E5. cbn [clm_clause clm_map context] in E5. rewrite forallb_forall in E5.
    assert (Hl : k < length (ids0 ++ e)).
    { rewrite vget_map in Hk. apply nth_error_Some. destruct (nth_error (ids0 ++ e) k); discriminate. }
    specialize (E5 k). rewrite Hk, map_length in E5. specialize (E5 ltac:(apply in_seq; lia)).
    apply andb_prop in E5. destruct E5 as [E5 E6]. split; [apply Nat.ltb_lt, E5|]. rewrite forallb_forall in E6.
    intros Hv. apply Nat.ltb_lt, E6, Hv.
  - intros M rho rho' He Hf. split; [|split].
    + intros V. apply (valid_remap M _ _ _ rho rho' E4 Hf). intros v T _ HT. apply V, HT.
    + intros Hw. apply (f_lits _ _ _ F M rho rho'); auto. intros p v Hp. apply Hf. rewrite nth_error_app1; auto; apply nth_error_Some; congruence.
    + intros k v t Hk Hv Hw. destruct (Q _ _ Hv) as (t1 & Hv1 & En). destruct (G _ _ Hv1) as (t2 & Hv2 & Er).
      exists t2. split; [rewrite vget_map, Hk; exact Hv2|].
      destruct (normalization_keeps_value_partial n t t1 En M rho He Hw) as [_ <-].
      apply (eval_renumber M _ rho rho' t1 Hf t2 (nobs M) Er).
Qed.
Print Assumptions claims_keep_meaning.

(** [f(x1) = x0], a type parameter before; the variables change places and so do the terms given for them *)
Definition cn_cl := Clause [Lit true (ei_f (TVar 2)) (TVar 1)] [Some type0; Some ei_A; Some ei_A].
Example claims_case : exists cl, claim_new 20 cn_cl [None; Some ei_c; Some (ei_f ei_c)] = Ok (Some cl) /\
  clm_map cl = [None; Some (ei_f ei_c); Some ei_c] /\ literals (claim_generic cl) = [Lit true (ei_f (TVar 1)) (TVar 2)] /\
  leading_type_params (context cn_cl) = 1 /\ swtg ei_M (proper_inhabited ei_M) (fun _ => ei_e0) (nobs ei_M) (ei_f ei_c) /\
  claim_new 20 cn_cl [None; Some ei_c; Some (TVar 7)] = Panic.
Proof. eexists. split; [vm_compute; reflexivity|]. split; [reflexivity|]. split; [reflexivity|]. split; [reflexivity|]. split; [|vm_compute; reflexivity]. vm_compute. tauto. Qed.

(** ** The generic clause of a claim
    Any goal can be "proved": the claim [function(x0: Bool) { x0 }(true)] is accepted because its instance
    [true] is trivial, but then [x0] itself is known, and its instance [not true] closes the proof. *)
Definition gc_generic := Clause [Lit true (TVar 0) ttrue] [Some tbool].
Definition gc_step (r : trule) (g sp : clause) (ps : list nat) := TS r (PClaim g (Some sp)) false ps false None None.
Definition gc_one := CLAIM gc_generic [Some ttrue].
Definition gc_two := CLAIM gc_generic [Some (tnot ttrue)].
Definition gc_sp1 := Clause [Lit true ttrue ttrue] [].
Definition gc_sp2 := Clause [] [].
Definition gc_trace := [gc_step RClaim gc_generic gc_sp1 []; gc_step RInst gc_generic gc_sp2 [0]].
Definition gc_run K steps s := check_trace K un_ts ck_none (fun _ => true) (fun _ _ => true) ck_idk ck_idc (fun l => l) 20 s steps.
Lemma gc_suitable : suitable ei_M gc_generic /\ suitable ei_M gc_sp1 /\ suitable ei_M gc_sp2.
Proof.
  split; [|split]; (constructor; [|try (apply ei_inhabited; exact ei_none)|try (apply ei_inhabited; exact ei_none)]).
  - intros rho V l [<-|[]]. specialize (V 0 _ eq_refl). split; vm_compute; tauto.
  - exists (fun _ => 0). intros [|[|v]] d Hd; destruct Hd.
  - intros [|[|v]] T _ HT rho _; unfold get_var_type in HT; simpl in HT; try discriminate. injection HT as <-. exists VTrue. vm_compute. tauto.
  - intros rho V l [<-|[]]; split; vm_compute; tauto.
  - intros rho V l [].
Qed.
Theorem certificate_acceptance_refuted : exists K steps M,
  eta_model M /\ respects M K /\
  claim_new 20 gc_generic [Some ttrue] = Ok (Some gc_one) /\ claim_specialized 20 no_aliases gc_one = Ok (Some gc_sp1) /\
  claim_new 20 gc_generic [Some (tnot ttrue)] = Ok (Some gc_two) /\ claim_specialized 20 no_aliases gc_two = Ok (Some gc_sp2) /\
  steps = [gc_step RClaim gc_generic gc_sp1 []; gc_step RInst gc_generic gc_sp2 [0]] /\
  suitable M gc_generic /\ suitable M gc_sp1 /\ suitable M gc_sp2 /\
  gc_run K steps ck_new = Ok true.
Proof.
  exists ei_K, gc_trace, ei_M. split; [exact ei_eta|]. split; [exact ei_respects|]. do 4 (split; [vm_compute; reflexivity|]). split; [reflexivity|].
  destruct gc_suitable as (S1 & S2 & S3). split; [exact S1|]. split; [exact S2|]. split; [exact S3|]. vm_compute. reflexivity.
Qed.
Print Assumptions certificate_acceptance_refuted.

(** ** A trace that is accepted
    [f(x0) = x0] is given and [f(c) = c] to be proved, so [f(c) != c] is inserted. *)
Definition tc_all := Clause [Lit true (ei_f (TVar 0)) (TVar 0)] [Some ei_A].
Definition tc_nall := Clause [Lit false (ei_f (TVar 0)) (TVar 0)] [Some ei_A].
Definition tc_nfc := Clause [Lit false (ei_f ei_c) ei_c] [].
Definition tc_W (c : clause) : Prop := c = tc_all \/ c = tc_nall \/ c = ck_fc \/ c = tc_nfc \/ c = impossible.
Ltac each H := destruct H as [-> |[-> |[-> |[-> | ->]]]].
Lemma tc_fragment : fragment ei_M ei_K un_ts 20 tc_W.
Proof.
  assert (SU : forall c, tc_W c -> suitable ei_M c).
  { intros c H. each H; constructor; try (apply ei_inhabited; first [exact ei_none|exact ei_one]).
    - intros rho V l [<-|[]]; split; unfold ei_f; cbn [swtg left right eval]; try exact Logic.I; destruct (ei_env _ _ V) as [E|E]; rewrite ?E; vm_compute; tauto.
    - intros rho V l [<-|[]]; split; unfold ei_f; cbn [swtg left right eval]; try exact Logic.I; destruct (ei_env _ _ V) as [E|E]; rewrite ?E; vm_compute; tauto.
    - intros rho V l [<-|[]]; split; vm_compute; tauto.
    - intros rho V l [<-|[]]; split; vm_compute; tauto.
    - intros rho V l []. }
  constructor.
  - exact SU.
  - intros c H. pose proof (pwt_wt _ _ (su_wt _ _ (SU c H))) as Wc. each H; constructor; auto;
      try (constructor; [intros l v Hl Hv; repeat (destruct Hl as [<-|Hl]; [vm_compute in Hv; repeat (destruct Hv as [<-|Hv]; [eexists; reflexivity|]); destruct Hv|]); destruct Hl
                        |intros [|[|v]] d Hd; destruct Hd]);
      try (intros rho V [|[|i]] T HT; unfold get_var_type in HT; simpl in HT; try discriminate; injection HT as <-; exact Logic.I);
      try (intros l [<-|[]]; split; [eexists; split; vm_compute; reflexivity|vm_compute; tauto]);
      try (intros l []).
  - intros c l H Hl A body T a b E. each H; repeat (destruct Hl as [<-|Hl]; [discriminate E|]); destruct Hl.
  - intros c k i ls c' H E. exfalso. each H; (destruct i as [|i]; [destruct k; vm_compute in E; discriminate E|destruct i; discriminate E]).
  - intros c c' H E. unfold tc_W. each H; run E; auto 6.
  - intros c ls c' H Hk E. unfold tc_W. each H; inversion Hk as [|l ls' ls0 K1|l ls' ls0 G F K1]; subst; try (inversion K1; subst); run E; auto 6.
  - intros c l c' H El E. unfold tc_W. each H; simpl in El; try discriminate El; injection El as <-; run E; auto 6.
  - intros c rs ls out c' H E Hi. each H; run E; destruct Hi.
  - intros c rs ls out c' H E Hi. each H; run E; destruct Hi.
  - intros c rs ls c' H E Hi. each H; run E; destruct Hi.
  - intros c ls c' H E. each H; run E.
  - intros c k i t c' H E. exfalso. each H; (destruct i as [|i]; [destruct k; vm_compute in E; discriminate E|destruct i; discriminate E]).
  - intros a b Ha Hb E V. each Ha; each Hb; try discriminate E; auto.
    + exfalso. destruct (V (fun _ => ei_e0)) as (l & [<-|[]] & Hh).
      * intros [|[|v]] T HT; unfold get_var_type in HT; simpl in HT; try discriminate. injection HT as <-. vm_compute. tauto.
      * vm_compute in Hh. discriminate.
    + intros rho _. eexists. split; [left; reflexivity|]. vm_compute. discriminate.
Qed.
Definition tc_trace := [gc_step RClaim tc_all ck_fc []].
Lemma tc_good t : In t tc_trace -> good_step ei_M tc_W t.
Proof.
  assert (N : ~ valid ei_M tc_all /\ ~ valid ei_M ck_fc).
  { split; intros V; destruct (V (fun _ => ei_e0)) as (l & [<-|[]] & Hh).
    - intros [|[|v]] T HT; unfold get_var_type in HT; simpl in HT; try discriminate. injection HT as <-. vm_compute. tauto.
    - vm_compute in Hh. discriminate.
    - intros [|v] T HT; discriminate.
    - vm_compute in Hh. discriminate. }
  intros [<-|[]]. constructor.
  - intros g sp H. injection H as <- <-. left. reflexivity.
  - intros g sp H. injection H as <- <-. split; [right; right; left; reflexivity|tauto].
  - intros g sp H. injection H as <- <-. tauto.
  - intros g j sp ws H. discriminate.
Qed.
Example trace_acceptance_case : exists s, deep_history ei_K un_ts ck_none (fun _ => true) (fun _ _ => true) ck_idk ck_idc (fun l => l) 20 [tc_nfc; tc_all] [] s /\
  has_contradiction s = false /\ gc_run ei_K tc_trace s = Ok true /\ gc_run ei_K [] s = Ok false /\
  eta_model ei_M /\ respects ei_M ei_K /\ fragment ei_M ei_K un_ts 20 tc_W /\
  (forall c, In c [tc_nfc; tc_all] -> tc_W c) /\ (forall t, In t tc_trace -> good_step ei_M tc_W t) /\ valid ei_M tc_nfc.
Proof.
  eexists. split; [|split; [|split; [|split; [|split; [|split; [|split; [|split; [|split]]]]]]]].
  - eapply dh_deep with (c := tc_nfc) (re := true);
      [eapply dh_deep with (c := tc_all) (re := true); [apply dh_new|vm_compute; reflexivity|vm_compute; reflexivity]
      |vm_compute; reflexivity|vm_compute; reflexivity].
  - vm_compute. reflexivity.
  - vm_compute. reflexivity.
  - vm_compute. reflexivity.
  - exact ei_eta.
  - exact ei_respects.
  - exact tc_fragment.
  - intros c [<-|[<-|[]]]; unfold tc_W; auto 6.
  - exact tc_good.
  - intros rho _. eexists. split; [left; reflexivity|]. vm_compute. discriminate.
Qed.
(** [f(x0) = x0] specialized to [c] *)
Example specialized_claims_case : exists cl, claim_new 20 tc_all [Some ei_c] = Ok (Some cl) /\
  claim_specialized 20 no_aliases cl = Ok (Some ck_fc) /\ specialize_clause no_aliases (clm_map cl) (claim_generic cl) = Some ck_fc /\
  suitable ei_M ck_fc /\ claim_generic cl = tc_all.
Proof.
  eexists. split; [vm_compute; reflexivity|]. split; [vm_compute; reflexivity|]. split; [vm_compute; reflexivity|]. split; [|reflexivity].
  apply (fr_suitable _ _ _ _ _ tc_fragment). right; right; left; reflexivity.
Qed.
