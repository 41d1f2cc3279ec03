(** C63: naming the witnesses of existential quantifiers is conservative.  The clauses are those of Monomorphic.v, the
    steps are those of Witness.v and of the search of P_Search.v.  A value for the new constant is chosen for every
    value of the variables of the clause, so the proofs use the axioms of the standard library's ClassicalEpsilon. *)
From Coq Require Import List Arith NArith Bool Lia.
Import ListNotations.
From Verif Require Import Pdt PdtProofs VariableMap Unifier Inference ClauseSet EqualityGraph Checker.
From Verif Require Import Term LocalContext Semantics TermProofs SemFacts TermNorm TermNormProofs Typing TypingProofs FiniteTyping FiniteModel Literal Clause ClauseSem RenumberProofs ClauseProofs ClauseWf InferenceProofs
  VariableMapProofs UnifierProofs BoolReduction BoolReductionProofs CheckerProofs CheckerSem CheckerSets P_TermNorm P_EqualityInferences P_Unifier P_LiteralSet P_Checker
  Monomorphic MonoProofs MonoNorm MonoReduce MonoUnify MonoRules MonoMatch MonoInfer P_Monomorphic SearchRules SearchProofs SearchSimplify SearchRewrite P_Search Witness WitnessProofs.

(** ** One opening
    An interpretation in which the clause holds can be changed at the new constant so that it has the declared type
    and the opened clause holds.  Nothing else changes.  [allow] is true when a certificate is replayed. *)
Theorem witness_opening_conservative : forall M K allow c w A b T c' ids out,
  closed_types K -> parameters_used K -> respects M K -> mono_typed M K c -> valid M c ->
  (forall s, mentions w (symbol_type K s) = false) -> clause_mentions w c = false ->
  positive_exists_reduction K allow c = Some (Some (A, b)) -> open_positive_exists c w A b = Some (T, (c', ids, out)) ->
  exists M', closed_types (with_scoped K w T) /\ parameters_used (with_scoped K w T) /\ respects M' (with_scoped K w T) /\
    mono_typed M' (with_scoped K w T) c' /\ valid M' c' /\
    forall x, clause_mentions w x = false -> (mono_typed M K x <-> mono_typed M' (with_scoped K w T) x) /\ (valid M x <-> valid M' x).
Proof.
  intros M K allow c w A b T c' ids out CT UP R Hc Vc Nk Nc HP HO. destruct (opening M K CT R c w Hc Vc Nc Nk allow A b T c' ids out HP HO) as (v & X1 & X2 & X3 & X4 & X5).
  exists (with_value M w v). split; [auto|]. split; [apply scoped_used; auto|]. split; [auto|]. split; [auto|]. split; [auto|]. intros x Hx. split.
  - split; [apply mt_other; auto|apply mt_back; auto].
  - symmetry. apply valid_other; auto.
Qed.
Print Assumptions witness_opening_conservative.

(** ** The search with named witnesses
    [searched given K cs ws]: the search that starts with [given] can have declared the witnesses [ws] and derived [cs];
    [K] has the types of all constants. *)
Section Searched.
Context (alias : N -> N -> list term -> option symbol).

(** The constant is new (synthetic.rs:238-252 [next_name] and symbol_table.rs [add_constant]). *)
Definition fresh (K : kctx) (cs : list clause) (w : N) : Prop :=
  (forall s, mentions w (symbol_type K s) = false) /\ (forall x, In x cs -> clause_mentions w x = false) /\
  (forall m i args s, alias m i args = Some s -> s <> SScoped w).

Inductive searched (K0 : kctx) (given : list clause) : kctx -> list clause -> list N -> Prop :=
  | s_start : searched K0 given K0 given []
  | s_step : forall K cs ws ts witnessed inhabited attribute be mi c, searched K0 given K cs ws ->
      (forall pc T qc T', vars T = [] -> mi pc T qc T' = true -> T' = T) ->
      derived K ts witnessed inhabited attribute alias be mi (fun x => In x cs) c -> searched K0 given K (c :: cs) ws
  | s_witness : forall K cs ws sound c w K' r, searched K0 given K cs ws -> In c cs -> fresh K cs w ->
      witness_step K sound c w = Some (K', r) ->
      searched K0 given K' (match r with Some c' => c' :: cs | None => cs end) (w :: ws).

(** Every model of the given clauses is, up to the values of the witnesses, a model of all that is derived. *)
Theorem witnessed_search_sound : forall M0 K0 given K cs ws, searched K0 given K cs ws ->
  closed_types K0 -> parameters_used K0 -> type_kinds K0 -> respects M0 K0 -> aliases_agree M0 K0 alias ->
  (forall m i args s, alias m i args = Some s -> forallb ground_type args = true) ->
  (forall c, In c given -> mono_typed M0 K0 c /\ valid M0 c) ->
  exists M, closed_types K /\ parameters_used K /\ type_kinds K /\ respects M K /\ aliases_agree M K alias /\
    (forall c, In c cs -> mono_typed M K c /\ valid M c) /\
    forall x, (forall w, In w ws -> clause_mentions w x = false) -> (mono_typed M0 K0 x <-> mono_typed M K x) /\ (valid M0 x <-> valid M x).
Proof.
  intros M0 K0 given K cs ws H CT UP TK R AA AG Hg.
  induction H as [|K cs ws ts wi inh att be mi c _ (M & I1 & I2 & I3 & I4 & I5 & I6 & I7) Mc E|K cs ws sound c w K' r _ (M & I1 & I2 & I3 & I4 & I5 & I6 & I7) Hi (F1 & F2 & F3) E].
  - exists M0. split; [auto|]. split; [auto|]. split; [auto|]. split; [auto|]. split; [auto|]. split; [auto|]. intros x _. split; reflexivity.
  - exists M. split; [auto|]. split; [auto|]. split; [auto|]. split; [auto|]. split; [auto|]. split; [|auto].
    intros x [<-|Hx]; auto. exact (search_sound K ts wi inh att alias be mi (fun x => In x cs) M I1 I2 I3 I4 I5 Mc I6 c E).
  - unfold witness_step in E. destruct (positive_exists_reduction K false c) as [[[A b]|]|] eqn:EP; [| |discriminate].
    + destruct (open_positive_exists c w A b) as [[T [[c' ids] out]]|] eqn:EO; [|discriminate]. injection E as <- <-.
      destruct (I6 c Hi) as [Hc Vc].
      destruct (opening M K I1 I4 c w Hc Vc (F2 c Hi) F1 false A b T c' ids out EP EO) as (v & X1 & X2 & X3 & X4 & X5).
      exists (with_value M w v). split; [auto|]. split; [apply scoped_used; auto|]. split; [exact I3|]. split; [auto|].
      split; [apply aliases_other; auto; intros m i args s Es; split; [eapply AG; eauto|eapply F3; eauto]|]. split.
      * intros x Hx. assert (Hx' : In x cs \/ x = c') by (destruct (sound (c', ids, out)); [destruct Hx as [<-|Hx]; auto|auto]).
        destruct Hx' as [Hy| ->]; [|auto]. destruct (I6 x Hy). split; [apply mt_other; auto|apply valid_other; auto].
      * intros x Hx. destruct (I7 x (fun u Hu => Hx u (or_intror Hu))) as [J1 J2]. pose proof (Hx w (or_introl eq_refl)) as Nx. split.
        -- rewrite J1. split; [apply mt_other; auto|apply mt_back; auto].
        -- rewrite J2. symmetry. apply valid_other; auto.
    + injection E as <- <-. exists M. split; [auto|]. split; [auto|]. split; [auto|]. split; [auto|]. split; [auto|]. split; [auto|].
      intros x Hx. apply I7. intros u Hu. apply Hx. right. auto.
Qed.

(** What the search derives about the old constants follows from the given clauses. *)
Theorem witnesses_conservative : forall M0 K0 given K cs ws, searched K0 given K cs ws ->
  closed_types K0 -> parameters_used K0 -> type_kinds K0 -> respects M0 K0 -> aliases_agree M0 K0 alias ->
  (forall m i args s, alias m i args = Some s -> forallb ground_type args = true) ->
  (forall c, In c given -> mono_typed M0 K0 c /\ valid M0 c) ->
  forall c, In c cs -> (forall w, In w ws -> clause_mentions w c = false) -> mono_typed M0 K0 c /\ valid M0 c.
Proof.
  intros M0 K0 given K cs ws H CT UP TK R AA AG Hg c Hc Nc.
  destruct (witnessed_search_sound M0 K0 given K cs ws H CT UP TK R AA AG Hg) as (M & _ & _ & _ & _ & _ & X & Y).
  destruct (X c Hc) as [X1 X2]. destruct (Y c Nc) as [Y1 Y2]. split; [apply Y1|apply Y2]; auto.
Qed.

(** A contradiction, found with or without witnesses, means that the given clauses have no model. *)
Theorem witnessed_contradictions_are_real : forall K0 given K cs ws c, searched K0 given K cs ws -> In c cs -> literals c = [] ->
  closed_types K0 -> parameters_used K0 -> type_kinds K0 ->
  (forall m i args s, alias m i args = Some s -> forallb ground_type args = true) ->
  ~ exists M, respects M K0 /\ aliases_agree M K0 alias /\ forall x, In x given -> mono_typed M K0 x /\ valid M x.
Proof.
  intros K0 given K cs ws c H Hc E CT UP TK AG (M0 & R & AA & Hg).
  destruct (witnessed_search_sound M0 K0 given K cs ws H CT UP TK R AA AG Hg) as (M & C1 & _ & _ & R1 & _ & X & _).
  destruct (X c Hc) as [X1 X2]. apply mt_in in X1. destruct X1 as [G _].
  destruct (match_env M K C1 R1 (context c) [] [] (fun _ => dsym M STrue) G) as (rho & V & _); try (intros [|i] ?; discriminate).
  destruct (X2 rho V) as (l & Hl & _). rewrite E in Hl. exact Hl.
Qed.
End Searched.
Print Assumptions witnessed_search_sound.
Print Assumptions witnesses_conservative.
Print Assumptions witnessed_contradictions_are_real.

(** ** Concrete cases
    [exists y. f(y) = x0] becomes [f(w(x0)) = x0] for a new function [w].  From that and [f(x0) != c or id(c) = c]
    the search derives [id(c) = c], in which [w] does not occur; with [f(x0) != c] there is a contradiction. *)
Definition wn_body := teq ei_A (mn_f (TBound 0)) (TVar 0).
Definition wn_ex := Clause [Lit true (TBind KEx ei_A wn_body) ttrue] [Some ei_A].
Definition wn_open := Clause [Lit true (mn_f (TApp (TSym (SScoped 7)) (TVar 0))) (TVar 0)] [Some ei_A].
Definition wn_K := with_scoped mn_K 7 (tarrow ei_A ei_A).
Definition wn_cond := Clause [Lit false (mn_f (TVar 0)) mn_c; Lit true (mn_id mn_c) mn_c] [Some ei_A].
Definition wn_neg := Clause [Lit false (mn_f (TVar 0)) mn_c] [Some ei_A].

Lemma wn_ex_mono : mono_typed mn_M mn_K wn_ex.
Proof.
  split; [mn_context|]. constructor; [|constructor]. exists tbool. split; [apply et_bool|]. split; [|exact (ht_sym mn_M mn_K _ [] STrue eq_refl)].
  apply ht_quant; [right; reflexivity|exact mn_A|]. unfold wn_body, teq, mn_f. eapply ht_app; [|exact mn_A|reflexivity|apply ht_var; [reflexivity|exact mn_A]].
  eapply ht_app; [apply ht_eq; exact mn_A|exact mn_A|reflexivity|].
  eapply ht_app; [apply (ht_sym mn_M mn_K _ _ (SGlobal 0 1)); reflexivity|exact mn_A|reflexivity|apply ht_bound; [reflexivity|exact mn_A]].
Qed.
Lemma wn_ex_valid : valid mn_M wn_ex.
Proof. intros rho V. eexists. split; [left; reflexivity|]. unfold wn_body, teq. mn_holds V. Qed.
Lemma wn_symbols : forall s, mentions 7 (symbol_type mn_K s) = false.
Proof. intros []; try reflexivity. cbn [symbol_type mn_K k_global]. destruct (N.eqb i 0), (N.eqb i 2); reflexivity. Qed.
Lemma wn_alias_ground : forall m i args s, sr_alias m i args = Some s -> forallb ground_type args = true.
Proof.
  intros m i args s. unfold sr_alias. destruct args as [|T [|]]; try discriminate. destruct (N.eqb m 0 && N.eqb i 2 && term_eqb T ei_A) eqn:E; [|discriminate].
  apply andb_prop in E. destruct E as [_ E]. apply term_eqb_eq in E. subst. reflexivity.
Qed.
Lemma wn_alias_global : forall m i args s, sr_alias m i args = Some s -> s <> SScoped 7.
Proof. intros m i args s. unfold sr_alias. destruct args as [|T [|]]; try discriminate. destruct (_ && _ && _); congruence. Qed.

Example witness_opening_case : closed_types mn_K /\ parameters_used mn_K /\ respects mn_M mn_K /\ mono_typed mn_M mn_K wn_ex /\ valid mn_M wn_ex /\
  (forall s, mentions 7 (symbol_type mn_K s) = false) /\ clause_mentions 7 wn_ex = false /\
  positive_exists_reduction mn_K false wn_ex = Some (Some (ei_A, wn_body)) /\
  open_positive_exists wn_ex 7 ei_A wn_body = Some (tarrow ei_A ei_A, (wn_open, [0], [Some ei_A])) /\
  witness_step mn_K (fun _ => true) wn_ex 7 = Some (wn_K, Some wn_open) /\ clause_mentions 7 wn_open = true.
Proof.
  split; [exact mn_closed|]. split; [exact mn_used|]. split; [exact mn_respects|]. split; [exact wn_ex_mono|]. split; [exact wn_ex_valid|].
  split; [exact wn_symbols|]. repeat split; reflexivity.
Qed.

Lemma wn_cond_mono : mono_typed mn_M mn_K wn_cond. Proof. sr_mono. Qed.
Lemma wn_fresh cs : (forall x, In x cs -> clause_mentions 7 x = false) -> fresh sr_alias mn_K cs 7.
Proof. intros H. split; [exact wn_symbols|]. split; [exact H|exact wn_alias_global]. Qed.
Lemma wn_exact : forall pc T qc T', vars T = [] -> exactly pc T qc T' = true -> T' = T.
Proof. intros pc T qc T' _ H. unfold exactly in H. first [apply term_eqb_eq in H; congruence|symmetry; apply term_eqb_eq; auto]. Qed.

Example witnessed_search_case :
  (forall c, In c [wn_ex; wn_cond] -> mono_typed mn_M mn_K c /\ valid mn_M c) /\ type_kinds mn_K /\ aliases_agree mn_M mn_K sr_alias /\
  searched sr_alias mn_K [wn_ex; wn_cond] wn_K [mn_goal; wn_open; wn_ex; wn_cond] [7%N] /\ clause_mentions 7 mn_goal = false /\
  exists cs, searched sr_alias mn_K [wn_ex; wn_neg] wn_K cs [7%N] /\ In (Clause [] []) cs.
Proof.
  split; [|split; [exact sr_kinds|split; [exact sr_agree|split; [|split; [reflexivity|]]]]].
  - intros c [<-|[<-|[]]]; [exact (conj wn_ex_mono wn_ex_valid)|split; [exact wn_cond_mono|]]. intros rho V. eexists. split; [right; left; reflexivity|]. vm_compute. reflexivity.
  - eapply (s_step sr_alias _ _ _ _ _ un_ts (fun _ _ => true) (fun _ _ => true) sr_attribute false exactly mn_goal); [|exact wn_exact|].
    + eapply (s_witness sr_alias _ _ mn_K [wn_ex; wn_cond] [] (fun _ => true) wn_ex 7 wn_K (Some wn_open)); [apply s_start|left; reflexivity|apply wn_fresh|reflexivity].
      intros x [<-|[<-|[]]]; reflexivity.
    + eapply (d_resolution _ _ _ _ _ _ _ _ _ 30 wn_open 0 wn_cond 0 false); [apply d_given; left; reflexivity|apply d_given; right; right; left; reflexivity|vm_compute; reflexivity].
  - exists [Clause [] []; wn_open; wn_ex; wn_neg]. split; [|left; reflexivity].
    eapply (s_step sr_alias _ _ _ _ _ un_ts (fun _ _ => true) (fun _ _ => true) sr_attribute false exactly (Clause [] [])); [|exact wn_exact|].
    + eapply (s_witness sr_alias _ _ mn_K [wn_ex; wn_neg] [] (fun _ => true) wn_ex 7 wn_K (Some wn_open)); [apply s_start|left; reflexivity|apply wn_fresh|reflexivity].
      intros x [<-|[<-|[]]]; reflexivity.
    + eapply (d_resolution _ _ _ _ _ _ _ _ _ 30 wn_open 0 wn_neg 0 false); [apply d_given; left; reflexivity|apply d_given; right; right; left; reflexivity|vm_compute; reflexivity].
Qed.
