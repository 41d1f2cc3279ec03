(** C62: the inferences and simplifications of the search are sound for clauses without type variables.
    The clauses are those of Monomorphic.v, the search is that of SearchRules.v. *)
From Coq Require Import List Arith NArith Bool Lia.
Import ListNotations.
From Verif Require Import Pdt PdtProofs VariableMap Unifier Inference ClauseSet EqualityGraph Checker.
From Verif Require Import Term LocalContext Semantics TermProofs SemFacts TermNorm TermNormProofs Typing TypingProofs FiniteTyping FiniteModel Literal Clause ClauseSem RenumberProofs ClauseProofs ClauseWf InferenceProofs
  VariableMapProofs UnifierProofs BoolReduction BoolReductionProofs CheckerProofs CheckerSem CheckerSets P_TermNorm P_EqualityInferences P_Unifier P_LiteralSet P_Checker
  Monomorphic MonoProofs MonoNorm MonoReduce MonoUnify MonoRules MonoMatch MonoInfer P_Monomorphic SearchRules SearchProofs SearchSimplify SearchRewrite.

(** ** One step *)
Section Steps.
Context (M : Model) (K : kctx) (ts : tstore) (CT : closed_types K) (R : respects M K).

(** Resolution of a positive with a negative literal *)
Theorem search_resolution_sound : forall witnessed n pos pi neg ni flipped c, mono_typed M K pos -> mono_typed M K neg ->
  try_resolution K ts witnessed n pos pi neg ni flipped = Some (Some c) ->
  mono_typed M K c /\ (valid M pos -> valid M neg -> valid M c).
Proof. intros witnessed n pos pi neg ni flipped c. apply mono_try_resolution; auto. Qed.

(** Rewriting keeps what a concrete literal says: given the equation, the old and the new clause are equivalent. *)
Theorem search_rewriting_sound : forall attribute alias n pattern forwards target target_left p c,
  type_kinds K -> aliases_agree M K alias -> mono_typed M K pattern -> mono_typed M K target -> clause_has_any_variable target = false ->
  rewrite_with K ts attribute alias n pattern forwards target target_left p = Some (Some c) ->
  mono_typed M K c /\ (valid M pattern -> (valid M target <-> valid M c)).
Proof. intros attribute alias n pattern forwards target target_left p c TK AA. apply mono_rewrite; auto. Qed.

(** A waiting clause that an activated literal removes follows from it; one that it simplifies is equivalent to its simplification. *)
Theorem waiting_simplification_sound : forall inhabited act reverse assumption c i w, mono_typed M K act -> mono_typed M K c ->
  simplify_passive K inhabited act reverse assumption c i = Some w -> valid M act ->
  match w with
  | Replaced c' => mono_typed M K c' /\ (valid M c <-> valid M c')
  | Implied => valid M c
  | _ => True
  end.
Proof.
  intros inhabited act reverse assumption c i w Ha Hc H V. pose proof (simplify_passive_sound M K CT R inhabited act reverse assumption c i w Ha Hc H) as S.
  destruct w; auto. destruct S as (S1 & S2 & S3). split; [exact S1|split; auto].
Qed.

(** The same for a clause that is simplified before its activation, with the literals of an index of unit clauses and the long clauses. *)
Theorem active_simplification_sound : forall be mi inhabited ops index long kd c res,
  (forall pc T qc T', vars T = [] -> mi pc T qc T' = true -> T' = T) ->
  Forall op_fits ops -> insert_all be pdt_new ops = Some index -> (forall x, In x (unit_clauses ops) -> mono_typed M K x) ->
  mono_typed M K c -> negatives_first (literals c) -> (forall l, In l (literals c) -> fitting l) ->
  simplify_active K inhabited be mi index long kd c = Some res ->
  (forall x, In x (unit_clauses ops) -> valid M x) -> (forall x, In x long -> valid M x) ->
  match res with
  | Result c' => mono_typed M K c' /\ (valid M c <-> valid M c')
  | Known => valid M c
  | GivenUp => True
  end.
Proof.
  intros be mi inhabited ops index long kd c res Mc Fo Ins Ho Hc Nc Fc H V1 V2.
  pose proof (simplify_active_sound M K CT R be mi Mc inhabited ops index long kd c res Fo Ins Ho Hc Nc Fc H) as S.
  destruct res; auto. destruct S as (S1 & S2 & S3). split; [exact S1|split; auto].
Qed.
End Steps.
Print Assumptions search_resolution_sound.
Print Assumptions search_rewriting_sound.
Print Assumptions waiting_simplification_sound.
Print Assumptions active_simplification_sound.

(** ** The whole search
    Everything that can become a clause of the search (active_set.rs:1750-1900 [activate] and passive_set.rs), in any
    order and any number of steps.  Named witnesses of existential quantifiers are left out.  Injectivity and
    extensionality start from clauses without redexes, the index of the active literals holds terms
    that its keys can represent ([fitting]). *)
Section Derivation.
Context (K : kctx) (ts : tstore) (witnessed : lctx -> list nat -> bool) (inhabited : term -> lctx -> bool)
  (attribute : N -> N -> option nat) (alias : N -> N -> list term -> option symbol) (be : bool) (mi : lctx -> term -> lctx -> term -> bool)
  (given : clause -> Prop).

Inductive derived : clause -> Prop :=
  | d_given : forall c, given c -> derived c
  | d_resolution : forall n pos pi neg ni flipped c, derived pos -> derived neg ->
      try_resolution K ts witnessed n pos pi neg ni flipped = Some (Some c) -> derived c
  | d_rewriting : forall n pattern forwards target target_left p c, derived pattern -> derived target -> clause_has_any_variable target = false ->
      rewrite_with K ts attribute alias n pattern forwards target target_left p = Some (Some c) -> derived c
  | d_equality_resolution : forall n c rs ls out c' ids, derived c -> find_equality_resolutions K ts n c = Some rs -> In (ls, out) (result_pairs rs) ->
      normalize_with_trace ls out = Some (c', ids) -> derived c'
  | d_equality_factoring : forall n c rs ls out c' ids, derived c -> find_equality_factorings K ts n c = Some rs -> In (ls, out) (result_pairs rs) ->
      normalize_with_trace ls out = Some (c', ids) -> derived c'
  | d_injectivity : forall c rs ls c' ids, derived c -> forallb lit_no_redex (literals c) = true -> find_injectivities c = Some rs -> In ls rs ->
      normalize_with_trace ls (context c) = Some (c', ids) -> derived c'
  | d_extensionality : forall c ls c' ids, derived c -> forallb lit_no_redex (literals c) = true -> find_extensionality K c = Some (Some ls) ->
      normalize_with_trace ls (context c) = Some (c', ids) -> derived c'
  | d_reduction : forall n c k i c' ids out, derived c -> boolean_reduction_at n K c k i = Some (Some (c', ids, out)) -> derived c'
  | d_waiting : forall act reverse assumption c i c', derived act -> derived c ->
      simplify_passive K inhabited act reverse assumption c i = Some (Replaced c') -> derived c'
  | d_active : forall ops index long kd c c', Forall op_fits ops -> insert_all be pdt_new ops = Some index ->
      (forall x, In x (unit_clauses ops) -> derived x) -> derived c -> negatives_first (literals c) -> (forall l, In l (literals c) -> fitting l) ->
      simplify_active K inhabited be mi index long kd c = Some (Result c') -> derived c'.

(** Every clause of the search is monomorphic and holds in every model of the clauses it started from. *)
Theorem search_sound : forall M, closed_types K -> parameters_used K -> type_kinds K -> respects M K -> aliases_agree M K alias ->
  (forall pc T qc T', vars T = [] -> mi pc T qc T' = true -> T' = T) ->
  (forall c, given c -> mono_typed M K c /\ valid M c) ->
  forall c, derived c -> mono_typed M K c /\ valid M c.
Proof.
  intros M CT UP TK R AA Mc Hg c H.
  assert (Tr : forall ls out c' ids, normalize_with_trace ls out = Some (c', ids) -> mono_typed M K (Clause ls out) /\ valid M (Clause ls out) -> mono_typed M K c' /\ valid M c').
  { intros ls out c' ids E [H1 H2]. destruct (trace_keeps M K CT R _ _ _ _ E H1) as [X Y]. split; auto. apply Y; auto. }
  induction H as [c H|n pos pi neg ni fl c _ [P1 P2] _ [N1 N2] E|n pa fw ta tl p c _ [P1 P2] _ [T1 T2] Cv E|n c rs ls out c' ids _ [C1 C2] E Hi En|n c rs ls out c' ids _ [C1 C2] E Hi En
    |c rs ls c' ids _ [C1 C2] Nr E Hi En|c ls c' ids _ [C1 C2] Nr E En|n c k i c' ids out _ [C1 C2] E|act rev asm c i c' _ [A1 A2] _ [C1 C2] E|ops index long kd c c' Fo Ins _ Hu _ [C1 C2] Nf Fc E]; auto.
  - destruct (mono_try_resolution M K ts CT R witnessed n pos pi neg ni fl c P1 N1 E). auto.
  - destruct (search_rewriting_sound M K ts CT R attribute alias n pa fw ta tl p c TK AA P1 T1 Cv E) as [X Y]. split; auto. apply Y; auto.
  - eapply Tr; [exact En|]. destruct (mono_resolution M K ts CT R n c rs ls out C1 E Hi). auto.
  - eapply Tr; [exact En|]. destruct (mono_factoring M K ts CT R n c rs ls out C1 E Hi). auto.
  - eapply Tr; [exact En|]. destruct (mono_injectivity M K CT UP c rs ls (conj C1 Nr) E Hi) as [[X _] Y]. auto.
  - eapply Tr; [exact En|]. destruct (mono_extensionality M K CT R c ls (conj C1 Nr) E) as [[X _] Y]. auto.
  - unfold boolean_reduction_at in E. destruct (reduced_literals n K c k i) as [[[ls d]|]|] eqn:Er; try discriminate.
    destruct (normalize_boolean_reduction ls d (length (context c))) as [t0|] eqn:En; [|discriminate]. cbn [option_map] in E. assert (t0 = (c', ids, out)) by congruence. subst t0. clear E.
    pose proof (mt_reduced M K CT _ _ _ _ _ _ Er C1) as X. destruct (reduced_literals_sound M _ _ _ _ _ _ _ Er R (mt_reducible M K CT R c C1) C2) as [Y _].
    unfold normalize_boolean_reduction in En. destruct (normalize_with_trace ls d) as [[e i1]|] eqn:E1; [|discriminate].
    destruct (normalize_with_var_ids_prefilled ls d (filter (fun v => Nat.ltb v (length (context c))) i1)) as [[d' i2]|] eqn:E2; [|discriminate].
    assert (d' = c') by congruence. subst d'. split; [eapply (proj1 (mt_prefilled M K _ _ _ _ _ E2 X))|].
    destruct (mt_suitable M K CT R _ X) as [S1 S2 S3].
    assert (Nd : NoDup (filter (fun v => Nat.ltb v (length (context c))) i1)).
    { apply NoDup_filter. exact (f_nodup _ _ _ (prefilled_faithful _ _ _ _ _ (NoDup_nil _) E1)). }
    pose proof (prefilled_faithful _ _ _ _ _ Nd E2) as F.
    assert (Wt : clause_wt M (Clause ls d)) by (intros r Hr x Hx; apply (pwt_wt _ _ S1); auto).
    destruct (faithful_preserves M _ _ _ F Wt (all_completable M d _ S2 (faithful_closed _ _ _ F) S3)) as [V _]. auto.
  - pose proof (simplify_passive_sound M K CT R inhabited act rev asm c i _ A1 C1 E) as (X & Y & _). auto.
  - pose proof (simplify_active_sound M K CT R be mi Mc inhabited ops index long kd c _ Fo Ins (fun x Hx => proj1 (Hu x Hx)) C1 Nf Fc E) as (X & _ & Y).
    split; auto. apply Y; auto. intros x Hx. apply (Hu x Hx).
Qed.

(** So the search finds a contradiction only among clauses that have no model. *)
Theorem found_contradictions_are_real : forall c, derived c -> literals c = [] -> closed_types K -> parameters_used K -> type_kinds K ->
  (forall pc T qc T', vars T = [] -> mi pc T qc T' = true -> T' = T) ->
  ~ exists M, respects M K /\ aliases_agree M K alias /\ forall x, given x -> mono_typed M K x /\ valid M x.
Proof.
  intros c H E CT UP TK Mc (M & R & AA & Hg). destruct (search_sound M CT UP TK R AA Mc Hg c H) as [X Y]. apply mt_in in X. destruct X as [G _].
  destruct (match_env M K CT R (context c) [] [] (fun _ => dsym M STrue) G) as (rho & V & _); try (intros [|i] ?; discriminate).
  destruct (Y rho V) as (l & Hl & _). rewrite E in Hl. exact Hl.
Qed.
End Derivation.
Print Assumptions search_sound.
Print Assumptions found_contradictions_are_real.

(** ** Concrete cases
    The constants of P_Monomorphic.v: [f] and [g] swap the two elements, [idA] is the instance of [id]. *)
Definition sr_attribute (m i : N) : option nat := if N.eqb m 0 && N.eqb i 2 then Some 1 else None.
Definition sr_alias (m i : N) (args : list term) : option symbol :=
  match args with [T] => if N.eqb m 0 && N.eqb i 2 && term_eqb T ei_A then Some (SGlobal 0 4) else None | _ => None end.
Lemma sr_kinds : type_kinds mn_K. Proof. intros m i. reflexivity. Qed.
Lemma sr_agree : aliases_agree mn_M mn_K sr_alias.
Proof.
  intros m i args s H. unfold sr_alias in H. destruct args as [|T [|]]; try discriminate. destruct (N.eqb_spec m 0), (N.eqb_spec i 2); try discriminate. subst.
  destruct (term_eqb T ei_A) eqn:E; try discriminate. apply term_eqb_eq in E. subst. injection H as <-. split; [reflexivity|].
  intros G bs T H. split; [|intros; reflexivity]. cbn [apply_args fold_left] in H.
  inversion H as [| | | | |? ? ? A B Hf EA|? ? k ? B Hf Ta U Ho| |]; subst; inversion Hf; subst.
  - destruct EA as [EA _]. discriminate EA.
  - vm_compute in Ho. injection Ho as <-. reflexivity.
Qed.
Lemma sr_typed c : mono mn_M mn_K c -> mono_typed mn_M mn_K c. Proof. exact (fun H => proj1 H). Qed.
Ltac sr_mono := apply sr_typed; mn_mono.

(** [f(x0) = g(x0)] and [f(c) != g(c) or id(c) = c] give [id(c) = c]. *)
Definition sr_neg := Clause [Lit false (mn_f mn_c) (mn_g mn_c); Lit true (mn_id mn_c) mn_c] [].
Example search_resolution_case : mono_typed mn_M mn_K mn_ext /\ mono_typed mn_M mn_K sr_neg /\ valid mn_M mn_ext /\ valid mn_M sr_neg /\
  try_resolution mn_K un_ts (fun _ _ => true) 30 mn_ext 0 sr_neg 0 false = Some (Some (Clause [Lit true (mn_id mn_c) mn_c] [])).
Proof.
  split; [sr_mono|]. split; [sr_mono|]. split; [apply monomorphic_extensionality_case|]. split; [|vm_compute; reflexivity].
  intros rho V. eexists. split; [right; left; reflexivity|]. vm_compute. reflexivity.
Qed.
(** [id(x0) = x0] rewrites [f(id(c)) = id(g(c))] to [idA(g(c)) = f(c)]: the other side gets its canonical form. *)
Definition sr_target := Clause [Lit true (mn_f (mn_id mn_c)) (mn_id (mn_g mn_c))] [].
Definition sr_rewritten := Clause [Lit true (TApp (TSym (SGlobal 0 4)) (mn_g mn_c)) (mn_f mn_c)] [].
Lemma sr_all_mono : mono_typed mn_M mn_K mn_all. Proof. exact (proj1 mn_all_mono). Qed.
Lemma sr_target_mono : mono_typed mn_M mn_K sr_target. Proof. sr_mono. Qed.
Lemma sr_target_valid : valid mn_M sr_target.
Proof. intros rho V. eexists. split; [left; reflexivity|]. vm_compute. reflexivity. Qed.
Example search_rewriting_case : type_kinds mn_K /\ aliases_agree mn_M mn_K sr_alias /\ mono_typed mn_M mn_K mn_all /\ mono_typed mn_M mn_K sr_target /\
  valid mn_M mn_all /\ valid mn_M sr_target /\ clause_has_any_variable sr_target = false /\
  rewrite_with mn_K un_ts sr_attribute sr_alias 30 mn_all true sr_target true [PArg] = Some (Some sr_rewritten).
Proof.
  split; [exact sr_kinds|]. split; [exact sr_agree|]. split; [exact sr_all_mono|]. split; [exact sr_target_mono|]. split; [exact mn_all_valid|].
  split; [exact sr_target_valid|]. split; vm_compute; reflexivity.
Qed.
(** [id(x0) = x0] simplifies [id(c) != c or g(c) = f(c)] and makes [c = id(c)] redundant. *)
Definition sr_wait := Clause [Lit false (mn_id mn_c) mn_c; Lit true (mn_g mn_c) (mn_f mn_c)] [].
Definition sr_short := Clause [Lit true (mn_g mn_c) (mn_f mn_c)] [].
Lemma sr_wait_mono : mono_typed mn_M mn_K sr_wait. Proof. sr_mono. Qed.
Example waiting_simplification_case : mono_typed mn_M mn_K mn_all /\ mono_typed mn_M mn_K sr_wait /\ valid mn_M mn_all /\
  simplify_passive mn_K (fun _ _ => true) mn_all false false sr_wait 0 = Some (Replaced sr_short) /\
  simplify_passive mn_K (fun _ _ => true) mn_all true false (Clause [Lit true mn_c (mn_id mn_c)] []) 0 = Some Implied.
Proof. split; [exact sr_all_mono|]. split; [exact sr_wait_mono|]. split; [exact mn_all_valid|]. split; vm_compute; reflexivity. Qed.
(** The same before activation, with an index of [id(x0) = x0] and [g(x0) = f(x0)]. *)
Definition sr_ops : list insertion := [(Lit true (mn_id (TVar 0)) (TVar 0), 1, [Some ei_A]); (Lit true (mn_g (TVar 0)) (mn_f (TVar 0)), 2, [Some ei_A])].
Definition sr_ops1 : list insertion := [(Lit true (mn_id (TVar 0)) (TVar 0), 1, [Some ei_A])].
Lemma sr_fits : Forall op_fits sr_ops.
Proof.
  repeat apply Forall_cons; [..|apply Forall_nil]; (split; [|split]); try (cbn; unfold small; repeat split; lia);
    intros r a c' ids E; vm_compute in E; inversion E; cbn; unfold small; repeat split; lia.
Qed.
Lemma sr_fits1 : Forall op_fits sr_ops1. Proof. pose proof sr_fits as H. inversion H. constructor; auto. Qed.
Lemma sr_wait_fits : forall l, In l (literals sr_wait) -> fitting l.
Proof. intros l [<-|[<-|[]]]; split; cbn; unfold small; repeat split; lia. Qed.
Lemma sr_wait_order : negatives_first (literals sr_wait).
Proof. cbn. split; [discriminate|]. split; auto. Qed.
Example active_simplification_case : exists index index1, insert_all false pdt_new sr_ops = Some index /\ insert_all false pdt_new sr_ops1 = Some index1 /\
  (forall x, In x (unit_clauses sr_ops) -> mono_typed mn_M mn_K x /\ valid mn_M x) /\
  simplify_active mn_K (fun _ _ => true) false exactly index [] (fun _ => false) sr_wait = Some Known /\
  simplify_active mn_K (fun _ _ => true) false exactly index1 [] (fun _ => false) sr_wait = Some (Result sr_short).
Proof.
  eexists. eexists. split; [vm_compute; reflexivity|]. split; [vm_compute; reflexivity|]. split; [|split; vm_compute; reflexivity].
  intros x [<-|[<-|[]]]; [exact (conj sr_all_mono mn_all_valid)|]. cbn [fst snd]. split; [sr_mono|]. intros rho V. eexists. split; [left; reflexivity|]. mn_holds V.
Qed.
(** From [id(x0) = x0], [f(id(c)) = id(g(c))] and [id(c) != c or g(c) = f(c)] two clauses are derived; with
    [f(id(c)) != f(c)] there is a contradiction. *)
Definition sr_given (c : clause) : Prop := c = mn_all \/ c = sr_target \/ c = sr_wait.
Definition sr_bad := Clause [Lit false (mn_f (mn_id mn_c)) (mn_f mn_c)] [].
Example search_case : (forall c, sr_given c -> mono_typed mn_M mn_K c /\ valid mn_M c) /\
  derived mn_K un_ts (fun _ _ => true) (fun _ _ => true) sr_attribute sr_alias false exactly sr_given sr_rewritten /\
  derived mn_K un_ts (fun _ _ => true) (fun _ _ => true) sr_attribute sr_alias false exactly sr_given sr_short /\
  derived mn_K un_ts (fun _ _ => true) (fun _ _ => true) sr_attribute sr_alias false exactly (fun c => c = sr_bad \/ sr_given c) (Clause [] []).
Proof.
  split; [|split; [|split]].
  - intros c [-> |[-> | ->]]; [exact (conj sr_all_mono mn_all_valid)|exact (conj sr_target_mono sr_target_valid)|split; [exact sr_wait_mono|]].
    intros rho V. eexists. split; [right; left; reflexivity|]. vm_compute. reflexivity.
  - eapply (d_rewriting _ _ _ _ _ _ _ _ _ 30 mn_all true sr_target true [PArg]); [apply d_given; left; auto|apply d_given; right; left; auto|reflexivity|vm_compute; reflexivity].
  - destruct active_simplification_case as (_ & index & _ & I & _ & _ & E).
    eapply (d_active _ _ _ _ _ _ _ _ _ sr_ops1 index [] (fun _ => false) sr_wait); [exact sr_fits1|exact I| |apply d_given; right; right; auto|exact sr_wait_order|exact sr_wait_fits|exact E].
    intros x [<-|[]]. apply d_given. left. reflexivity.
  - eapply (d_rewriting _ _ _ _ _ _ _ _ _ 30 mn_all true sr_bad true [PArg]); [apply d_given; right; left; auto|apply d_given; left; auto|reflexivity|vm_compute; reflexivity].
Qed.

(** ** Types without elements
    [P(x0) or q] and [not P(x0)] give [q] when the clause waits, whatever is known about the type of [x0]; only an empty
    result is checked (passive_set.rs:619-636).  If the type has no elements, this does not follow. *)
Definition se_A := TSym (SType 0 0).
Definition se_K : kctx :=
  {| k_type := fun _ _ => type0; k_global := fun _ i => if N.eqb i 0 then tarrow se_A tbool else tbool; k_scoped := fun _ => tbool;
     k_instance := fun _ _ _ => false; k_extends := fun _ _ => false; k_value_params := fun _ => false |}.
Definition se_I (size : nat) (s : symbol) : V :=
  match s with
  | SType _ _ => VBase 0 0 size
  | SGlobal _ i => if N.eqb i 0 then VFun (VBase 0 0 size) (repeat VFalse size) else VFalse
  | STypeclass _ _ => VSort 1
  | _ => VTrue
  end.
Definition se_M (size : nat) : Model := fin_model (fun k => if N.eqb k 0 then [VBool; VBase 0 0 size] else [VBase 0 0 size]) (se_I size).
Definition se_P (t : term) := TApp (TSym (SGlobal 0 0)) t.
Definition se_q := TSym (SGlobal 0 1).
Definition se_clause := Clause [Lit true (se_P (TVar 0)) ttrue; Lit true se_q ttrue] [Some se_A].
Definition se_unit := Clause [Lit false (se_P (TVar 0)) ttrue] [Some se_A].
Definition se_result := Clause [Lit true se_q ttrue] [].
Lemma se_respects n : (n = 0 \/ n = 1)%nat -> respects (se_M n) se_K.
Proof.
  intros [->| ->]; apply fin_respects; try (left; reflexivity); try (intros; exact Logic.I); try (intros m i rho; cbn [se_K k_global se_I]; destruct (N.eqb i 0); vm_compute; tauto); try (intros; vm_compute; tauto).
  all: intros x Hx; vm_compute in Hx; repeat (destruct Hx as [<-|Hx]; [exact Logic.I|]); contradiction.
Qed.
Theorem waiting_empty_types_refuted : exists K M act c c' inhabited, closed_types K /\ respects M K /\
  (forall T G, inhabited T G = true -> inhabited_at M G T) /\ valid M act /\ valid M c /\
  simplify_passive K inhabited act false false c 0 = Some (Replaced c') /\ ~ valid M c'.
Proof.
  exists se_K, (se_M 0), se_unit, se_clause, se_result, (fun _ _ => false).
  assert (Vac : forall ls, valid (se_M 0) (Clause ls [Some se_A])). { intros ls rho V. specialize (V 0 _ eq_refl). vm_compute in V. tauto. }
  split. { intros []; try (split; reflexivity). cbn [symbol_type se_K k_global]. destruct (N.eqb i 0); split; reflexivity. }
  split; [apply se_respects; auto|]. split; [discriminate|]. split; [apply Vac|]. split; [apply Vac|]. split; [vm_compute; reflexivity|].
  intros H. destruct (H (fun _ => VJunk)) as (l & [<-|[]] & E); [intros [|i] T Hi; discriminate|]. vm_compute in E. discriminate.
Qed.
Print Assumptions waiting_empty_types_refuted.

(** Before activation the type is checked, but then the clause is dropped (active_set.rs:1516-1547): it is neither
    known nor simplified.  Here the clause does not follow from the literals of the index, nor from anything else. *)
Definition se_ops : list insertion := [(Lit false (se_P (TVar 0)) ttrue, 1, [Some se_A])].
Theorem dropped_clauses_follow_refuted : exists K M ops index c, closed_types K /\ respects M K /\ Forall op_fits ops /\ insert_all false pdt_new ops = Some index /\
  (forall x, In x (unit_clauses ops) -> mono_typed M K x /\ valid M x) /\ mono_typed M K c /\
  simplify_active K (fun _ _ => false) false exactly index [] (fun _ => false) c = Some GivenUp /\ ~ valid M c.
Proof.
  exists se_K, (se_M 1), se_ops. eexists. exists se_clause.
  assert (EA : element_type (se_M 1) se_A). { split; [reflexivity|]. split; [exact Logic.I|]. exists (VElt 0 0 1 0). vm_compute. tauto. }
  assert (EB : element_type (se_M 1) tbool). { split; [reflexivity|]. split; [exact Logic.I|]. exists VTrue. vm_compute. tauto. }
  assert (Hx : forall i G, get_var_type G i = Some se_A -> has_type (se_M 1) se_K G [] (se_P (TVar i)) tbool).
  { intros i G E. unfold se_P. eapply ht_app; [apply (ht_sym (se_M 1) se_K _ _ (SGlobal 0 0)); reflexivity|exact EA|reflexivity|apply ht_var; auto]. }
  assert (Ht : forall G, has_type (se_M 1) se_K G [] ttrue tbool) by (intros G; apply (ht_sym (se_M 1) se_K _ _ STrue); reflexivity).
  assert (Hq : forall G, has_type (se_M 1) se_K G [] se_q tbool) by (intros G; apply (ht_sym (se_M 1) se_K _ _ (SGlobal 0 1)); reflexivity).
  assert (Gc : mono_context (se_M 1) [Some se_A]) by (intros [|[|i]] T HT; inversion HT; subst; auto).
  assert (Val : forall rho, valid_env (se_M 1) [Some se_A] rho -> rho 0 = VElt 0 0 1 0). { intros rho V. specialize (V 0 _ eq_refl). vm_compute in V. intuition. }
  split. { intros []; try (split; reflexivity). cbn [symbol_type se_K k_global]. destruct (N.eqb i 0); split; reflexivity. }
  split; [apply se_respects; auto|]. split.
  { repeat apply Forall_cons; [..|apply Forall_nil]; (split; [|split]); try (cbn; unfold small; repeat split; lia);
      intros r a c' ids E; vm_compute in E; inversion E; cbn; unfold small; repeat split; lia. }
  split; [vm_compute; reflexivity|]. split.
  { intros x [<-|[]]. split; [split; [exact Gc|constructor; [|constructor]; exists tbool; cbn [left right fst snd context]; auto]|].
    intros rho V. eexists. split; [left; reflexivity|]. unfold lit_holds, ev, se_P. cbn [positive left right eval fst]. rewrite (Val rho V). vm_compute. discriminate. }
  split; [split; [exact Gc|repeat (constructor; [exists tbool; cbn [left right context se_clause]; auto|]); constructor]|].
  split; [vm_compute; reflexivity|].
  intros H. destruct (H (fun _ => VElt 0 0 1 0)) as (l & Hl & E); [intros [|[|i]] T Hi; inversion Hi; subst; vm_compute; tauto|].
  destruct Hl as [<-|[<-|[]]]; vm_compute in E; discriminate.
Qed.
Print Assumptions dropped_clauses_follow_refuted.
