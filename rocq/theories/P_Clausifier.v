(** Property C56: clausifying a term keeps its meaning. *)
From Coq Require Import List Arith NArith Bool Lia.
Import ListNotations.
From Verif Require Import Term LocalContext Semantics TermProofs SemFacts Typing TypingProofs Monomorphic PolyTyped FiniteModel Literal Clause ClauseSem ClauseProofs RenumberProofs ClauseWf P_Clause TermNorm Clausifier ClausifierProofs ClausifierConv ClausifierExt ClausifierLits ClausifierMain FiniteCheck.

(** ** equations with a match *)
Definition eliminates (ME : symbol -> option (list symbol)) (t : term) : bool :=
  match head_atom t with Sym s => match ME s with Some _ => true | None => false end | _ => false end.
(** after its leading quantifiers the term is an equation, one side of which is a match *)
Fixpoint match_equation (ME : symbol -> option (list symbol)) (t : term) : bool :=
  match t with
  | TBind KAll _ b => match_equation ME b
  | TApp (TApp (TApp (TSym SEq) _) a) b => eliminates ME a || eliminates ME b
  | _ => false
  end.

Lemma eliminates_open ME v t : forall d, eliminates ME (open_at d (TVar v) t) = eliminates ME t.
Proof.
  intros d. unfold eliminates. replace (match head_atom (open_at d (TVar v) t) with Sym s => match ME s with Some _ => true | None => false end | _ => false end)
    with (match head_atom t with Sym s => match ME s with Some _ => true | None => false end | _ => false end); auto.
  revert d. induction t as [[i|i|s]|f IHf a IHa|k A IHA b IHb]; intros d; simpl; auto.
  destruct (Nat.ltb i d); auto. destruct (Nat.eqb i d); auto.
Qed.
Lemma match_equation_open ME v t : forall d, match_equation ME (open_at d (TVar v) t) = match_equation ME t.
Proof.
  induction t as [[i|i|s]|f IHf a IHa|k A IHA b IHb]; intros d; simpl; auto.
  - destruct (Nat.ltb i d); auto. destruct (Nat.eqb i d); auto.
  - destruct f as [x|f2 a2|k A b]; simpl; auto. { destruct x as [i|i|s]; simpl; auto. destruct (Nat.ltb i d); auto. destruct (Nat.eqb i d); auto. }
    destruct f2 as [x|f3 a3|k A b]; simpl; auto. { destruct x as [i|i|s]; simpl; auto. destruct (Nat.ltb i d); auto. destruct (Nat.eqb i d); auto. }
    destruct f3 as [[i|i|s]|f4 a4|k A b]; simpl; auto. { destruct (Nat.ltb i d); auto. destruct (Nat.eqb i d); auto. }
    destruct s; auto. rewrite !eliminates_open. auto.
  - destruct k; auto.
Qed.
Lemma match_equation_foralls ME n : forall c t u c', open_foralls_fuel n c t = (u, c') -> match_equation ME u = match_equation ME t.
Proof.
  induction n as [|n IH]; intros c t u c' E; simpl in E; [injection E as <- <-; auto|].
  destruct t as [a|f a|k A b]; try (injection E as <- <-; auto; fail). destruct k; try (injection E as <- <-; auto; fail).
  apply IH in E. rewrite E, open_body_eq, match_equation_open. reflexivity.
Qed.
Lemma is_match_eliminates K ME t : is_match K ME t = true -> eliminates ME t = true.
Proof.
  unfold is_match, split_match, eliminates, obind. destruct (is_app t); [|discriminate]. rewrite <- head_spine. destruct (head_atom t); try discriminate.
  destruct (ME s); auto.
Qed.

(** Let [t] be a Boolean term over type variables of the given kinds, and [M] an interpretation in which
    it has a truth value and all types have elements.  Then [t] holds in [M] for all values of the type
    variables if and only if every clause that [lower_normalized_term_to_clauses] makes of it does.  Terms that are
    equations with a match are another property. *)
Theorem clausifying_keeps_models :
  forall K ME kinds n t cls, Forall (fun k => is_type_param_kind k = true) kinds ->
  PolyTyped.typed K (kinds_env kinds) [] t tbool -> match_equation ME t = false ->
  lower_to_clauses K ME n kinds t = Some cls ->
  forall M, all_inhabited K M kinds ->
  (forall rho, valid_env M (map Some kinds) rho -> wt M rho t /\ mem M (ev M rho t) (dsym M SBool)) ->
  ((forall rho, valid_env M (map Some kinds) rho -> ev M rho t = dsym M STrue) <-> Forall (valid M) cls) /\
  Forall (clause_wt M) cls.
Proof.
  intros K ME kinds n t cls KK HT NM E M AI WT. unfold lower_to_clauses in E.
  destruct (open_foralls (map Some kinds) t) as [u c] eqn:EO.
  assert (P : obind (disjunctive K ME n c u true) (fun '(l, c) => one_clause l c (length kinds)) = Some cls).
  { destruct (split_symbol_application u SEq 3) as [sl|] eqn:ES; auto.
    destruct (open_foralls_ok K _ _ _ _ _ _ EO (kinds_gctx kinds) HT) as (g1 & ST1 & Tu & _).
    destruct (split_typed K _ _ _ _ _ _ _ Tu ES eq_refl) as [Eu L]. destruct sl as [|U [|a [|b [|]]]]; try discriminate.
    rewrite <- (match_equation_foralls ME _ _ _ _ _ EO), Eu in NM. cbn in NM.
    destruct (is_match K ME a || is_match K ME b) eqn:EM; auto. exfalso.
    apply orb_true_iff in EM. apply orb_false_iff in NM. destruct NM. destruct EM as [X|X]; apply is_match_eliminates in X; congruence. }
  unfold obind in P. destruct (disjunctive K ME n c u true) as [[ls c']|] eqn:ED; [|discriminate].
  exact (plain_lowering K ME kinds KK n t u c ls c' cls EO ED P HT M AI WT).
Qed.
Print Assumptions clausifying_keeps_models.

(** Case, over a type variable: [forall (f h : T -> T) (x : T), f != (y -> h(f(y))) or (z -> f(f(z))) = (w -> f(h(f(w)))) or not (x = x and b)]. *)
Definition ca_T := TVar 0.
Definition ca_F := tarrow ca_T ca_T.
Definition ca_b := TSym (SGlobal 0 0).
Definition ca_K : kctx :=
  {| k_type := fun _ _ => type0; k_global := fun _ _ => tbool; k_scoped := fun _ => tbool;
     k_instance := fun _ _ _ => false; k_extends := fun _ _ => false; k_value_params := fun _ => false |}.
Definition ca_t : term :=
  TBind KAll ca_F (TBind KAll ca_F (TBind KAll ca_T
    (tor (tor (tnot (teq ca_F (TBound 2) (TBind KLam ca_T (TApp (TBound 2) (TApp (TBound 3) (TBound 0))))))
              (teq ca_F (TBind KLam ca_T (TApp (TBound 3) (TApp (TBound 3) (TBound 0))))
                        (TBind KLam ca_T (TApp (TBound 3) (TApp (TBound 2) (TApp (TBound 3) (TBound 0)))))))
         (tnot (tand (teq ca_T (TBound 0) (TBound 0)) ca_b))))).
Example clausifying_case :
  PolyTyped.typed ca_K (kinds_env [type0]) [] ca_t tbool /\ match_equation (fun _ => None) ca_t = false /\
  lower_to_clauses ca_K (fun _ => None) 20 [type0] ca_t = Some
    [Clause [Lit false (TBind KLam ca_T (TApp (TVar 1) (TApp (TVar 2) (TBound 0)))) (TVar 2);
             Lit false ca_b ttrue; Lit false (TVar 3) (TVar 3);
             Lit true (TApp (TVar 2) (TApp (TVar 2) (TVar 4))) (TApp (TVar 2) (TApp (TVar 1) (TApp (TVar 2) (TVar 4))))]
            [Some type0; Some ca_F; Some ca_F; Some ca_T; Some ca_T]].
Proof.
  split; [|split; vm_compute; reflexivity].
  assert (Q : forall g bs s, value_symbol s = true -> forall T, symbol_type ca_K s = T -> PolyTyped.typed ca_K g bs (TSym s) T)
    by (intros g bs s V T <-; apply ty_sym; exact V).
  unfold ca_t, tor, tand, tnot, teq.
  let rec tt := (first [apply ty_quant; [auto|reflexivity|tt] | apply ty_lam; [reflexivity|reflexivity|tt] |
    eapply Q; reflexivity | eapply ty_bound; reflexivity | eapply ty_eq; reflexivity |
    eapply ty_app; [tt|reflexivity|reflexivity|tt] ]) in tt.
Qed.
Definition ca_I (s : symbol) : V :=
  match s with SType _ _ => VBase 0 0 2 | _ => VTrue end.
Definition ca_M : Model := fin_model (fun _ => [VBase 0 0 2]) ca_I.
Example clausifying_hypotheses_case :
  all_inhabited ca_K ca_M [type0] /\
  (forall rho, valid_env ca_M (map Some [type0]) rho -> wt ca_M rho ca_t /\ mem ca_M (ev ca_M rho ca_t) (dsym ca_M SBool)).
Proof.
  assert (R : forall rho, valid_env ca_M (map Some [type0]) rho -> rho 0 = VBase 0 0 2).
  { intros rho H. specialize (H 0 type0 eq_refl). vm_compute in H. destruct H as [H|[]]. auto. }
  split.
  - intros rho. split.
    + intros k [<-|[]]. exists (VBase 0 0 2). vm_compute. auto.
    + intros H. apply R in H.
      assert (Z : forall T n, ptm ca_K (kinds_env [type0]) (S n) T = false).
      { induction T as [[i|i|s]|f IHf a IHa|k A IHA b IHb]; intros n; simpl; auto.
        - destruct (kinds_env [type0] i); auto. apply andb_false_r.
        - destruct s; auto.
        - rewrite IHf. auto.
        - destruct k; auto. }
      assert (G : forall T bs, ptm ca_K (kinds_env [type0]) 0 T = true -> exists d, mem ca_M d (eval ca_M rho bs T)); [|intros T HT; apply G; exact HT].
      induction T as [[i|i|s]|f IHf a IHa|k A IHA b IHb]; intros bs HT; cbn [ptm] in HT; try discriminate.
      * destruct i as [|i]; [|destruct i; discriminate]. exists (VElt 0 0 2 0). cbn. rewrite H. vm_compute. auto.
      * destruct s; try discriminate; [exists VTrue|exists (VElt 0 0 2 0)]; vm_compute; auto.
      * rewrite Z in HT. discriminate.
      * destruct k; try discriminate. apply andb_true_iff in HT. destruct HT as [_ HT]. apply andb_true_iff in HT. destruct HT as [H1 H2].
        destruct (IHb bs H2) as [e He]. exists (dbind ca_M KLam (eval ca_M rho bs A) (fun _ => e)). cbn [eval].
        apply lam_pi. intros x Hx. rewrite (eval_lc ca_M _ _ bs); auto. apply (ptype_lc _ _ H2).
  - intros rho H. apply R in H. 
    assert (X : forall i, In i (vars ca_t) -> rho i = (fun _ => VBase 0 0 2) i).
    { intros i Hi. assert (L : Forall (fun i => i = 0) (vars ca_t)) by (repeat constructor).
      rewrite Forall_forall in L. rewrite (L _ Hi). exact H. }
    split; [apply (wtb_known _ _ _ (fun _ => VBase 0 0 2)); auto; vm_compute; reflexivity|].
    unfold ca_M. change (D ca_M) with V in *. rewrite (ev_known (fun _ => [VBase 0 0 2]) ca_I rho (fun _ => VBase 0 0 2) ca_t X). vm_compute. auto.
Qed.
