(** Property C57: equations with a match. *)
From Coq Require Import List Arith NArith Bool Lia.
Import ListNotations.
From Verif Require Import Term LocalContext Semantics TermProofs SemFacts Typing TypingProofs Monomorphic PolyTyped FiniteModel FiniteCheck Literal Clause ClauseSem TermNorm Clausifier ClausifierProofs ClausifierConv ClausifierMain ClausifierMatch MatchSpec.

(** ** two colours, and boxes that hold a colour *)
Definition color := TSym (SType 0 0).
Definition box := TSym (SType 0 1).
Definition red := TSym (SGlobal 0 0).
Definition blue := TSym (SGlobal 0 1).
Definition cmatch (R x a b : term) := TApp (TApp (TApp (TApp (TSym (SGlobal 0 3)) R) x) a) b.
Definition bmatch (R x f : term) := TApp (TApp (TApp (TSym (SGlobal 0 4)) R) x) f.
Definition mc_K : kctx :=
  {| k_type := fun _ _ => type0;
     k_global := fun _ i => match i with
       | 0 | 1 => color
       | 2 => tarrow color box
       | 3 => TBind KPi type0 (tarrow color (tarrow (TBound 1) (tarrow (TBound 2) (TBound 3))))
       | 4 => TBind KPi type0 (tarrow box (tarrow (tarrow color (TBound 2)) (TBound 2)))
       | 5 => tarrow box color | 6 | 7 => tarrow color color
       | _ => tbool end%N;
     k_scoped := fun _ => tbool;
     k_instance := fun _ _ _ => false; k_extends := fun _ _ => false; k_value_params := fun _ => false |}.
Definition mc_ME (s : symbol) : option (list symbol) :=
  match s with
  | SGlobal 0 3 => Some [SGlobal 0 0; SGlobal 0 1]
  | SGlobal 0 4 => Some [SGlobal 0 2]
  | _ => None
  end%N.
(** ** an interpretation *)
Definition vc (j : nat) := VElt 0 0 2 j.
Definition vcolor := VBase 0 0 2.
Definition vbox := VBase 0 1 2.
Definition mc_sorts (_ : N) : list V := [VBool; vcolor; vbox].
Notation lam := (vlam mc_sorts).
Definition vput (a : V) : V := match a with VElt _ _ _ i => VElt 0 1 2 i | _ => VJunk end.
Definition vget (p : V) : V := match p with VElt _ _ _ i => VElt 0 0 2 i | _ => VJunk end.
Definition varrow (A B : V) : V := VPi A (map (fun _ => B) (elems mc_sorts A)).
Definition mc_I (s : symbol) : V :=
  match s with
  | SType _ 0 => vcolor | SType _ _ => vbox
  | SGlobal _ 0 => vc 0 | SGlobal _ 1 => vc 1
  | SGlobal _ 2 => lam vcolor vput
  | SGlobal _ 3 => lam (VSort 0) (fun R => lam vcolor (fun x => lam R (fun a => lam R (fun b => if veqb x (vc 0) then a else b))))
  | SGlobal _ 4 => lam (VSort 0) (fun R => lam vbox (fun x => lam (varrow vcolor R) (fun f => vapp mc_sorts f (vget x))))
  | SGlobal _ 5 => lam vbox vget
  | SGlobal _ 6 => lam vcolor (fun _ => vc 0)
  | SGlobal _ 7 => lam vcolor (fun x => x)
  | SGlobal _ 8 => VFalse
  | _ => VTrue
  end%N.
Definition mc_M : Model := fin_model mc_sorts mc_I.

Lemma mc_ok_fun A tab a l : okapps mc_M (VFun A tab) (a :: l) -> In a (elems mc_sorts A) /\ okapps mc_M (vapp mc_sorts (VFun A tab) a) l.
Proof. intros [[H _] H2]. auto. Qed.
Lemma mc_ok_lam A f a l : okapps mc_M (lam A f) (a :: l) -> In a (elems mc_sorts A) /\ okapps mc_M (f a) l.
Proof. intros H. apply mc_ok_fun in H. destruct H as [H1 H2]. split; auto. fold (lam A f) in H2. rewrite vlam_app in H2; auto. Qed.
Lemma mc_app A f l a : In a (elems mc_sorts A) -> dapps mc_M (lam A f) (a :: l) = dapps mc_M (f a) l.
Proof. intros H. unfold dapps. cbn [fold_left]. f_equal. apply vlam_app; auto. Qed.
Lemma mc_colors a : In a (elems mc_sorts vcolor) -> a = vc 0 \/ a = vc 1.
Proof. intros H. vm_compute in H. intuition. Qed.
Lemma mc_boxes a : In a (elems mc_sorts vbox) -> a = VElt 0 1 2 0 \/ a = VElt 0 1 2 1.
Proof. intros H. vm_compute in H. intuition. Qed.

Lemma mc_computes : eliminators_compute mc_K mc_ME mc_M.
Proof.
  assert (NF : forall j l, okapps mc_M (vc j) l -> l = []) by (intros j [|a l] H; auto; destruct H as [[] _]).
  intros s ctors E As R d fs L F OK.
  assert (C : s = SGlobal 0 3 /\ ctors = [SGlobal 0 0; SGlobal 0 1] \/ s = SGlobal 0 4 /\ ctors = [SGlobal 0 2]).
  { destruct s as [| | | | | | | | | | |m i|]; try discriminate. destruct m; try discriminate.
    destruct i as [|[[p|p|]|[p|[p|p|]|]|]]; try discriminate; injection E as <-; auto. }
  destruct C as [[-> ->]|[-> ->]]; cbn in L; injection L as L; destruct As; try discriminate; cbn [app] in *.
  - destruct fs as [|x [|y [|]]]; try discriminate. clear F L E.
    change (okapps mc_M (lam (VSort 0) (fun R => lam vcolor (fun x => lam R (fun a => lam R (fun b => if veqb x (vc 0) then a else b))))) [R; d; x; y]) in OK.
    apply mc_ok_lam in OK. destruct OK as [HR OK]. apply mc_ok_lam in OK. destruct OK as [Hd OK].
    apply mc_ok_lam in OK. destruct OK as [Hx OK]. apply mc_ok_lam in OK. destruct OK as [Hy _].
    assert (EV : dapps mc_M (dsym mc_M (SGlobal 0 3)) [R; d; x; y] = if veqb d (vc 0) then x else y).
    { change (dsym mc_M (SGlobal 0 3)) with (lam (VSort 0) (fun R => lam vcolor (fun x => lam R (fun a => lam R (fun b => if veqb x (vc 0) then a else b))))).
      rewrite !mc_app; auto. }
    split.
    + apply mc_colors in Hd. destruct Hd as [->| ->]; [exists (SGlobal 0 0)|exists (SGlobal 0 1)]; exists []; repeat split; simpl; auto.
    + intros j ctor f ds H1 H2 H3 H4 H5. rewrite EV.
      destruct j as [|[|[|]]]; try discriminate; injection H1 as <-; injection H2 as <-; (destruct ds; [|discriminate]);
        cbn in H5; rewrite H5; split; try exact I; reflexivity.
  - destruct fs as [|f [|]]; try discriminate. clear F L E.
    change (okapps mc_M (lam (VSort 0) (fun R => lam vbox (fun x => lam (varrow vcolor R) (fun f => vapp mc_sorts f (vget x))))) [R; d; f]) in OK.
    apply mc_ok_lam in OK. destruct OK as [HR OK]. apply mc_ok_lam in OK. destruct OK as [Hd OK]. apply mc_ok_lam in OK. destruct OK as [Hf _].
    assert (EV : dapps mc_M (dsym mc_M (SGlobal 0 4)) [R; d; f] = vapp mc_sorts f (vget d)).
    { change (dsym mc_M (SGlobal 0 4)) with (lam (VSort 0) (fun R => lam vbox (fun x => lam (varrow vcolor R) (fun f => vapp mc_sorts f (vget x))))).
      rewrite !mc_app; auto. }
    assert (VP : forall a, In a (elems mc_sorts vcolor) -> dapps mc_M (dsym mc_M (SGlobal 0 2)) [a] = vput a).
    { intros a Ha. change (dsym mc_M (SGlobal 0 2)) with (lam vcolor vput). rewrite mc_app; auto. }
    split.
    + exists (SGlobal 0 2), [vget d]. assert (G : In (vget d) (elems mc_sorts vcolor)) by (apply mc_boxes in Hd; destruct Hd as [->| ->]; vm_compute; auto).
      split; [left; auto|]. split; [reflexivity|]. split; [cbn [okapps app]; split; [split; [exact G|reflexivity]|exact I]|].
      cbn [app]. rewrite VP by auto. apply mc_boxes in Hd. destruct Hd as [->| ->]; reflexivity.
    + intros j ctor f' ds H1 H2 H3 H4 H5. rewrite EV. destruct j as [|[|]]; try discriminate. injection H1 as <-. injection H2 as <-.
      destruct ds as [|a [|]]; try discriminate. cbn [app] in *. destruct H4 as [[Ha _] _]. rewrite VP in H5 by auto. rewrite H5.
      assert (G : vget (vput a) = a) by (apply mc_colors in Ha; destruct Ha as [->| ->]; reflexivity). rewrite G. split; [|reflexivity].
      split; [|exact I]. apply (pi_appok mc_M vcolor (fun _ => R)); [exact Hf|exact Ha].
Qed.

(** each eliminator and constructor has its type *)
Lemma mc_symbols : match_symbols_typed mc_K mc_ME mc_M.
Proof.
  assert (X : forall s, In s [SGlobal 0 0; SGlobal 0 1; SGlobal 0 2; SGlobal 0 3; SGlobal 0 4]%N -> forall rho, mem mc_M (dsym mc_M s) (ev mc_M rho (symbol_type mc_K s))).
  { assert (XC : forall x, mem mc_M x vcolor -> x = vc 0 \/ x = vc 1) by (intros x Hx; apply mc_colors; exact Hx).
    intros s Hs rho. destruct Hs as [<-|[<-|[<-|[<-|[<-|[]]]]]]; [vm_compute; tauto|vm_compute; tauto|vm_compute; tauto| |].
    - change (mem mc_M (dbind mc_M KLam (VSort 0) (fun R => lam vcolor (fun x => lam R (fun a => lam R (fun b => if veqb x (vc 0) then a else b)))))
        (dbind mc_M KPi (VSort 0) (fun R => dbind mc_M KPi vcolor (fun _ => dbind mc_M KPi R (fun _ => dbind mc_M KPi R (fun _ => R)))))).
      apply lam_pi. intros R _. apply (lam_pi mc_M). intros x _. apply (lam_pi mc_M). intros a Ha. apply (lam_pi mc_M). intros b Hb. destruct (veqb x (vc 0)); auto.
    - change (mem mc_M (dbind mc_M KLam (VSort 0) (fun R => lam vbox (fun x => lam (varrow vcolor R) (fun f => vapp mc_sorts f (vget x)))))
        (dbind mc_M KPi (VSort 0) (fun R => dbind mc_M KPi vbox (fun _ => dbind mc_M KPi (varrow vcolor R) (fun _ => R))))).
      apply lam_pi. intros R _. apply (lam_pi mc_M). intros x Hx. apply (lam_pi mc_M). intros f Hf.
      apply (pi_app mc_M vcolor (fun _ => R)); [exact Hf|]. apply mc_boxes in Hx. destruct Hx as [->| ->]; vm_compute; auto. }
  intros s ctors x E H. apply X.
  destruct s as [| | | | | | | | | | |m i|]; try discriminate. destruct m; try discriminate.
  destruct i as [|[[p|p|]|[p|[p|p|]|]|]]; try discriminate; injection E as <-; cbn in *; intuition (subst; auto 10).
Qed.
(** and the types of the eliminators are those of matches *)
Lemma mc_metadata : match_metadata mc_K mc_ME.
Proof.
  intros s ctors E.
  assert (C : s = SGlobal 0 3 /\ ctors = [SGlobal 0 0; SGlobal 0 1] \/ s = SGlobal 0 4 /\ ctors = [SGlobal 0 2]).
  { destruct s as [| | | | | | | | | | |m i|]; try discriminate. destruct m; try discriminate.
    destruct i as [|[[p|p|]|[p|[p|p|]|]|]]; try discriminate; injection E as <-; auto. }
  destruct C as [[-> ->]|[-> ->]]; split; auto; exists 0; (split; [reflexivity|]); (split; [repeat constructor|]); intros g As R LA PA PR; destruct As; try discriminate.
  - exists color, [[]; []]. repeat (split; [try reflexivity; try discriminate; repeat constructor|]).
    + cbn. rewrite !shift_up_lc; try (apply (ptype_lc _ _ PR)). reflexivity.
    + repeat constructor.
  - exists box, [[color]]. repeat (split; [try reflexivity; try discriminate; repeat constructor|]).
    + cbn. rewrite !shift_up_lc; try (apply (ptype_lc _ _ PR)). reflexivity.
    + repeat constructor.
Qed.

Lemma mc_inhabited : all_inhabited mc_K mc_M [].
Proof.
  intros rho. split; [intros k []|]. intros _.
  assert (Z : forall T n, ptm mc_K (kinds_env []) (S n) T = false).
  { induction T as [[i|i|s]|f IHf a IHa|k A IHA b IHb]; intros n; simpl; auto.
    - unfold kinds_env. destruct i; auto.
    - destruct s; auto.
    - rewrite IHf. auto.
    - destruct k; auto. }
  assert (G : forall T bs, ptm mc_K (kinds_env []) 0 T = true -> exists d, mem mc_M d (eval mc_M rho bs T)); [|intros T HT; apply G; exact HT].
  induction T as [[i|i|s]|f IHf a IHa|k A IHA b IHb]; intros bs HT; cbn [ptm] in HT; try discriminate.
  - destruct i; discriminate.
  - destruct s; try discriminate; [exists VTrue; vm_compute; auto|]. destruct i; [exists (vc 0)|exists (VElt 0 1 2 0)]; vm_compute; auto.
  - rewrite Z in HT. discriminate.
  - destruct k; try discriminate. apply andb_true_iff in HT. destruct HT as [_ HT]. apply andb_true_iff in HT. destruct HT as [H1 H2].
    destruct (IHb bs H2) as [e He]. exists (dbind mc_M KLam (eval mc_M rho bs A) (fun _ => e)). cbn [eval].
    apply lam_pi. intros x Hx. rewrite (eval_lc mc_M _ _ bs); auto. apply (ptype_lc _ _ H2).
Qed.

(** ** the code on two match equations *)
(** the content of a box by a match, then a match on it *)
Definition nested_t : term :=
  TBind KAll box (teq color (TApp (TSym (SGlobal 0 5)) (TBound 0))
    (cmatch color (bmatch color (TBound 0) (TBind KLam color (TBound 0))) red blue)).
(** a case with a condition that compares functions *)
Definition funcond_t : term :=
  TBind KAll color (teq tbool (TSym (SGlobal 0 8)) (cmatch tbool (TBound 0)
    (tite tbool (teq (tarrow color color) (TSym (SGlobal 0 6)) (TSym (SGlobal 0 7))) (TSym (SGlobal 0 9)) tfalse)
    tfalse)).

Lemma mc_sym g bs s T : value_symbol s = true -> symbol_type mc_K s = T -> PolyTyped.typed mc_K g bs (TSym s) T.
Proof. intros H <-. apply ty_sym. exact H. Qed.
Lemma mc_elim3 g bs R T : ptm mc_K g 0 R = true -> T = tarrow color (tarrow R (tarrow R R)) -> PolyTyped.typed mc_K g bs (TApp (TSym (SGlobal 0 3)) R) T.
Proof.
  intros P ->. replace (tarrow color (tarrow R (tarrow R R))) with (open_at 0 R (tarrow color (tarrow (TBound 1) (tarrow (TBound 2) (TBound 3))))).
  - apply (ty_inst _ _ _ _ type0); [apply mc_sym; reflexivity|reflexivity|exact P].
  - cbn. rewrite !shift_up_lc; try (apply (ptype_lc _ _ P)). reflexivity.
Qed.
Lemma mc_elim4 g bs R T : ptm mc_K g 0 R = true -> T = tarrow box (tarrow (tarrow color R) R) -> PolyTyped.typed mc_K g bs (TApp (TSym (SGlobal 0 4)) R) T.
Proof.
  intros P ->. replace (tarrow box (tarrow (tarrow color R) R)) with (open_at 0 R (tarrow box (tarrow (tarrow color (TBound 2)) (TBound 2)))).
  - apply (ty_inst _ _ _ _ type0); [apply mc_sym; reflexivity|reflexivity|exact P].
  - cbn. rewrite !shift_up_lc; try (apply (ptype_lc _ _ P)). reflexivity.
Qed.
Ltac mc_typed := first [apply ty_quant; [auto|reflexivity|mc_typed] | apply ty_lam; [reflexivity|reflexivity|mc_typed] |
    eapply mc_sym; reflexivity | eapply ty_bound; reflexivity | eapply ty_eq; reflexivity | eapply ty_ite; reflexivity |
    eapply mc_elim3; reflexivity | eapply mc_elim4; reflexivity |
    eapply ty_app; [mc_typed|reflexivity|reflexivity|mc_typed] ].

(** ** the property *)
(** Let the metadata of match eliminators be right, and let [M] give eliminators and constructors values of their types,
    such that matches compute, all types have elements and the well-typed [t] has a truth value.  If in [t] only atoms are
    applied, no match is on the value of a match and no condition compares functions or has a match, then [t] holds in [M] for all
    values of the type variables if and only if all clauses made of it do. *)
Theorem clausifying_matches :
  forall K ME kinds n t cls, Forall (fun k => is_type_param_kind k = true) kinds -> match_metadata K ME ->
  PolyTyped.typed K (kinds_env kinds) [] t tbool -> tidy K ME t = true -> lower_to_clauses K ME n kinds t = Some cls ->
  forall M, all_inhabited K M kinds -> match_symbols_typed K ME M -> eliminators_compute K ME M ->
  (forall rho, valid_env M (map Some kinds) rho -> wt M rho t /\ mem M (ev M rho t) (dsym M SBool)) ->
  ((forall rho, valid_env M (map Some kinds) rho -> ev M rho t = dsym M STrue) <-> Forall (valid M) cls) /\
  Forall (clause_wt M) cls.
Proof.
  intros K ME kinds n t cls KK MD HT Y E M AI SY EC WT. unfold lower_to_clauses in E.
  destruct (open_foralls (map Some kinds) t) as [u c] eqn:EO.
  assert (P : obind (disjunctive K ME n c u true) (fun '(l, c) => one_clause l c (length kinds)) = Some cls \/
    ((exists l, split_symbol_application u SEq 3 = Some l) /\ shallow_clausify K ME n kinds t = Some cls)).
  { destruct (split_symbol_application u SEq 3) as [sl|]; auto. destruct sl as [|U [|a [|b [|]]]]; auto.
    destruct (is_match K ME a || is_match K ME b); auto. right. eauto. }
  destruct P as [P|[P1 P2]].
  - unfold obind in P. destruct (disjunctive K ME n c u true) as [[ls c']|] eqn:ED; [|discriminate].
    exact (plain_lowering K ME kinds KK n t u c ls c' cls EO ED P HT M AI WT).
  - exact (match_lowering K ME M kinds KK AI MD SY EC n t u c cls EO P1 P2 HT Y WT).
Qed.
Print Assumptions clausifying_matches.

(** Case: [forall (b : box) (x : color), match b { put(c) { match c { red { x } blue { f(c) } } } } = g(b)], with a match in the value of a
    case; it is turned into two clauses with the equations of the patterns as conditions. *)
Definition case_t : term :=
  TBind KAll box (TBind KAll color (teq color
    (bmatch color (TBound 1) (TBind KLam color (cmatch color (TBound 0) (TBound 1) (TApp (TSym (SGlobal 0 6)) (TBound 0)))))
    (TApp (TSym (SGlobal 0 5)) (TBound 1)))).
Example clausifying_matches_case : tidy mc_K mc_ME case_t = true /\ PolyTyped.typed mc_K (kinds_env []) [] case_t tbool /\
  lower_to_clauses mc_K mc_ME 20 [] case_t = Some
    [Clause [Lit false (TApp (TSym (SGlobal 0 2)) (TVar 0)) (TVar 1); Lit false red (TVar 0); Lit true (TApp (TSym (SGlobal 0 5)) (TVar 1)) (TVar 2)]
       [Some color; Some box; Some color];
     Clause [Lit false (TApp (TSym (SGlobal 0 2)) (TVar 0)) (TVar 1); Lit false blue (TVar 0);
       Lit true (TApp (TSym (SGlobal 0 6)) (TVar 0)) (TApp (TSym (SGlobal 0 5)) (TVar 1))] [Some color; Some box]] /\
  (forall rho, wt mc_M rho case_t /\ mem mc_M (ev mc_M rho case_t) (dsym mc_M SBool)).
Proof.
  split; [reflexivity|]. split; [unfold case_t, cmatch, bmatch, teq; mc_typed|]. split; [vm_compute; reflexivity|].
  intros rho. assert (X : forall i, In i (vars case_t) -> rho i = nobs mc_M i) by (intros i []).
  split; [apply (wtb_known mc_sorts mc_I rho _ case_t X); vm_compute; reflexivity|].
  unfold mc_M. rewrite (ev_known mc_sorts mc_I rho _ case_t X). vm_compute. auto.
Qed.

(** Clausifying keeps models in general: this is false. *)
Definition keeps_models (K : kctx) (ME : symbol -> option (list symbol)) (t : term) : Prop :=
  forall kinds n cls, Forall (fun k => is_type_param_kind k = true) kinds ->
  PolyTyped.typed K (kinds_env kinds) [] t tbool -> lower_to_clauses K ME n kinds t = Some cls ->
  match_metadata K ME -> forall M, all_inhabited K M kinds -> match_symbols_typed K ME M -> eliminators_compute K ME M ->
  (forall rho, valid_env M (map Some kinds) rho -> wt M rho t /\ mem M (ev M rho t) (dsym M SBool)) ->
  (forall rho, valid_env M (map Some kinds) rho -> ev M rho t = dsym M STrue) -> Forall (valid M) cls.

Lemma mc_refutes t cls cl rho : vars t = [] -> PolyTyped.typed mc_K (kinds_env []) [] t tbool ->
  wtb mc_sorts mc_I (nobs mc_M) (nobs mc_M) t = true -> eval mc_M (nobs mc_M) (nobs mc_M) t = VTrue ->
  lower_to_clauses mc_K mc_ME 20 [] t = Some cls -> In cl cls ->
  valid_env mc_M (context cl) rho -> (forall l, In l (literals cl) -> ~ lit_holds mc_M rho l) -> ~ keeps_models mc_K mc_ME t.
Proof.
  intros Vt T W E L I VE N H.
  assert (X : forall rho', (forall i, In i (vars t) -> rho' i = nobs mc_M i)) by (intros rho' i; rewrite Vt; intros []).
  assert (A : Forall (valid mc_M) cls).
  { apply (H [] 20 cls (Forall_nil _) T L mc_metadata mc_M mc_inhabited mc_symbols mc_computes).
    - intros rho' _. split; [apply (wtb_known mc_sorts mc_I rho' _ t (X rho') W)|].
      unfold mc_M. rewrite (ev_known mc_sorts mc_I rho' _ t (X rho')). unfold ev. fold mc_M. rewrite E. vm_compute. auto.
    - intros rho' _. unfold mc_M. rewrite (ev_known mc_sorts mc_I rho' _ t (X rho')). exact E. }
  rewrite Forall_forall in A. destruct (A cl I rho VE) as (l & Hl & HH). exact (N l Hl HH).
Qed.
(** A match on the value of a match: the conditions of the inner cases are negated although they speak about all
    fields, and the outer equation is claimed for any field. *)
Theorem clausifying_nested_matches_refuted : exists K ME t, ~ keeps_models K ME t.
Proof.
  exists mc_K, mc_ME, nested_t.
  eapply (mc_refutes _ _ (Clause [Lit false red (TVar 0); Lit true (TApp (TSym (SGlobal 0 5)) (TVar 1)) red] [Some color; Some box])
     (fun i => match i with 0 => vc 0 | _ => VElt 0 1 2 1 end)); try (vm_compute; reflexivity).
  - unfold nested_t, cmatch, bmatch, teq. mc_typed.
  - vm_compute. auto.
  - intros i T E. destruct i as [|[|i]]; [| |destruct i; discriminate]; injection E as <-; vm_compute; auto.
  - intros l [<-|[<-|[]]]; vm_compute; congruence.
Qed.
Print Assumptions clausifying_nested_matches_refuted.
(** A condition that compares functions becomes a literal about a new variable and is then negated. *)
Theorem clausifying_function_conditions_refuted : exists K ME t, ~ keeps_models K ME t.
Proof.
  exists mc_K, mc_ME, funcond_t.
  eapply (mc_refutes _ _ (Clause [Lit false (TSym (SGlobal 0 9)) ttrue;
      Lit false (TApp (TSym (SGlobal 0 7)) (TVar 0)) (TApp (TSym (SGlobal 0 6)) (TVar 0));
      Lit false red (TVar 1); Lit true (TSym (SGlobal 0 8)) ttrue] [Some color; Some color])
     (fun i => vc 0)); try (vm_compute; reflexivity).
  - unfold funcond_t, cmatch, bmatch, teq, tite. mc_typed.
  - vm_compute. auto.
  - intros i T E. destruct i as [|[|i]]; [| |destruct i; discriminate]; injection E as <-; vm_compute; auto.
  - intros l [<-|[<-|[<-|[<-|[]]]]]; vm_compute; congruence.
Qed.
Print Assumptions clausifying_function_conditions_refuted.
