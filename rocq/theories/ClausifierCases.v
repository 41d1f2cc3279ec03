(** The parts of a match, and what its value is. *)
From Coq Require Import List Arith NArith Bool Lia.
Import ListNotations.
From Verif Require Import Term LocalContext Semantics TermProofs SemFacts Typing TypingProofs Monomorphic PolyTyped Literal Clause ClauseSem TermNorm Clausifier ClausifierProofs ClausifierConv ClausifierExt ClausifierLits MatchSpec ClausifierTidy.

Lemma wt_apply M rho l : forall f, wt M rho (apply f l) -> wt M rho f /\ Forall (wt M rho) l /\ okapps M (ev M rho f) (map (ev M rho) l).
Proof.
  induction l as [|a l IH]; intros f W; [cbn; auto|]. cbn in W. apply IH in W. destruct W as ((W1 & W2 & W3) & W4 & W5). split; auto. split; [auto|]. split; auto.
Qed.
Lemma okapps_app M l r : forall f, okapps M f (l ++ r) <-> okapps M f l /\ okapps M (dapps M f l) r.
Proof. induction l as [|a l IH]; intros f; cbn; [tauto|]. rewrite IH. unfold dapps. tauto. Qed.
Lemma dapps_app M f l r : dapps M f (l ++ r) = dapps M (dapps M f l) r.
Proof. apply fold_left_app. Qed.

Section Cases.
Context (K : kctx) (ME : symbol -> option (list symbol)).
Notation typed := (PolyTyped.typed K).
Notation ptype g := (ptm K g 0).
Notation tidy := (tidy K ME).

Section Values.
Context (M : Model) (rho : nat -> D M).
Notation inside := (fun d A => mem M d (ev M rho A)).
Lemma okapps_mem g U : forall As f ds, ptype g (arrows As U) = true -> mem M f (ev M rho (arrows As U)) -> length ds = length As -> okapps M f ds -> Forall2 inside ds As.
Proof.
  induction As as [|A As IH]; intros f [|d ds] P H L OK; try discriminate; constructor; simpl in P; apply andb_true_iff in P; destruct P as [P1 P2];
    cbn [arrows] in H; rewrite ev_arrow in H by (apply (@ptype_lc K _ _ P2 0)); destruct OK as [O1 O2]; pose proof (pi_dom M _ _ _ _ H O1) as Hd; auto.
  eapply IH; [exact P2|apply (pi_app M _ _ _ _ H Hd)|auto|exact O2].
Qed.
Lemma mem_okapps g U : forall As f ds, ptype g (arrows As U) = true -> mem M f (ev M rho (arrows As U)) -> Forall2 inside ds As ->
  okapps M f ds /\ mem M (dapps M f ds) (ev M rho U).
Proof.
  induction As as [|A As IH]; intros f ds P H F; inversion F; subst; [split; [exact I|exact H]|]. simpl in P. apply andb_true_iff in P. destruct P as [P1 P2].
  cbn [arrows] in H. rewrite ev_arrow in H by (apply (@ptype_lc K _ _ P2 0)).
  match goal with [Hx : mem M x _, Hl : Forall2 _ l As |- _] => destruct (IH (dapp M f x) l P2 (pi_app M _ _ _ _ H Hx) Hl) as [X Y] end. split; [split; [eapply pi_appok; eauto|exact X]|exact Y].
Qed.
Lemma kind_open d A J : is_type_param_kind J = true -> open_at d A J = J.
Proof. destruct J as [[?|?|[]]|?|?]; try discriminate; reflexivity. Qed.
Lemma inputs_open T : forall k d A, k <= count_type_params T -> firstn k (pi_inputs (open_at d A T)) = firstn k (pi_inputs T).
Proof.
  induction T as [a|f _ x _|kk J IHJ B IHB]; intros k d A H; simpl in H; try (replace k with 0 by lia; reflexivity). destruct kk; simpl in H; try (replace k with 0 by lia; reflexivity).
  destruct k; [reflexivity|]. destruct (is_type_param_kind J) eqn:E; [|lia]. cbn [open_at pi_inputs firstn]. rewrite kind_open by auto. f_equal. apply IHB. lia.
Qed.
Lemma okapps_instance l : forall f F, mem M f (ev M rho F) -> length l <= count_type_params F -> okapps M f (map (ev M rho) l) ->
  mem M (dapps M f (map (ev M rho) l)) (ev M rho (instance F l)) /\ Forall2 (fun A J => mem M (ev M rho A) (ev M rho J)) l (firstn (length l) (pi_inputs F)).
Proof.
  induction l as [|A l IH]; intros f F H L OK; [destruct F; split; auto; constructor|]. destruct F as [| |[] J B]; simpl in L; try lia.
  destruct (is_type_param_kind J) eqn:E; simpl in L; [|lia]. cbn [map okapps] in OK. destruct OK as [O1 O2]. unfold ev in H. cbn [eval] in H. fold (ev M rho A) in O1.
  pose proof (pi_dom M _ _ _ _ H O1) as Hd. pose proof (pi_app M _ _ _ _ H Hd) as Hp. cbv beta in Hp. unfold ev in Hp at 2. rewrite <- eval_open in Hp.
  destruct (IH _ (open_at 0 A B) Hp) as [X Y]; [apply count_open; lia|exact O2|]. split; [exact X|]. cbn [length pi_inputs firstn]. constructor; auto.
  rewrite inputs_open in Y by lia. exact Y.
Qed.
Lemma instance_okapps l : forall f F, mem M f (ev M rho F) -> length l <= count_type_params F ->
  Forall2 (fun A J => mem M (ev M rho A) (ev M rho J)) l (firstn (length l) (pi_inputs F)) ->
  okapps M f (map (ev M rho) l) /\ mem M (dapps M f (map (ev M rho) l)) (ev M rho (instance F l)).
Proof.
  induction l as [|A l IH]; intros f F H L Y; [destruct F; split; auto; exact I|]. destruct F as [| |[] J B]; simpl in L; try lia.
  destruct (is_type_param_kind J) eqn:E; simpl in L; [|lia]. cbn [length pi_inputs firstn] in Y. inversion Y; subst. unfold ev in H. cbn [eval] in H.
  match goal with [X : mem M (ev M rho A) _ |- _] => rename X into Hd end.
  pose proof (pi_app M _ _ _ _ H Hd) as Hp. cbv beta in Hp. unfold ev in Hp at 2. rewrite <- eval_open in Hp.
  destruct (IH _ (open_at 0 A B) Hp) as [X Z]; [apply count_open; lia|rewrite inputs_open by lia; auto|].
  split; [|exact Z]. cbn [map okapps]. split; [eapply pi_appok; eauto|exact X].
Qed.
Lemma wt_apply_intro l : forall f, wt M rho f -> Forall (wt M rho) l -> okapps M (ev M rho f) (map (ev M rho) l) -> wt M rho (apply f l).
Proof.
  induction l as [|a l IH]; intros f W F OK; auto. inversion F; subst. destruct OK as [O1 O2]. cbn. apply IH; auto. split; auto.
Qed.
End Values.

Context (MD : match_metadata K ME).

(** what [split_match] returns for a typed term *)
Record parts (g : tenv) (t U : term) (targs : list term) (scrut : term) (cs : list (symbol * term)) (s : symbol) (ctors : list symbol)
  (cases As : list term) (Da : term) (fss : list (list term)) : Prop := {
  p_me : ME s = Some ctors;
  p_t : t = apply (TSym s) (As ++ U :: scrut :: cases);
  p_targs : targs = As ++ [U];
  p_count : count_type_params (symbol_type K s) = S (length As);
  p_cs : cs = combine ctors cases;
  p_As : Forall (fun A => ptype g A = true) As;
  p_Da : ptype g Da = true;
  p_in : pi_inputs Da = [];
  p_nb : Da <> tbool;
  p_fss : Forall (Forall (fun F => ptype g F = true)) fss;
  p_inst : instance (symbol_type K s) (As ++ [U]) = arrows (Da :: map (fun Fs => arrows Fs U) fss) U;
  p_scrut : typed g [] scrut Da;
  p_ctors : Forall2 (fun ctor Fs => value_symbol ctor = true /\ ME ctor = None /\ length As <= count_type_params (symbol_type K ctor) /\
    firstn (length As) (pi_inputs (symbol_type K ctor)) = firstn (length As) (pi_inputs (symbol_type K s)) /\
    length Fs = fields K (length As) ctor /\ instance (symbol_type K ctor) As = arrows Fs Da) ctors fss;
  p_cases : Forall2 (fun case Fs => typed g [] case (arrows Fs U)) cases fss }.

Lemma match_parts g t U targs scrut cs : typed g [] t U -> ptype g U = true -> split_match K ME t = Some (targs, scrut, cs) ->
  exists s ctors cases As Da fss, parts g t U targs scrut cs s ctors cases As Da fss.
Proof.
  unfold split_match. intros HT PU E. destruct (is_app t) eqn:A; [|discriminate]. destruct (head_atom (spine_head t)) as [| |s] eqn:EH; try discriminate.
  unfold obind in E. destruct (ME s) as [ctors|] eqn:EM; [|discriminate]. destruct (Nat.eqb_spec (length (args t)) (count_type_params (symbol_type K s) + 1 + length ctors)) as [L|]; [|discriminate].
  destruct (nth_error (args t) (count_type_params (symbol_type K s))) as [sc|] eqn:EN; [|discriminate]. injection E as <- <- <-.
  destruct (MD s ctors EM) as (VS & k & CK & FC & MI). rewrite CK in *.
  assert (IV : is_value s = true) by (destruct s; auto; discriminate).
  pose proof (typed_spine_sym K g [] t U s HT A EH IV) as HS. pose proof (spine t) as ST. rewrite HS in ST.
  destruct (nth_error_split (args t) (S k) EN) as (l1 & l2 & EA & L1).
  assert (exists As R, l1 = As ++ [R]) as (As & R & E1). { destruct (exists_last (l := l1)) as (x & y & ->); [intros ->; discriminate|]. eauto. }
  subst l1. rewrite app_length in L1. simpl in L1. assert (LA : length As = k) by lia. clear L1.
  rewrite EA, !app_length in L. simpl in L. assert (L2 : length l2 = length ctors) by lia.
  rewrite EA, <- app_assoc in ST. cbn [app] in ST. rewrite ST in HT.
  replace (apply (TSym s) (As ++ R :: sc :: l2)) with (apply (apply (TSym s) (As ++ [R])) (sc :: l2)) in HT by (rewrite <- apply_app, <- app_assoc; reflexivity).
  destruct (typed_apply_head K g _ _ _ HT) as [X|[X|[X|[F HF]]]]; try discriminate; try (exfalso; rewrite apply_app in X; discriminate).
  destruct (typed_instance K g (As ++ [R]) (TSym s) (symbol_type K s) F (ty_sym K g [] s VS)) as [PA EF]; [rewrite app_length, CK; simpl; lia|exact HF|].
  apply Forall_app in PA. destruct PA as [PA PR]. apply Forall_inv in PR.
  destruct (MI g As R LA PA PR) as (Da & fss & PD & ID & ND & PF & EI & FI). rewrite EI in EF. subst F.
  assert (PI : ptype g (arrows (Da :: map (fun Fs => arrows Fs R) fss) R) = true).
  { apply ptype_arrows. split; auto. constructor; auto. apply Forall_forall. intros x Hx. apply in_map_iff in Hx. destruct Hx as (Fs & <- & Hf).
    apply ptype_arrows. split; auto. rewrite Forall_forall in PF. auto. }
  destruct (apply_arrows_inv K g _ _ _ HF PI _ HT) as (Bs & EB & FB). inversion FB; subst. cbn [arrows] in EB. injection EB as EB1 EB2. subst y.
  assert (LF : length l2 = length fss) by (rewrite L2; eapply Forall2_len; eauto).
  assert (ARR : l' = map (fun Fs => arrows Fs R) fss /\ U = R).
  { assert (LL : length l' = length fss) by (rewrite <- LF; symmetry; eapply Forall2_len; eauto).
    clear - EB2 LL. revert l' LL EB2. induction fss as [|Fs fss IH]; intros [|x l'] LL E; try discriminate; [split; auto|].
    cbn in E. injection E as E1 E2. destruct (IH l') as [-> ->]; auto. subst. auto. }
  destruct ARR as [-> ->]. exists s, ctors, l2, As, Da, fss. constructor; auto.
  - rewrite EA. rewrite firstn_app. replace (S (length As) - length (As ++ [R])) with 0 by (rewrite app_length; cbn [length]; lia). rewrite firstn_O, app_nil_r.
    apply firstn_all2. rewrite app_length. cbn [length]. lia.
  - rewrite EA. f_equal. change (skipn (S (S (length As))) ((As ++ [R]) ++ sc :: l2) = l2).
    rewrite skipn_app. rewrite skipn_all2 by (rewrite app_length; cbn [length]; lia). replace (S (S (length As)) - length (As ++ [R])) with 1 by (rewrite app_length; cbn [length]; lia). reflexivity.
  - clear - FI FC CK. induction FI as [|ctor Fs ctors fss [H1 H2] H IH]; constructor.
    + apply Forall_inv in FC. destruct FC as (V1 & V2 & V3). split; auto. split; auto. split; [eapply count_firstn; [exact V3|lia]|]. auto.
    + apply IH. inversion FC; auto.
  - match goal with [X : Forall2 (typed g []) l2 _ |- _] => clear - X; rename X into FX end. remember (map (fun Fs => arrows Fs R) fss) as m eqn:E. revert fss E. induction FX; intros [|Fs fss] E; try discriminate; constructor.
    + injection E as E1 E2. subst. auto.
    + apply IHFX. injection E as _ E. auto.
Qed.
Lemma parts_tidy g t U targs scrut cs s ctors cases As Da fss : parts g t U targs scrut cs s ctors cases As Da fss -> tidy t = true ->
  split_match K ME scrut = None /\ tidy scrut = true /\ Forall (fun x => tidy x = true) cases.
Proof.
  intros P T. rewrite (p_t _ _ _ _ _ _ _ _ _ _ _ _ P) in T. change (As ++ U :: scrut :: cases) with (As ++ [U] ++ [scrut] ++ cases) in T. rewrite app_assoc, app_assoc, apply_app in T.
  apply tidy_args in T. destruct T as [T TC]. rewrite apply_snoc in T. pose proof (tidy_app_inv K ME _ _ T) as (T1 & T2 & h & EH).
  split; [|split; auto]. cbn [MatchSpec.tidy] in T. apply andb_true_iff in T. destruct T as [_ T].
  assert (SH : spine_head (apply (TSym s) (As ++ [U])) = TSym s). { clear. generalize (As ++ [U]). intros l. assert (X : forall f, spine_head (apply f l) = spine_head f) by (induction l as [|a l IH]; intros f; [reflexivity|]; exact (IH (TApp f a))). apply X. }
  rewrite SH in T. rewrite args_apply in T by reflexivity. rewrite app_length, (p_count _ _ _ _ _ _ _ _ _ _ _ _ P) in T. cbn [length] in T. rewrite Nat.add_1_r, Nat.eqb_refl in T.
  cbn [eliminator] in T. rewrite (p_me _ _ _ _ _ _ _ _ _ _ _ _ P) in T. cbn [andb negb orb] in T. apply andb_true_iff in T. destruct T as [T _].
  unfold split_match. destruct (is_app scrut); auto. rewrite <- head_spine. destruct (head_atom scrut) as [| |s']; auto. cbn in T. unfold obind. destruct (ME s'); [discriminate|auto].
Qed.

(** ** the value of a match *)
Section Value.
Context (M : Model) (SY : match_symbols_typed K ME M) (EC : eliminators_compute K ME M).
Context (g : tenv) (t U : term) (targs : list term) (scrut : term) (cs : list (symbol * term)) (s : symbol) (ctors : list symbol)
  (cases As : list term) (Da : term) (fss : list (list term)) (P : parts g t U targs scrut cs s ctors cases As Da fss) (PU : ptype g U = true).
Let PP := P.
Lemma match_has rho : wt M rho t -> has M rho scrut Da /\ Forall2 (fun case Fs => has M rho case (arrows Fs U)) cases fss /\
  Forall2 (fun ctor Fs => has M rho (apply (TSym ctor) As) (arrows Fs Da)) ctors fss.
Proof.
  destruct PP as [Pme Pt Ptargs Pcount Pcs PAs PDa Pin Pnb Pfss Pinst Pscrut Pctors Pcases]. intros W. rewrite Pt in W. change (As ++ U :: scrut :: cases) with (As ++ [U] ++ scrut :: cases) in W. rewrite app_assoc in W. apply wt_apply in W. destruct W as (_ & FW & OK).
  rewrite map_app in OK. apply okapps_app in OK. destruct OK as [O1 O2]. change (ev M rho (TSym s)) with (dsym M s) in *.
  destruct (okapps_instance M rho (As ++ [U]) (dsym M s) (symbol_type K s)) as [MI KI]; [apply (SY s ctors s); auto|rewrite app_length, Pcount; simpl; lia|exact O1|].
  rewrite Pinst in MI.
  assert (PI : ptype g (arrows (Da :: map (fun Fs => arrows Fs U) fss) U) = true).
  { apply ptype_arrows. split; auto. constructor; auto. apply Forall_forall. intros x Hx. apply in_map_iff in Hx. destruct Hx as (Fs & <- & Hf).
    apply ptype_arrows. split; auto. rewrite Forall_forall in Pfss. auto. }
  assert (LM : length (map (ev M rho) (scrut :: cases)) = length (Da :: map (fun Fs => arrows Fs U) fss)).
  { rewrite map_length. cbn [length]. rewrite map_length. f_equal. eapply Forall2_len; eauto. }
  pose proof (okapps_mem M rho g U _ _ (map (ev M rho) (scrut :: cases)) PI MI LM O2) as FM. cbn [map] in FM. inversion FM; subst.
  apply Forall_app in FW. destruct FW as [FW1 FW2]. inversion FW2; subst. apply Forall_app in FW1. destruct FW1 as [FW1 _]. split; [split; auto|]. split.
  - match goal with [X : Forall2 _ (map (ev M rho) cases) _, Y : Forall (wt M rho) cases |- _] => clear - X Y; revert X Y end.
    revert fss. induction cases as [|x l IH]; intros [|Fs fs] X Y; inversion X; inversion Y; subst; constructor; [split; auto|]. apply IH; auto.
  - assert (KA : Forall2 (fun A J => mem M (ev M rho A) (ev M rho J)) As (firstn (length As) (pi_inputs (symbol_type K s)))).
    { clear - KI. rewrite app_length in KI. cbn [length] in KI. assert (X : forall l l' (r : list term), Forall2 (fun A J => mem M (ev M rho A) (ev M rho J)) (l ++ l') r -> Forall2 (fun A J => mem M (ev M rho A) (ev M rho J)) l (firstn (length l) r)).
      { induction l as [|a l IH]; intros l' r H; [constructor|]. inversion H; subst. cbn. constructor; auto. eapply IH; eauto. }
      apply X in KI. rewrite firstn_firstn in KI. replace (Nat.min (length As) (length As + 1)) with (length As) in KI by lia. exact KI. }
    assert (CI : forall x, In x ctors -> forall r, mem M (dsym M x) (ev M r (symbol_type K x))) by (intros x Hx r; apply (SY s ctors x); auto).
    clear - Pctors KA CI FW1. induction Pctors as [|ctor Fs l l' (V1 & V2 & V3 & V4 & V5 & V6) H IH]; constructor.
    + rewrite <- V4 in KA. destruct (instance_okapps M rho As (dsym M ctor) (symbol_type K ctor)) as [X Y]; auto; [apply CI; left; auto|].
      split; [apply wt_apply_intro; auto; exact I|]. rewrite ev_apply. change (ev M rho (TSym ctor)) with (dsym M ctor). rewrite <- V6. exact Y.
    + apply IH. intros x Hx. apply CI. right. auto.
Qed.
Lemma match_value rho (Q : D M -> Prop) : wt M rho t ->
  (Q (ev M rho t) <-> forall j ctor Fs case, nth_error ctors j = Some ctor -> nth_error fss j = Some Fs -> nth_error cases j = Some case ->
     forall ds, Forall2 (fun d A => mem M d (ev M rho A)) ds Fs -> ev M rho scrut = dapps M (ev M rho (apply (TSym ctor) As)) ds -> Q (dapps M (ev M rho case) ds)).
Proof.
  intros W. destruct (match_has rho W) as (HS & HC & HT). destruct PP as [Pme Pt Ptargs Pcount Pcs PAs PDa Pin Pnb Pfss Pinst Pscrut Pctors Pcases].
  assert (LC : length cases = length ctors) by (rewrite (Forall2_len _ _ _ Pcases); symmetry; eapply Forall2_len; eauto).
  pose proof W as W'. rewrite Pt in W'. apply wt_apply in W'. destruct W' as (_ & FW & OK). change (ev M rho (TSym s)) with (dsym M s) in OK.
  rewrite map_app in OK. cbn [map] in OK. destruct (EC s ctors Pme (map (ev M rho) As) (ev M rho U) (ev M rho scrut) (map (ev M rho) cases)) as [EX VA]; auto;
    [rewrite map_length; auto|rewrite map_length; auto|].
  rewrite map_length in *.
  assert (EV : ev M rho t = dapps M (dsym M s) (map (ev M rho) As ++ ev M rho U :: ev M rho scrut :: map (ev M rho) cases)).
  { rewrite Pt, ev_apply, map_app. reflexivity. }
  assert (PC : forall ctor, ev M rho (apply (TSym ctor) As) = dapps M (dsym M ctor) (map (ev M rho) As)) by (intros ctor; rewrite ev_apply; reflexivity).
  assert (FX : forall j ctor, nth_error ctors j = Some ctor -> exists Fs case, nth_error fss j = Some Fs /\ nth_error cases j = Some case /\
    length Fs = fields K (length As) ctor /\ ptype g (arrows Fs Da) = true /\ ptype g (arrows Fs U) = true /\ has M rho (apply (TSym ctor) As) (arrows Fs Da) /\ has M rho case (arrows Fs U)).
  { intros j ctor Hj. assert (Lj : j < length fss) by (rewrite <- (Forall2_len _ _ _ Pctors); apply nth_error_Some; congruence).
    destruct (nth_error fss j) as [Fs|] eqn:EF; [|apply nth_error_None in EF; lia].
    destruct (nth_error cases j) as [case|] eqn:EC'; [|apply nth_error_None in EC'; rewrite (Forall2_len _ _ _ Pcases) in EC'; lia].
    exists Fs, case. split; auto. split; auto.
    assert (N2 : forall A B (R : A -> B -> Prop) l r x y i, Forall2 R l r -> nth_error l i = Some x -> nth_error r i = Some y -> R x y).
    { clear. intros A B R l r x y i H. revert i. induction H; intros [|i] H1 H2; try discriminate; simpl in *; [injection H1 as <-; injection H2 as <-; auto|eauto]. }
    destruct (N2 _ _ _ _ _ _ _ _ Pctors Hj EF) as (_ & _ & _ & _ & LF & _). pose proof (N2 _ _ _ _ _ _ _ _ HC EC' EF). pose proof (N2 _ _ _ _ _ _ _ _ HT Hj EF).
    assert (PF : Forall (fun F => ptype g F = true) Fs) by (rewrite Forall_forall in Pfss; apply Pfss; eapply nth_error_In; eauto).
    split; auto. split; [apply ptype_arrows; auto|]. split; [apply ptype_arrows; auto|]. auto. }
  rewrite EV. split.
  - intros HQ j ctor Fs case H1 H2 H3 ds FD ES. destruct (FX j ctor H1) as (Fs' & case' & X1 & X2 & X3 & X4 & X5 & [X6 X6'] & [X7 X7']). rewrite H2 in X1. rewrite H3 in X2. injection X1 as <-. injection X2 as <-.
    destruct (mem_okapps M rho g Da Fs _ ds X4 X6' FD) as [O1 _]. rewrite PC in O1, ES.
    destruct (VA j ctor (ev M rho case) ds) as [_ V]; auto.
    + rewrite nth_error_map, H3. reflexivity.
    + rewrite <- X3. eapply Forall2_len; eauto.
    + apply okapps_app. split; auto. rewrite PC in X6'. apply (wt_apply M rho As (TSym ctor)) in X6. apply X6.
    + rewrite dapps_app. exact ES.
    + rewrite <- V. exact HQ.
  - intros H. destruct EX as (ctor & ds & HI & LD & OD & ED). apply In_nth_error in HI. destruct HI as [j Hj].
    destruct (FX j ctor Hj) as (Fs & case & X1 & X2 & X3 & X4 & X5 & [X6 X6'] & X7). destruct (VA j ctor (ev M rho case) ds) as [_ V]; auto; [rewrite nth_error_map, X2; reflexivity|].
    rewrite V. apply (H j ctor Fs case); auto.
    + eapply okapps_mem; [exact X4|exact X6'|lia|]. rewrite PC. apply okapps_app in OD. apply OD.
    + rewrite PC, <- dapps_app. exact ED.
Qed.
End Value.
End Cases.
