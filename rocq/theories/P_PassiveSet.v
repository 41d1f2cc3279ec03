(** C37: the passive queue and its clause store stay in sync. *)
From Coq Require Import List Arith NArith Bool Lia Sorting.Sorted.
Import ListNotations.
From Verif Require Import Term LocalContext Literal Clause EqualityGraph Score P_Score PassiveSet PassiveSetProofs.

Section P.
Context {info goal : Type}.
Context (harvest : goal -> pstep info -> goal) (known : goal -> bool) (is_goal : pstep info -> bool) (uses_goal : bool).
Context (scorer : goal -> pstep info -> score) (inhab : term -> lctx -> bool).
Notation pstep := (pstep info).
Notation passive := (@passive info goal).
Notation entry := (nat * pstep * score)%type.

(** what can be done with the set *)
Inductive op :=
| Push (steps : list pstep)
| Pop
| PopShallow
| Simplify (found1 found2 : list (nat * nat) -> list (nat * nat)) (decide1 decide2 : pstep -> nat -> decision info) (oriented : bool)
| Peek.
Definition exec (o : op) (p : passive) : res (passive * option entry) :=
  match o with
  | Push steps => do p <- push_batch harvest known is_goal uses_goal scorer inhab p steps; Ok (p, None)
  | Pop => pop_entry p
  | PopShallow => pop_shallow p
  | Simplify f1 f2 d1 d2 b => do p <- simplify harvest known is_goal uses_goal scorer inhab f1 f2 d1 d2 b p; Ok (p, None)
  | Peek => do _ <- get_contradiction p; Ok (p, None)
  end.
(** the fingerprint lookup returns only what was inserted *)
Definition fits (o : op) : Prop :=
  match o with Simplify f1 f2 _ _ _ => (forall l, incl (f1 l) l) /\ (forall l, incl (f2 l) l) | _ => True end.
(** [history p l]: the set can be [p] after the steps [l] have been popped *)
Inductive history : passive -> list (nat * pstep) -> Prop :=
| h_new pol g : history (ps_new pol g) []
| h_op p l o p' e : history p l -> fits o -> exec o p = Ok (p', e) ->
    history p' (match e with Some (id, st, _) => l ++ [(id, st)] | None => l end).

Definition removable (o : op) (st : pstep) : Prop :=
  match o with Simplify _ _ d1 d2 b => exists i, d1 st i <> Keep \/ (b = false /\ d2 st i <> Keep) | _ => False end.
Lemma exec_spec p o : sync p -> fits o -> exists p' e, exec o p = Ok (p', e) /\ sync p' /\ later p p' /\
  match e with
  | Some (id, st, s) => pops p p' id st s
  | None => forall j st s, waiting p j st s -> (exists s', waiting p' j st s') \/ removable o st
  end.
Proof.
  intros Y F. destruct o as [steps| | |f1 f2 d1 d2 b|]; cbn [exec fits] in *.
  - destruct (push_batch_sync harvest known is_goal uses_goal scorer inhab p steps Y) as (p' & -> & Y' & L' & _ & _ & _ & W). cbn [rbind].
    exists p', None. split; auto. split; auto. split; auto. intros j st s H. left. apply (W _ _ (waiting_lt _ _ _ _ H)). eauto.
  - destruct (pop_entry_spec p Y) as (p' & e & -> & H). exists p', e. split; auto. destruct e as [[[id st] s]|].
    + destruct H as [P _]. split; [apply P|]. split; [apply P|auto].
    + destruct H as (Y' & L' & _ & H). split; auto. split; auto. intros j st s W. destruct (H _ _ _ W).
  - destruct (pop_shallow_spec p Y) as (p' & e & -> & H). exists p', e. split; auto. destruct e as [[[id st] s]|].
    + destruct H as [P _]. split; [apply P|]. split; [apply P|auto].
    + destruct H as [-> _]. split; auto. split; [apply later_refl|]. intros j st s W. left. eauto.
  - destruct F as [F1 F2]. unfold simplify.
    destruct (simplify_dir_spec harvest known is_goal uses_goal scorer inhab f1 d1 p Y (F1 _)) as (p1 & -> & Y1 & L1 & _ & G1 & _). cbn [rbind].
    assert (K1 : forall j st s, waiting p j st s -> (exists s', waiting p1 j st s') \/ exists i, d1 st i <> Keep).
    { intros j st s W. destruct (l_wait _ _ L1 _ _ _ W) as [H|H]; [right; eapply G1; eauto|auto]. }
    destruct b.
    + exists p1, None. cbn [rbind]. split; auto. split; auto. split; auto. intros j st s W. destruct (K1 _ _ _ W) as [H|[i H]]; [auto|right; exists i; auto].
    + destruct (simplify_dir_spec harvest known is_goal uses_goal scorer inhab f2 d2 p1 Y1 (F2 _)) as (p2 & -> & Y2 & L2 & _ & G2 & _). cbn [rbind].
      exists p2, None. split; auto. split; auto. split; [eapply later_trans; eauto|]. intros j st s W. destruct (K1 _ _ _ W) as [[s' H]|[i H]]; [|right; exists i; auto].
      destruct (l_wait _ _ L2 _ _ _ H) as [H2|H2]; [|auto]. right. destruct (G2 _ _ _ H H2) as [i Hi]. exists i. auto.
  - assert (G : exists c, get_contradiction p = Ok c).
    { unfold get_contradiction. destruct (contradiction p) as [[a b]|] eqn:C; [|eauto]. destruct (y_contra _ Y _ _ C) as [A B].
      destruct (nth_error (clauses p) a) as [[[x sx]|]|] eqn:E1; [| |apply nth_error_None in E1; lia];
      (destruct (nth_error (clauses p) b) as [[[y sy]|]|] eqn:E2; [eauto|eauto|apply nth_error_None in E2; lia]). }
    destruct G as [c ->]. exists p, None. cbn [rbind]. split; auto. split; auto. split; [apply later_refl|]. intros j st s W. left. eauto.
Qed.
Lemma history_sync p l : history p l -> sync p /\ NoDup (map fst l) /\ forall id st, In (id, st) l -> nth_error (clauses p) id = Some None.
Proof.
  induction 1 as [pol g|p l o p' e H (Y & N & G) F E].
  - split; [|split; [constructor|intros id st []]]. constructor; cbn; try discriminate; try tauto.
    + constructor.
    + intros s id. split; [intros []|]. intros [st W]. destruct id; discriminate.
    + intros d Hd. destruct (df_interleave_period pol); [injection Hd as <-; constructor|discriminate].
    + intros d k Hd. destruct (df_interleave_period pol); [injection Hd as <-|discriminate]. split; [intros []|].
      intros (st & s & W & _). unfold waiting in W. cbn in W. destruct (snd k); discriminate.
    + destruct (df_interleave_period pol); [discriminate|auto].
  - destruct (exec_spec p o Y F) as (p1 & e1 & E1 & Y' & L' & H1). rewrite E in E1. injection E1 as <- <-. split; auto.
    assert (G' : forall id st, In (id, st) l -> nth_error (clauses p') id = Some None) by (intros id st Hi; apply (l_gone _ _ L'), (G _ _ Hi)).
    destruct e as [[[id st] s]|]; [|auto]. destruct H1 as (W & _ & _ & _ & Z & _). rewrite map_app. cbn [map fst]. split.
    + apply NoDup_app_swap || idtac. clear - N G W. assert (A : ~ In id (map fst l)).
      { intros Hi. apply in_map_iff in Hi. destruct Hi as ([j st'] & <- & Hi). apply G in Hi. cbn [fst] in W. unfold waiting in W. congruence. }
      clear G W. induction l as [|x l IH]; cbn in *; [constructor; [tauto|constructor]|]. inversion N as [|? ? N1 N2]; subst. constructor; [|apply IH; tauto].
      rewrite in_app_iff. cbn. intros [|[|[]]]; [auto|]. apply A. auto.
    + intros j st' Hi. apply in_app_or in Hi. destruct Hi as [Hi|[Hi|[]]]; [eauto|]. injection Hi as <- _. exact Z.
Qed.

(** No operation panics, whatever was done before: the clause store and the two queues agree. *)
Theorem passive_never_panics : forall p l o, history p l -> fits o -> exists p' e, exec o p = Ok (p', e).
Proof.
  intros p l o H F. destruct (history_sync p l H) as [Y _]. destruct (exec_spec p o Y F) as (p' & e & E & _). eauto.
Qed.
(** No number is popped twice, and a popped step was waiting under its number. *)
Theorem popped_at_most_once : forall p l, history p l -> NoDup (map fst l) /\
  (forall id st, In (id, st) l -> ~ exists s, waiting p id st s) /\
  forall o p' id st s, fits o -> exec o p = Ok (p', Some (id, st, s)) -> waiting p id st s /\ ~ In id (map fst l).
Proof.
  intros p l H. destruct (history_sync p l H) as (Y & N & G). split; auto. split.
  - intros id st Hi [s W]. apply G in Hi. unfold waiting in W. congruence.
  - intros o p' id st s F E. destruct (exec_spec p o Y F) as (p1 & e1 & E1 & _ & _ & H1). rewrite E in E1. injection E1 as <- <-. destruct H1 as [W _]. split; auto.
    intros Hi. apply in_map_iff in Hi. destruct Hi as ([j st'] & <- & Hi). apply G in Hi. cbn [fst] in W. unfold waiting in W. congruence.
Qed.
(** A pushed step waits under a number that nothing had before. *)
Theorem pushed_steps_wait : forall p l steps p' e, history p l -> exec (Push steps) p = Ok (p', e) ->
  forall i st, nth_error steps i = Some st -> exists id s, waiting p' id st s /\ id = length (clauses p) + i.
Proof.
  intros p l steps p' e H E i st Hi. destruct (history_sync p l H) as (Y & _).
  destruct (push_batch_sync harvest known is_goal uses_goal scorer inhab p steps Y) as (p1 & E1 & _ & _ & _ & _ & W & _). cbn [exec] in E. rewrite E1 in E. cbn [rbind] in E. injection E as <- <-.
  destruct (W _ _ Hi) as [s Ws]. eauto.
Qed.
(** A waiting step keeps waiting under its number until it is popped or a simplification replaces or drops it. *)
Theorem waiting_until_popped : forall p l o p' e id st s, history p l -> fits o -> exec o p = Ok (p', e) -> waiting p id st s ->
  e = Some (id, st, s) \/ (exists s', waiting p' id st s') \/ removable o st.
Proof.
  intros p l o p' e id st s H F E W. destruct (history_sync p l H) as (Y & _). destruct (exec_spec p o Y F) as (p1 & e1 & E1 & _ & _ & H1).
  rewrite E in E1. injection E1 as <- <-. destruct e as [[[j st'] s']|]; [|destruct (H1 _ _ _ W); auto].
  destruct H1 as (Wj & _ & _ & Q & _). destruct (Nat.eq_dec id j) as [->|N]; [left; destruct (waiting_fun _ _ _ _ _ _ Wj W) as [-> ->]; auto|].
  right. left. exists s. apply Q. auto.
Qed.
(** Unless it is a depth-first turn of an interleaving policy, a popped step has a maximal score among those that
    wait, and in a depth-first turn a maximal key; only from an empty set nothing is popped. *)
Theorem popped_is_maximal_partial : forall p l p' e, history p l -> exec Pop p = Ok (p', e) ->
  match e with
  | Some (id, st, s) =>
      (df_turn p = false -> forall j st' s', waiting p j st' s' -> score_cmp s' s <> Gt) /\
      (df_turn p = true -> forall j st' s', waiting p j st' s' -> df_cmp (mk_df s' j) (mk_df s id) <> Gt)
  | None => forall j st s, ~ waiting p j st s
  end.
Proof.
  intros p l p' e H E. destruct (history_sync p l H) as (Y & _). destruct (pop_entry_spec p Y) as (p1 & e1 & E1 & H1). cbn [exec] in E. rewrite E in E1.
  injection E1 as <- <-. destruct e as [[[id st] s]|]; apply H1.
Qed.
Theorem shallow_pop_is_maximal : forall p l p' e, history p l -> exec PopShallow p = Ok (p', e) ->
  match e with
  | Some (id, st, s) => s_shallow s = true /\ forall j st' s', waiting p j st' s' -> s_shallow s' = true -> score_cmp s' s <> Gt
  | None => forall j st s, waiting p j st s -> s_shallow s = false
  end.
Proof.
  intros p l p' e H E. destruct (history_sync p l H) as (Y & _). destruct (pop_shallow_spec p Y) as (p1 & e1 & E1 & H1). cbn [exec] in E. rewrite E in E1.
  injection E1 as <- <-. destruct e as [[[id st] s]|]; apply H1.
Qed.

(** Popping until nothing is left *)
Inductive drains : passive -> list entry -> passive -> Prop :=
| d_end p p' : exec Pop p = Ok (p', None) -> drains p [] p'
| d_pop p p1 x l p' : exec Pop p = Ok (p1, Some x) -> drains p1 l p' -> drains p (x :: l) p'.
Definition waits (p : passive) : nat := length (filter (fun o => match o with Some _ => true | None => false end) (clauses p)).
Lemma waits_less p p' id st s : pops p p' id st s -> waits p' < waits p.
Proof.
  intros (W & Y' & L & Q & Z & _). unfold waits.
  assert (G : forall (a b : list (option (pstep * score))) i, nth_error a i = Some None -> (exists x, nth_error b i = Some (Some x)) ->
    (forall j x, nth_error a j = Some (Some x) -> exists y, nth_error b j = Some (Some y)) -> 
    length (filter (fun o => match o with Some _ => true | None => false end) a) < length (filter (fun o => match o with Some _ => true | None => false end) b)).
  { assert (G0 : forall (a b : list (option (pstep * score))), (forall j x, nth_error a j = Some (Some x) -> exists y, nth_error b j = Some (Some y)) -> 
    length (filter (fun o => match o with Some _ => true | None => false end) a) <= length (filter (fun o => match o with Some _ => true | None => false end) b)).
    { induction a as [|o a IH]; intros b H; cbn; [lia|]. destruct b as [|o' b].
      - assert (A : filter (fun o => match o with Some _ => true | None => false end) (o :: a) = []).
        { destruct (filter (fun o => match o with Some _ => true | None => false end) (o :: a)) as [|y r] eqn:E; auto. exfalso.
          assert (Hy : In y (y :: r)) by (left; auto). rewrite <- E in Hy. apply filter_In in Hy. destruct Hy as [Hy Hs]. destruct y as [y|]; [|discriminate].
          apply In_nth_error in Hy. destruct Hy as [j Hj]. destruct (H _ _ Hj) as [z Hz]. destruct j; discriminate. }
        cbn in A. rewrite A. cbn. lia.
      - assert (H' := IH b (fun j => H (S j))). pose proof (H 0) as H0. cbn in H0. destruct o as [x|]; cbn.
        + destruct (H0 _ eq_refl) as [y Hy]. injection Hy as ->. cbn. lia.
        + destruct o'; cbn; lia. }
    induction a as [|o a IH]; intros [|o' b] [|i] H1 [x H2] H; cbn in *; try discriminate.
    - injection H1 as ->. injection H2 as ->. cbn. pose proof (G0 a b (fun j => H (S j))). lia.
    - specialize (IH b i H1 (ex_intro _ x H2) (fun j => H (S j))). pose proof (H 0) as H0. cbn in H0. destruct o as [y|]; cbn.
      + destruct (H0 _ eq_refl) as [z Hz]. injection Hz as ->. cbn. lia.
      + destruct o'; cbn; lia. }
  apply (G _ _ id Z); [eexists; exact W|]. intros j [st' s'] H. exists (st', s'). apply Q. exact H.
Qed.
(** Popping ends; it yields every waiting step once and nothing else; without interleaving, in the order of the
    scores. *)
Theorem everything_is_popped : forall p l, history p l -> exists popped p', drains p popped p' /\
  NoDup (map (fun x => fst (fst x)) popped) /\
  (forall id st s, In (id, st, s) popped <-> waiting p id st s) /\
  (forall id st s, ~ waiting p' id st s) /\
  (df_interleave_period (scoring p) = None -> StronglySorted (fun a b => score_cmp (snd b) (snd a) <> Gt) popped).
Proof.
  assert (G : forall n p, sync p -> waits p < n -> exists popped p', drains p popped p' /\ NoDup (map (fun x => fst (fst x)) popped) /\
    (forall id st s, In (id, st, s) popped <-> waiting p id st s) /\ (forall id st s, ~ waiting p' id st s) /\
    (df_interleave_period (scoring p) = None -> StronglySorted (fun a b => score_cmp (snd b) (snd a) <> Gt) popped)).
  { induction n as [|n IH]; intros p Y L; [lia|]. destruct (pop_entry_spec p Y) as (p1 & [[[id st] s]|] & E & H).
    - destruct H as (P & M & _). pose proof (waits_less _ _ _ _ _ P) as Lw. pose proof P as (W & Y1 & L1 & Q & Z & Sc).
      destruct (IH p1 Y1) as (popped & p' & D & N & I & Em & So); [lia|]. exists ((id, st, s) :: popped), p'. split; [eapply d_pop; eauto|]. split; [|split; [|split; auto]].
      + cbn [map fst]. constructor; auto. intros Hi. apply in_map_iff in Hi. destruct Hi as ([[j st'] s'] & <- & Hi). apply I in Hi. apply Q in Hi. cbn in Hi. tauto.
      + intros j st' s'. cbn [In]. split.
        * intros [Hi|Hi]; [injection Hi as <- <- <-; auto|]. apply I in Hi. apply Q in Hi. tauto.
        * intros Hw. destruct (Nat.eq_dec j id) as [->|Hn]; [left; destruct (waiting_fun _ _ _ _ _ _ W Hw) as [-> ->]; auto|]. right. apply I, Q. auto.
      + intros Hp. constructor; [apply So; congruence|]. apply Forall_forall. intros [[j st'] s'] Hi. apply I in Hi. apply Q in Hi. cbn [snd].
        apply (M (ltac:(unfold df_turn; rewrite Hp; reflexivity)) j st' s'), Hi.
    - destruct H as (Y1 & L1 & _ & H). exists [], p1. split; [constructor; auto|]. split; [constructor|]. split; [|split; [|constructor]].
      + intros id st s. split; [intros []|]. intros W. destruct (H _ _ _ W).
      + intros id st s W. pose proof (waiting_lt _ _ _ _ W) as Hl. unfold pop_entry in E.
        assert (Ec : clauses p1 = clauses p).
        { assert (Y0 : sync (with_count p (S (pop_count p)))) by (destruct Y; constructor; auto).
          destruct (df_turn p).
          - destruct (pop_df_spec _ Y0) as (q & o & Eq & Hq). rewrite Eq in E. cbn [rbind] in E. destruct o as [[[j st'] s']|]; [discriminate|]. destruct Hq as [-> _].
            destruct (pop_main_spec _ Y0) as (q & o & Eq2 & Hq). rewrite Eq2 in E. injection E as -> ->. destruct Hq as [-> _]. reflexivity.
          - destruct (pop_main_spec _ Y0) as (q & o & Eq2 & Hq). rewrite Eq2 in E. injection E as -> ->. destruct Hq as [-> _]. reflexivity. }
        unfold waiting in W. rewrite Ec in W. apply (H id st s W). }
  intros p l H. destruct (history_sync p l H) as (Y & _). apply (G (S (waits p)) p Y). auto.
Qed.
(** A replacement is what simplification decided for a step that was waiting. *)
Theorem replacements_come_from_waiting : forall p l f1 f2 d1 d2 p' e id st s, history p l -> fits (Simplify f1 f2 d1 d2 true) ->
  exec (Simplify f1 f2 d1 d2 true) p = Ok (p', e) -> length (clauses p) <= id -> waiting p' id st s ->
  exists j st0 s0 i, waiting p j st0 s0 /\ d1 st0 i = Replace st.
Proof.
  intros p l f1 f2 d1 d2 p' e id st s H [F1 F2] E Hl W. destruct (history_sync p l H) as (Y & _). cbn [exec] in E. unfold simplify in E.
  destruct (simplify_dir_spec harvest known is_goal uses_goal scorer inhab f1 d1 p Y (F1 _)) as (p1 & E1 & _ & _ & _ & _ & R). rewrite E1 in E. cbn [rbind] in E. injection E as <- <-.
  eapply R; eauto.
Qed.
End P.
Print Assumptions passive_never_panics.
Print Assumptions popped_at_most_once.
Print Assumptions pushed_steps_wait.
Print Assumptions waiting_until_popped.
Print Assumptions popped_is_maximal_partial.
Print Assumptions shallow_pop_is_maximal.
Print Assumptions everything_is_popped.
Print Assumptions replacements_come_from_waiting.

(** Five steps are pushed, the second and third contradict each other; simplification drops one and replaces one;
    then all are popped. *)
Definition pa_lit (b : bool) (n : N) : literal := Lit b (TSym (SGlobal 0%N n)) (TSym STrue).
Definition pa_step (ls : list literal) (n : N) : pstep N := PStep N (Clause ls []) n.
Definition pa_score (_ : unit) (st : pstep N) : score := Score (Key false Unspent (p_info st)) (N.even (p_info st)).
Definition pa_steps : list (pstep N) :=
  [pa_step [pa_lit true 0%N; pa_lit true 1%N] 3; pa_step [pa_lit true 2%N] 7; pa_step [pa_lit false 2%N] 4; pa_step [pa_lit false 0%N; pa_lit false 2%N] 9; pa_step [pa_lit true 5%N] 7]%N.
Definition pa_decide (st : pstep N) (i : nat) : decision N :=
  match p_info st, i with 3%N, 1 => Drop | 9%N, 0 => Replace (pa_step [pa_lit false 2%N] 5%N) | _, _ => Keep end.
Notation pa_exec := (exec (fun g _ => g) (fun _ : unit => true) (fun _ => false) false pa_score (fun _ _ => true)).
Definition pa_run (pol : policy) (ops : list (op (info := N))) : res (passive (info := N) (goal := unit) * list (nat * N)) :=
  foldm (fun (a : passive * list (nat * N)) o => do (p, e) <- pa_exec o (fst a);
    Ok (p, snd a ++ match e with Some (id, st, _) => [(id, p_info st)] | None => [] end)) ops (ps_new pol tt, []).
Definition pa_ops := [Push pa_steps; Peek; Simplify (fun l => l) (fun l => l) pa_decide pa_decide false; PopShallow; Pop; Pop; Pop; Pop].
Example passive_case :
  (exists p, pa_run ModelConsistent [Push pa_steps] = Ok (p, []) /\ contradiction p = Some (1, 2) /\ length (queue p) = 5) /\
  (exists p, pa_run ModelConsistent pa_ops = Ok (p, [(2, 4%N); (4, 7%N); (1, 7%N); (5, 5%N)]) /\ queue p = [] /\ length (clauses p) = 6) /\
  (exists p, pa_run ModelDfInterleave1 pa_ops = Ok (p, [(2, 4%N); (4, 7%N); (5, 5%N); (1, 7%N)]) /\ queue p = [] /\ df_queue p = Some []) /\
  fits (Simplify (fun l => l) (fun l => l) pa_decide pa_decide false).
Proof.
  split; [eexists; split; [vm_compute; reflexivity|split; reflexivity]|]. split; [eexists; split; [vm_compute; reflexivity|split; reflexivity]|].
  split; [eexists; split; [vm_compute; reflexivity|split; reflexivity]|]. split; intros l; apply incl_refl.
Qed.
Definition pa_state (r : res (passive (info := N) (goal := unit) * option (nat * pstep N * score))) : passive :=
  match r with Ok (p, _) => p | _ => ps_new ModelDfInterleave1 tt end.
Definition pa_p0 := pa_state (pa_exec (Push (pa_steps ++ [pa_step [] 2%N])) (ps_new ModelDfInterleave1 tt)).
Definition pa_p1 := pa_state (pa_exec Pop pa_p0).
(** With an interleaving policy a popped step need not have a maximal score: the second pop takes the step pushed
    last. *)
Theorem popped_is_maximal_refuted : exists p l p' id st s j st' s',
  history (fun g _ => g) (fun _ : unit => true) (fun _ => false) false pa_score (fun _ _ => true) p l /\
  pa_exec Pop p = Ok (p', Some (id, st, s)) /\ waiting p j st' s' /\ score_cmp s' s = Gt.
Proof.
  assert (H0 : pa_exec (Push (pa_steps ++ [pa_step [] 2%N])) (ps_new ModelDfInterleave1 tt) = Ok (pa_p0, None)) by (vm_compute; reflexivity).
  assert (H1 : exists e, pa_exec Pop pa_p0 = Ok (pa_p1, e)) by (eexists; vm_compute; reflexivity). destruct H1 as [e H1].
  pose proof (h_op _ _ _ _ _ _ _ _ (Push (pa_steps ++ [pa_step [] 2%N])) _ _ (h_new _ _ _ _ _ _ ModelDfInterleave1 tt) Logic.I H0) as R0.
  pose proof (h_op _ _ _ _ _ _ _ _ Pop _ _ R0 Logic.I H1) as R1.
  exists pa_p1. eexists. do 4 eexists. exists 1. do 2 eexists. split; [exact R1|]. split; [vm_compute; reflexivity|split; vm_compute; reflexivity].
Qed.
Print Assumptions popped_is_maximal_refuted.
