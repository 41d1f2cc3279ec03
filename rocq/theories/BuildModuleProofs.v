(** Lemmas about BuildModule.v. *)
From Coq Require Import List Arith Bool Lia.
Import ListNotations.
From Verif Require Import LoweredModule BuildModule.

Section Proofs.
  Context {Cert : Type}.
  Context (cert_goal : Cert -> nat) (goal_name : nat -> nat).
  Context (check : Cert -> nat -> list nat -> bool) (trim : Cert -> nat -> list nat -> Cert).
  Context (search : nat -> list nat -> found) (make : nat -> list nat -> option Cert) (cancelled : nat -> bool).
  Context (set : settings Cert).
  Notation goal_ := (verify_goal cert_goal goal_name check trim search make cancelled set).
  Notation claim_ := (verify_claim cert_goal goal_name check trim search make cancelled set).
  Notation item_ := (build_item cert_goal goal_name check trim search make cancelled set).
  Notation items_ := (build_items cert_goal goal_name check trim search make cancelled set).

  (** Why a goal counts as verified: the given certificate checks; or a stored certificate checks, and what is left of it is kept; or a search found a proof and its
      certificate is kept. *)
  Definition evidence (g : nat) (V : list nat) (c : option Cert) : Prop :=
    match c with
    | None => exists d, b_override set = Some d /\ check d g V = true
    | Some c => b_override set = None /\
        ((exists d, cert_goal d = goal_name g /\ check d g V = true /\ c = trim d g V) \/ b_check set = false /\ search g V = Success /\ make g V = Some c)
    end.
  Definition kept (es : list (option Cert)) : list Cert := flat_map (fun e => match e with Some c => [c] | None => [] end) es.
  Lemma kept_app a b : kept (a ++ b) = kept a ++ kept b.
  Proof. apply flat_map_app. Qed.

  Lemma try_cached_hit g V cs i c : try_cached check trim set g V cs = Hit i c -> exists d, In (i, d) cs /\ check d g V = true /\ c = trim d g V.
  Proof.
    induction cs as [|[j d] cs IH]; simpl; [discriminate|]. destruct (check d g V) eqn:E; [intros [= <- <-]; eauto 6|]. destruct (b_check set); [discriminate|].
    intros H. destruct (IH H) as (x & H1 & H2). eauto.
  Qed.
  Lemma claim_mono g V st st' : claim_ g V st = Some st' -> st_good st' = true -> st_good st = true.
  Proof.
    unfold verify_claim, verify_goal. destruct (wanted set g); [|congruence]. destruct (cancelled g); [discriminate|]. destruct (b_override set) as [d|]; [destruct (check d g V); congruence|].
    destruct (if b_force set then _ else _) as [i c| |]; [intros [= <-]; auto|discriminate|]. destruct (b_check set); [discriminate|].
    destruct (search g V); [destruct (make g V); [intros [= <-]; auto|discriminate]|intros [= <-]; discriminate|intros [= <-]; discriminate].
  Qed.
  Lemma claim_spec g V st st' : claim_ g V st = Some st' -> st_good st' = true ->
    st_status st' = st_status st /\ exists es, st_certs st' = st_certs st ++ kept es /\
      if wanted set g then exists e, es = [e] /\ evidence g V e else es = [].
  Proof.
    unfold verify_claim, verify_goal. destruct (wanted set g); [|intros [= <-] _; split; auto; exists []; rewrite app_nil_r; auto].
    destruct (cancelled g); [discriminate|]. destruct (b_override set) as [d|] eqn:Eo.
    { destruct (check d g V) eqn:Ec; [|discriminate]. intros [= <-] _. split; auto. exists [None]. simpl. rewrite app_nil_r. split; auto. exists None. split; auto. exists d. auto. }
    destruct (if b_force set then _ else _) as [i c| |] eqn:Eh; [|discriminate|].
    - intros [= <-] _. split; auto. exists [Some c]. split; auto. exists (Some c). split; auto. split; auto. left.
      destruct (b_force set); [discriminate|]. apply try_cached_hit in Eh. destruct Eh as (d & Hd & Hc & ->). exists d. unfold entries in Hd. apply filter_In in Hd. destruct Hd as [_ Hd].
      apply Nat.eqb_eq in Hd. auto.
    - destruct (b_check set) eqn:Eb; [discriminate|]. destruct (search g V) eqn:Es; [|intros [= <-]; discriminate|intros [= <-]; discriminate]. destruct (make g V) as [c|] eqn:Em; [|discriminate].
      intros [= <-] _. split; auto. exists [Some c]. split; auto. exists (Some c). split; auto. split; auto.
  Qed.

  Section Ind.
    Context (P : litem -> Prop) (H1 : forall f, P (IFact f)) (H2 : forall g f, P (IClaim g f)) (H3 : forall is e, Forall P is -> P (IBlock is e)).
    Fixpoint litem_ind' (i : litem) : P i :=
      match i with
      | IFact f => H1 f
      | IClaim g f => H2 g f
      | IBlock is e => H3 is e ((fix go l : Forall P l := match l with [] => Forall_nil _ | x :: l => Forall_cons _ (litem_ind' x) (go l) end) is)
      end.
  End Ind.

  Lemma items_cons top i is s : items_ top (i :: is) s = match item_ top i s with None => None | Some s => if b_exit set && negb (is_good (st_status (snd s))) then Some s else items_ top is s end.
  Proof. reflexivity. Qed.
  Lemma items_mono is : forall top s s', items_ top is s = Some s' -> st_good (snd s') = true -> st_good (snd s) = true.
  Proof.
    assert (K : forall is, Forall (fun i => forall top s s', item_ top i s = Some s' -> st_good (snd s') = true -> st_good (snd s) = true) is ->
      forall top s s', items_ top is s = Some s' -> st_good (snd s') = true -> st_good (snd s) = true).
    { clear is. induction 1 as [|i is Hi His IH]; intros top s s' E G; [injection E as <-; auto|]. rewrite items_cons in E. destruct (item_ top i s) as [s1|] eqn:E1; [|discriminate].
      destruct (b_exit set && _); [injection E as <-|]; eauto. }
    apply K. apply Forall_forall. intros i _. clear is. induction i as [f|g f|is e IH] using litem_ind'; intros top [proc st] s' E G; cbn [build_item] in E.
    - injection E as <-. auto.
    - destruct (claim_ g proc st) as [st1|] eqn:E1; [|discriminate]. injection E as <-. simpl in *. eapply claim_mono; eauto.
    - destruct (match is with [] => true | _ => false end && top); [injection E as <-; auto|].
      change (build_list set (item_ false) is (proc, st)) with (items_ false is (proc, st)) in E. destruct (items_ false is (proc, st)) as [s1|] eqn:E1; [|discriminate].
      simpl in E. injection E as <-. simpl in *. eapply (K is IH false _ _ E1); eauto.
  Qed.

  Definition log_ok (L : list (nat * list nat)) (es : list (option Cert)) : Prop := Forall2 (fun l e => evidence (fst l) (snd l) e) (filter (fun l => wanted set (fst l)) L) es.
  Definition sound (top : bool) (proc : list nat) (st : bstate Cert) (proc' : list nat) (st' : bstate Cert) (v : list (nat * list nat) -> list nat * list (nat * list nat)) : Prop :=
    st_good st' = true -> (b_exit set = true -> st_status st = Good) ->
    st_status st' = st_status st /\ exists L es, (forall log, v log = (proc', log ++ L)) /\ st_certs st' = st_certs st ++ kept es /\ log_ok L es.
  Lemma items_sound is : forall top proc st proc' st', items_ top is (proc, st) = Some (proc', st') -> sound top proc st proc' st' (fun log => verify_items top is (proc, log)).
  Proof.
    assert (K : forall is, Forall (fun i => forall top proc st proc' st', item_ top i (proc, st) = Some (proc', st') -> sound top proc st proc' st' (fun log => verify_item top i (proc, log))) is ->
      forall top proc st proc' st', items_ top is (proc, st) = Some (proc', st') -> sound top proc st proc' st' (fun log => verify_items top is (proc, log))).
    { clear is. induction 1 as [|i is Hi His IH]; intros top proc st proc' st' E G X.
      - injection E as <- <-. split; auto. exists [], []. split; [intros log; rewrite app_nil_r; auto|]. split; [rewrite app_nil_r; auto|constructor].
      - rewrite items_cons in E. destruct (item_ top i (proc, st)) as [[p1 st1]|] eqn:E1; [|discriminate]. cbn [snd] in E.
        destruct (b_exit set && negb (is_good (st_status st1))) eqn:Eb.
        + injection E as <- <-. destruct (Hi _ _ _ _ _ E1 G X) as [A _]. apply andb_true_iff in Eb. destruct Eb as [Eb1 Eb2]. rewrite A, (X Eb1) in Eb2. discriminate.
        + assert (G1 : st_good st1 = true) by (apply (items_mono _ _ _ _ E G)).
          destruct (Hi _ _ _ _ _ E1 G1 X) as (A1 & L1 & es1 & A2 & A3 & A4).
          destruct (IH _ _ _ _ _ E G) as (B1 & L2 & es2 & B2 & B3 & B4); [rewrite A1; auto|]. split; [congruence|].
          exists (L1 ++ L2), (es1 ++ es2). split; [|split].
          * intros log. unfold verify_items in *. simpl. rewrite A2, B2, app_assoc. auto.
          * rewrite B3, A3, kept_app, app_assoc. auto.
          * unfold log_ok in *. rewrite filter_app. apply Forall2_app; auto. }
    apply K. apply Forall_forall. intros i _. clear is. induction i as [f|g f|is e IH] using litem_ind'; intros top proc st proc' st' E G X; cbn [build_item] in E.
    - injection E as <- <-. split; auto. exists [], []. split; [intros log; simpl; rewrite app_nil_r; auto|]. split; [rewrite app_nil_r; auto|constructor].
    - destruct (claim_ g proc st) as [st1|] eqn:E1; [|discriminate]. injection E as <- <-. destruct (claim_spec _ _ _ _ E1 G) as (A1 & es & A2 & A3). split; auto.
      exists [(g, proc)], es. split; [auto|]. split; auto. unfold log_ok. simpl. destruct (wanted set g); [destruct A3 as (x & -> & A3); constructor; auto; constructor|subst es; constructor].
    - assert (Hi : exists p1, items_ false is (proc, st) = Some (p1, st') /\ proc' = match e with Some f => proc ++ [f] | None => proc end).
      { destruct (match is with [] => true | _ => false end && top) eqn:Et; [destruct is; [|discriminate]; injection E as <- <-; exists proc; auto|].
        change (build_list set (item_ false) is (proc, st)) with (items_ false is (proc, st)) in E. destruct (items_ false is (proc, st)) as [[p1 s1]|] eqn:E1; [|discriminate].
        injection E as <- <-. exists p1. auto. }
      destruct Hi as (p1 & E1 & ->). destruct (K is IH _ _ _ _ _ E1 G X) as (A1 & L & es & A2 & A3 & A4). split; auto. exists L, es. split; [|auto].
      intros log. cbn [verify_item]. f_equal. specialize (A2 log). unfold verify_items in A2.
      destruct (match is with [] => true | _ => false end && top) eqn:Et; [destruct is; [|discriminate]; simpl in A2; congruence|rewrite A2; auto].
  Qed.

  (** A module that is not good spoils the status, and the status never gets better. *)
  Definition worse (st st' : bstate Cert) : Prop :=
    ((st_good st = false -> st_status st <> Good) -> st_good st' = false -> st_status st' <> Good) /\ (st_status st' = Good -> st_status st = Good).
  Lemma worse_refl st : worse st st.
  Proof. split; auto. Qed.
  Lemma worse_trans a b c : worse a b -> worse b c -> worse a c.
  Proof. intros [A1 A2] [B1 B2]. split; auto. Qed.
  Lemma claim_worse g V st st' : claim_ g V st = Some st' -> worse st st'.
  Proof.
    unfold verify_claim, verify_goal. destruct (wanted set g); [|intros [= <-]; apply worse_refl]. destruct (cancelled g); [discriminate|].
    destruct (b_override set) as [d|]; [destruct (check d g V); [intros [= <-]; apply worse_refl|discriminate]|].
    destruct (if b_force set then _ else _) as [i c| |]; [intros [= <-]; split; auto|discriminate|]. destruct (b_check set); [discriminate|].
    destruct (search g V); [destruct (make g V); [intros [= <-]; split; auto|discriminate]|intros [= <-]; split; simpl; intros; discriminate|intros [= <-]].
    split; simpl; destruct (st_status st); simpl; intros; congruence.
  Qed.
  Lemma items_worse is : forall top s s', items_ top is s = Some s' -> worse (snd s) (snd s').
  Proof.
    assert (K : forall is, Forall (fun i => forall top s s', item_ top i s = Some s' -> worse (snd s) (snd s')) is -> forall top s s', items_ top is s = Some s' -> worse (snd s) (snd s')).
    { clear is. induction 1 as [|i is Hi His IH]; intros top s s' E; [injection E as <-; apply worse_refl|]. rewrite items_cons in E. destruct (item_ top i s) as [s1|] eqn:E1; [|discriminate].
      destruct (b_exit set && _); [injection E as <-; eauto|]. eapply worse_trans; eauto. }
    apply K. apply Forall_forall. intros i _. clear is. induction i as [f|g f|is e IH] using litem_ind'; intros top [proc st] s' E; cbn [build_item] in E.
    - injection E as <-. apply worse_refl.
    - destruct (claim_ g proc st) as [st1|] eqn:E1; [|discriminate]. injection E as <-. eapply claim_worse; eauto.
    - destruct (match is with [] => true | _ => false end && top); [injection E as <-; apply worse_refl|].
      change (build_list set (item_ false) is (proc, st)) with (items_ false is (proc, st)) in E. destruct (items_ false is (proc, st)) as [s1|] eqn:E1; [|discriminate].
      simpl in E. injection E as <-. apply (K is IH false _ _ E1).
  Qed.
End Proofs.

Section StreamProofs.
  Context {Cert : Type} (cert_goal : Cert -> nat) (set : settings Cert).
  (** A record that was made for [w] when the status was [s] *)
  Definition made (s : status) (w : work Cert) (r : list Cert * nat * bool) : Prop := exists st, verify_work cert_goal set s w = Some (st, Some r).
  Lemma modules_made ws : forall s s' recs, (b_exit set = true -> s = Good) -> process_modules cert_goal set s ws = (s', recs) ->
    forall w r, In (w, r) recs -> In w ws /\ exists s1, (b_exit set = true -> s1 = Good) /\ made s1 w r.
  Proof.
    induction ws as [|w ws IH]; intros s s' recs Hs; simpl; [intros [= <- <-] ? ? []|].
    destruct (verify_work cert_goal set s w) as [[st rec]|] eqn:E; [|intros [= <- <-] ? ? []].
    set (one := match rec with Some r => [(w, r)] | None => [] end).
    assert (H1 : forall w0 r, In (w0, r) one -> In w0 (w :: ws) /\ exists s1, (b_exit set = true -> s1 = Good) /\ made s1 w0 r).
    { intros w0 r. unfold one. destruct rec as [r0|]; [|intros []]. intros [[= <- <-]|[]]. split; [left; auto|]. exists s. split; auto. exists st. auto. }
    destruct (b_exit set && negb (is_good (st_status st)) || is_error (st_status st)) eqn:Eb; [intros [= <- <-]; exact H1|].
    destruct (process_modules cert_goal set (st_status st) ws) as [s2 recs'] eqn:E2. intros [= <- <-] w0 r Hi. apply in_app_or in Hi. destruct Hi as [Hi|Hi]; [exact (H1 _ _ Hi)|].
    assert (Hs2 : b_exit set = true -> st_status st = Good) by (intros Hx; rewrite Hx in Eb; destruct (st_status st); simpl in Eb; try discriminate; auto).
    destruct (IH _ _ _ Hs2 E2 _ _ Hi) as (A & B). split; [right; auto|auto].
  Qed.
  Lemma stream_made bs : forall s s' recs, b_exit set = false -> stream cert_goal set s bs = (s', recs) ->
    forall w r, In (w, r) recs -> In w (concat bs) /\ exists s1, made s1 w r.
  Proof.
    induction bs as [|b bs IH]; intros s s' recs Hx; simpl; [intros [= <- <-] ? ? []|].
    destruct (process_batch cert_goal set s b) as [s1 recs1] eqn:E.
    assert (H1 : forall w r, In (w, r) recs1 -> In w (b ++ concat bs) /\ exists s1, made s1 w r).
    { intros w r Hi. unfold process_batch in E. destruct (is_error s); [injection E as <- <-; destruct Hi|].
      destruct (modules_made b s s1 recs1 ltac:(congruence) E w r Hi) as (A & s2 & _ & B). split; [apply in_or_app; auto|eauto]. }
    destruct (is_error s1); [intros [= <- <-]; exact H1|]. destruct (stream cert_goal set s1 bs) as [s2 recs2] eqn:E2. intros [= <- <-] w r Hi.
    apply in_app_or in Hi. destruct Hi as [Hi|Hi]; [exact (H1 _ _ Hi)|]. destruct (IH _ _ _ Hx E2 _ _ Hi). split; [apply in_or_app; auto|auto].
  Qed.
End StreamProofs.
