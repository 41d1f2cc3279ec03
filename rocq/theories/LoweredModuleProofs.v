(** Lemmas about LoweredModule.v. *)
From Coq Require Import List Arith Bool Lia.
Import ListNotations.
From Verif Require Import LoweredModule.

Section Proofs.
  Context {F G : Type}.
  Notation node := (lnode F G).
  Notation modul := (lmodule F G).

  Section Ind.
    Context (P : node -> Prop) (H1 : forall f i, P (NStruct f i)) (H2 : forall g f i, P (NClaim g f i)) (H3 : forall ns e, Forall P ns -> P (NBlock ns e)).
    Fixpoint lnode_ind' (n : node) : P n :=
      match n with
      | NStruct f i => H1 f i
      | NClaim g f i => H2 g f i
      | NBlock ns e => H3 ns e ((fix go l : Forall P l := match l with [] => Forall_nil _ | x :: l => Forall_cons _ (lnode_ind' x) (go l) end) ns)
      end.
  End Ind.

  (** What the walk over an item does, and what [visible_item] finds: the goals of the item are numbered from [length (l_goals m)]. *)
  Definition walk_ok (m m' : modul) (proc proc' : list nat) (L : list (nat * list nat)) (vis : nat -> list nat + list nat) (cl : list (nat * nat)) : Prop :=
    exists k j, length (l_goals m') = length (l_goals m) + k /\ length (l_facts m') = length (l_facts m) + j /\
      map fst L = seq (length (l_goals m)) k /\
      (forall g V, In (g, V) L -> vis g = inl V) /\
      (forall g, ~ In g (map fst L) -> vis g = inr proc') /\
      ((forall v, In v proc -> v < length (l_facts m)) -> (forall v, In v proc' -> v < length (l_facts m')) /\
        Forall2 (fun e c => fst e = fst c /\ forall v, In v (snd e) -> v < snd c) L cl).
  Definition node_ok (n : node) := forall top m it m', lower_node top n m = (it, m') -> forall proc, exists proc' L,
    (forall log, verify_item top it (proc, log) = (proc', log ++ L)) /\ walk_ok m m' proc proc' L (fun g => visible_item g it proc) (claims it).
  Definition nodes_ok (ns : list node) := forall top m its m', lower_nodes top ns m = (its, m') -> forall proc, exists proc' L,
    (forall log, verify_items top its (proc, log) = (proc', log ++ L)) /\ walk_ok m m' proc proc' L (fun g => visible_list (visible_item g) its proc) (flat_map claims its).

  Lemma list_ok ns : Forall node_ok ns -> nodes_ok ns.
  Proof.
    induction 1 as [|n ns Hn Hns IH]; intros top m its m' E proc.
    - injection E as <- <-. exists proc, []. split; [intros log; simpl; rewrite app_nil_r; auto|].
      exists 0, 0. rewrite !Nat.add_0_r. do 3 (split; [auto|]). split; [intros g V []|]. split; [auto|]. intros H. split; auto. constructor.
    - change (lower_nodes top (n :: ns) m) with (let (i, m) := lower_node top n m in let (is, m) := lower_nodes top ns m in (i :: is, m)) in E.
      destruct (lower_node top n m) as [i m1] eqn:E1. destruct (lower_nodes top ns m1) as [is m2] eqn:E2. injection E as <- <-.
      destruct (Hn _ _ _ _ E1 proc) as (p1 & L1 & V1 & k1 & j1 & A1 & A2 & A3 & A4 & A5 & A6).
      destruct (IH _ _ _ _ E2 p1) as (p2 & L2 & V2 & k2 & j2 & B1 & B2 & B3 & B4 & B5 & B6).
      exists p2, (L1 ++ L2). split; [intros log; unfold verify_items; simpl; rewrite V1; unfold verify_items in V2; rewrite V2, app_assoc; auto|].
      exists (k1 + k2), (j1 + j2). split; [lia|]. split; [lia|]. split; [rewrite map_app, A3, B3, seq_app; f_equal; f_equal; lia|]. split; [|split].
      + intros g V Hi. simpl. apply in_app_or in Hi. destruct Hi as [Hi|Hi]; [rewrite (A4 g V Hi); auto|].
        rewrite A5; [apply (B4 g V Hi)|]. rewrite A3. intros X. apply (in_map fst) in Hi. rewrite B3 in Hi. simpl in Hi. apply in_seq in X. apply in_seq in Hi. lia.
      + intros g Hg. rewrite map_app in Hg. simpl. rewrite A5 by (intros X; apply Hg, in_or_app; auto). apply B5. intros X. apply Hg, in_or_app. auto.
      + intros Hp. destruct (A6 Hp) as [X1 X2]. destruct (B6 X1) as [Y1 Y2]. split; auto. simpl. apply Forall2_app; auto.
  Qed.
  Lemma nodes_all ns : nodes_ok ns.
  Proof.
    apply list_ok. apply Forall_forall. intros n _. clear ns. induction n as [f i|g f i|ns e IH] using lnode_ind'; intros top m it m' E proc.
    - injection E as <- <-. exists (proc ++ [length (l_facts m)]), []. split; [intros log; simpl; rewrite app_nil_r; auto|].
      exists 0, 1. simpl. rewrite app_length. simpl. do 3 (split; [auto|]). split; [intros g V []|]. split; [auto|]. intros H. split; [|constructor].
      intros v Hv. apply in_app_or in Hv. destruct Hv as [Hv|[<-|[]]]; [specialize (H v Hv)|]; lia.
    - injection E as <- <-. exists (proc ++ [length (l_facts m)]), [(length (l_goals m), proc)]. split; [intros log; simpl; auto|].
      exists 1, 1. simpl. rewrite !app_length. simpl. do 3 (split; [auto|]). split; [|split].
      + intros x V [[= <- <-]|[]]. rewrite Nat.eqb_refl. auto.
      + intros x Hx. destruct (Nat.eqb_spec (length (l_goals m)) x); auto. destruct Hx. auto.
      + intros H. split; [|constructor; auto; constructor].
        intros v Hv. apply in_app_or in Hv. destruct Hv as [Hv|[<-|[]]]; [specialize (H v Hv)|]; lia.
    - cbn [lower_node] in E. destruct (lower_list (lower_node false) ns m) as [is m1] eqn:E1.
      destruct (list_ok ns IH false m is m1 E1 proc) as (p1 & L & V1 & k & j & A1 & A2 & A3 & A4 & A5 & A6).
      assert (Log : forall log, (if match is with [] => true | _ => false end && top then log else snd (fold_left (fun st i => verify_item false i st) is (proc, log))) = log ++ L).
      { intros log. destruct is as [|x is]; simpl; [|pose proof (V1 log) as X; unfold verify_items in X; simpl in X; rewrite X; auto].
        pose proof (V1 log) as X. unfold verify_items in X. simpl in X. injection X as _ X. destruct top; auto. }
      destruct e as [[f imp]|]; injection E as <- <-.
      + exists (proc ++ [length (l_facts m1)]), L. split; [intros log; cbn [verify_item]; rewrite Log; auto|].
        exists k, (j + 1). simpl. rewrite app_length. simpl. split; [auto|]. split; [lia|]. split; [auto|]. split; [intros g V Hi; rewrite (A4 g V Hi); auto|].
        split; [intros g Hg; rewrite (A5 g Hg); auto|]. intros H. destruct (A6 H) as [X1 X2]. split; auto.
        intros v Hv. apply in_app_or in Hv. destruct Hv as [Hv|[<-|[]]]; [specialize (H v Hv)|]; lia.
      + exists proc, L. split; [intros log; cbn [verify_item]; rewrite Log; auto|].
        exists k, j. simpl. split; [auto|]. split; [lia|]. split; [auto|]. split; [intros g V Hi; rewrite (A4 g V Hi); auto|].
        split; [intros g Hg; rewrite (A5 g Hg); auto|]. intros H. destruct (A6 H) as [X1 X2]. split; auto.
        intros v Hv. specialize (H v Hv). lia.
  Qed.

  (** Lowering only adds facts and goals at the end; the exports are ids of facts of the top level. *)
  Definition grows (m m' : modul) := (exists a, l_facts m' = l_facts m ++ a) /\ exists b, l_goals m' = l_goals m ++ b.
  Lemma grows_refl m : grows m m.
  Proof. split; exists []; rewrite app_nil_r; auto. Qed.
  Lemma grows_trans m1 m2 m3 : grows m1 m2 -> grows m2 m3 -> grows m1 m3.
  Proof. intros [[a A] [b B]] [[c C] [d D]]. split; [exists (a ++ c); rewrite C, A, app_assoc | exists (b ++ d); rewrite D, B, app_assoc]; auto. Qed.
  Lemma lower_cons top n ns (m : modul) : lower_nodes top (n :: ns) m = let (i, m1) := lower_node top n m in let (is, m2) := lower_nodes top ns m1 in (i :: is, m2).
  Proof. reflexivity. Qed.
  Lemma lower_grows (ns : list node) : forall top m its m', lower_nodes top ns m = (its, m') -> grows m m' /\ (top = false -> l_exports m' = l_exports m).
  Proof.
    assert (K : forall l, Forall (fun n : node => forall top m it m', lower_node top n m = (it, m') -> grows m m' /\ (top = false -> l_exports m' = l_exports m)) l ->
      forall top m its m', lower_nodes top l m = (its, m') -> grows m m' /\ (top = false -> l_exports m' = l_exports m)).
    { induction 1 as [|n l Hn Hl IH]; intros top m its m' E; [injection E as <- <-; split; auto; apply grows_refl|].
      rewrite lower_cons in E. destruct (lower_node top n m) as [i m1] eqn:E1. destruct (lower_nodes top l m1) as [is m2] eqn:E2. injection E as <- <-.
      destruct (Hn _ _ _ _ E1) as [A1 A2]. destruct (IH _ _ _ _ E2) as [B1 B2]. split; [eapply grows_trans; eauto|]. intros X. rewrite B2, A2; auto. }
    apply K. apply Forall_forall. intros n _. clear ns. induction n as [f i|g f i|ns e IH] using lnode_ind'; intros top m it m' E.
    - injection E as <- <-. split; [split; simpl; [eauto|exists []; rewrite app_nil_r; auto]|]. intros ->. auto.
    - injection E as <- <-. split; [split; simpl; eauto|]. intros ->. auto.
    - cbn [lower_node] in E. destruct (lower_list (lower_node false) ns m) as [is m1] eqn:E1. destruct (K ns IH _ _ _ _ E1) as [A B].
      destruct e as [[f imp]|]; injection E as <- <-.
      + split; [|intros ->; simpl; auto]. eapply grows_trans; [exact A|]. split; simpl; [eauto|exists []; rewrite app_nil_r; auto].
      + split; [auto|]. intros _. auto.
  Qed.

  (** The facts that later nodes of the same level see *)
  Definition top_fact (n : node) : list F := match n with NStruct f _ => [f] | NClaim _ f _ => [f] | NBlock _ (Some (f, _)) => [f] | NBlock _ None => [] end.
  Definition top_facts (ns : list node) : list F := flat_map top_fact ns.
  Lemma nth_grows (m m' : modul) i f : grows m m' -> nth_error (l_facts m) i = Some f -> nth_error (l_facts m') i = Some f.
  Proof. intros [[a ->] _] E. rewrite nth_error_app1; auto. apply nth_error_Some. congruence. Qed.
  Lemma nth_grows_goal (m m' : modul) i g : grows m m' -> nth_error (l_goals m) i = Some g -> nth_error (l_goals m') i = Some g.
  Proof. intros [_ [a ->]] E. rewrite nth_error_app1; auto. apply nth_error_Some. congruence. Qed.
  Lemma nth_last {A} (l : list A) x : nth_error (l ++ [x]) (length l) = Some x.
  Proof. rewrite nth_error_app2, Nat.sub_diag by auto. auto. Qed.
  Lemma exports_top ns : forall m its m', lower_nodes true ns m = (its, m') -> forall id, In id (l_exports m') ->
    In id (l_exports m) \/ exists f, nth_error (l_facts m') id = Some f /\ In f (top_facts ns).
  Proof.
    induction ns as [|n ns IH]; intros m its m' E id Hi; [injection E as <- <-; auto|].
    rewrite lower_cons in E. destruct (lower_node true n m) as [i m1] eqn:E1. destruct (lower_nodes true ns m1) as [is m2] eqn:E2. injection E as <- <-.
    destruct (lower_grows _ _ _ _ _ E2) as [Gr _].
    destruct (IH _ _ _ E2 id Hi) as [H|(f & H1 & H2)]; [|right; exists f; split; auto; apply in_or_app; auto].
    assert (In id (l_exports m) \/ exists f, nth_error (l_facts m1) id = Some f /\ In f (top_fact n)) as [X|(f & X1 & X2)]; [|auto|right; exists f; split; [eapply nth_grows; eauto|apply in_or_app; auto]].
    assert (K : forall (imp : bool) (x : nat) l, In id (if imp then l ++ [x] else l) -> In id l \/ id = x).
    { intros [] x l X; auto. apply in_app_or in X. destruct X as [X|[X|[]]]; auto. }
    destruct n as [f imp|g f imp|b [[f imp]|]].
    - injection E1 as <- <-. simpl in *. destruct (K _ _ _ H) as [X| ->]; auto. right. exists f. split; [apply nth_last|auto].
    - injection E1 as <- <-. simpl in *. destruct (K _ _ _ H) as [X| ->]; auto. right. exists f. split; [apply nth_last|auto].
    - cbn [lower_node] in E1. destruct (lower_list (lower_node false) b m) as [ib mb] eqn:Eb. destruct (lower_grows b false _ _ _ Eb) as [_ Xb]. injection E1 as <- <-.
      simpl in *. destruct (K _ _ _ H) as [X| ->]; [rewrite Xb in X; auto|]. right. exists f. split; [apply nth_last|auto].
    - cbn [lower_node] in E1. destruct (lower_list (lower_node false) b m) as [ib mb] eqn:Eb. destruct (lower_grows b false _ _ _ Eb) as [_ Xb]. injection E1 as <- <-.
      rewrite Xb in H; auto.
  Qed.

  Section Meaning.
    Context {W : Type} (holdsF : F -> W -> Prop) (holdsG : G -> W -> Prop) (inner : list node -> W -> W -> Prop).
    Notation all fs w := (Forall (fun f => holdsF f w) fs).

    (** What elaboration ensures of the nodes of one level.  [D]: the worlds of the level; [vis]: the facts seen there; [dn]: the earlier blocks
        of the level; [inner b w w']: [w'] is a world of the interior of [b], which extends [w] by values for the arguments of [b] that satisfy
        its premise. *)
    Inductive scoped : (W -> Prop) -> list F -> list (list node) -> list node -> Prop :=
    | sc_nil (D : W -> Prop) vis dn : scoped D vis dn []
    | sc_struct (D : W -> Prop) vis dn f imp ns : (forall w, D w -> all vis w -> holdsF f w) -> scoped D (vis ++ [f]) dn ns -> scoped D vis dn (NStruct f imp :: ns)
    | sc_claim (D : W -> Prop) vis dn g f imp ns : (forall w, D w -> holdsG g w -> holdsF f w) -> scoped D (vis ++ [f]) dn ns -> scoped D vis dn (NClaim g f imp :: ns)
    | sc_block (D : W -> Prop) vis dn b e ns :
        (forall w w', D w -> all vis w -> inner b w w' -> all vis w') ->
        scoped (fun w' => exists w, D w /\ all vis w /\ inner b w w') vis [] b ->
        (forall f imp, e = Some (f, imp) -> forall w, D w -> all vis w ->
           (forall b' w', In b' (b :: dn) -> inner b' w w' -> all (top_facts b') w') -> holdsF f w) ->
        scoped D (vis ++ match e with Some (f, _) => [f] | None => [] end) (b :: dn) ns -> scoped D vis dn (NBlock b e :: ns).

    (** The goal [g] follows from the facts [V] in all worlds. *)
    Definition follows (m : modul) (g : nat) (V : list nat) : Prop :=
      forall gg, nth_error (l_goals m) g = Some gg -> forall w, (forall id f, In id V -> nth_error (l_facts m) id = Some f -> holdsF f w) -> holdsG gg w.

    Lemma sees (M : modul) proc vis w : Forall2 (fun id f => nth_error (l_facts M) id = Some f) proc vis -> all vis w ->
      forall id f, In id proc -> nth_error (l_facts M) id = Some f -> holdsF f w.
    Proof. induction 1; intros A id g []; inversion_clear A; [subst; intros; congruence|eauto]. Qed.
    Lemma verify_app (ns : list node) top m its m' proc log : lower_nodes top ns m = (its, m') -> 
      exists L, snd (verify_items top its (proc, log)) = log ++ L /\ snd (verify_items top its (proc, [])) = L.
    Proof. intros E. destruct (nodes_all ns top m its m' E proc) as (p & L & V & _). exists L. rewrite !V. auto. Qed.

    Lemma scoped_sound D vis dn ns : scoped D vis dn ns -> forall top m its m' M proc, lower_nodes top ns m = (its, m') -> grows m' M ->
      Forall2 (fun id f => nth_error (l_facts M) id = Some f) proc vis ->
      (forall g V, In (g, V) (snd (verify_items top its (proc, []))) -> follows M g V) ->
      (forall b w w', In b dn -> D w -> all vis w -> inner b w w' -> all (top_facts b) w') ->
      forall w, D w -> all vis w -> all (top_facts ns) w.
    Proof.
      induction 1 as [D vis dn|D vis dn f imp ns Hf Hns IH|D vis dn g f imp ns Hf Hns IH|D vis dn b e ns Hp Hb IHb He Hns IH];
        intros top m its m' M proc E Gr Hproc Hlog Hdn w Dw Vw; [constructor| | |];
        rewrite lower_cons in E; destruct (lower_node top _ m) as [i m1] eqn:E1; destruct (lower_nodes top ns m1) as [is m2] eqn:E2; injection E as <- <-;
        destruct (lower_grows _ _ _ _ _ E2) as [Gr1 _]; pose proof (grows_trans _ _ _ Gr1 Gr) as Gr2.
      - injection E1 as <- <-. pose proof (Hf w Dw Vw) as X. change (top_facts (NStruct f imp :: ns)) with (f :: top_facts ns). constructor; auto.
        eapply (IH top _ _ _ M (proc ++ [length (l_facts m)]) E2 Gr); eauto.
        + apply Forall2_app; auto. constructor; auto. eapply nth_grows; [exact Gr2|]. apply nth_last.
        + intros b x x' Hi Dx Vx. apply Forall_app in Vx. destruct Vx. apply Hdn; auto.
        + apply Forall_app. auto.
      - injection E1 as <- <-. unfold verify_items in Hlog. simpl in Hlog. fold (verify_items top is) in Hlog.
        change (fold_left (fun st i => verify_item top i st) is) with (verify_items top is) in Hlog.
        destruct (verify_app _ _ _ _ _ (proc ++ [length (l_facts m)]) [(length (l_goals m), proc)] E2) as (L & L1 & L2). rewrite L1 in Hlog.
        assert (X : holdsF f w).
        { apply Hf; auto. apply (Hlog (length (l_goals m)) proc (or_introl eq_refl)); [eapply nth_grows_goal; [exact Gr2|]; apply nth_last|]. eapply sees; eauto. }
        change (top_facts (NClaim g f imp :: ns)) with (f :: top_facts ns). constructor; auto.
        eapply (IH top _ _ _ M (proc ++ [length (l_facts m)]) E2 Gr); eauto.
        + apply Forall2_app; auto. constructor; auto. eapply nth_grows; [exact Gr2|]. apply nth_last.
        + rewrite L2. intros x V Hi. apply Hlog. right. auto.
        + intros b x x' Hi Dx Vx. apply Forall_app in Vx. destruct Vx. apply Hdn; auto.
        + apply Forall_app. auto.
      - cbn [lower_node] in E1. destruct (lower_list (lower_node false) b m) as [ib mb] eqn:Eb.
        assert (Gb : grows mb m1) by (destruct e as [[f imp]|]; injection E1 as <- <-; [split; simpl; [eauto|exists []; rewrite app_nil_r; auto]|apply grows_refl]).
        pose proof (grows_trans _ _ _ Gb Gr2) as Gb2.
        set (blog := snd (verify_items false ib (proc, []))).
        assert (Ei : exists ext, i = IBlock ib ext) by (destruct e as [[f imp]|]; injection E1 as <- <-; eauto). destruct Ei as [ext ->].
        assert (Ebl : (if match ib with [] => true | _ => false end && top then [] else blog) = blog) by (destruct ib; auto; destruct top; auto).
        set (proc1 := match ext with Some f => proc ++ [f] | None => proc end).
        assert (Hl : snd (verify_items top (IBlock ib ext :: is) (proc, [])) = snd (verify_items top is (proc1, blog))).
        { unfold verify_items at 1. cbn [fold_left verify_item]. change (fold_left (fun st i => verify_item false i st) ib) with (verify_items false ib). fold blog. rewrite Ebl. auto. }
        rewrite Hl in Hlog. destruct (verify_app _ _ _ _ _ proc1 blog E2) as (L & L1 & L2). rewrite L1 in Hlog.
        assert (Hin : forall x x', D x -> all vis x -> inner b x x' -> all (top_facts b) x').
        { intros x x' Dx Vx Ix. eapply (IHb false _ _ _ M proc Eb Gb2 Hproc); [intros g V Hi; apply Hlog, in_or_app; auto|intros ? ? ? []|exists x; auto|eapply Hp; eauto]. }
        assert (Hdn2 : forall b' x x', In b' (b :: dn) -> D x -> all vis x -> inner b' x x' -> all (top_facts b') x') by (intros b' x x' [<-|Hi]; eauto).
        assert (X : all match e with Some (f, _) => [f] | None => [] end w).
        { destruct e as [[f imp]|]; constructor; auto. eapply He; eauto. }
        change (top_facts (NBlock b e :: ns)) with (top_fact (NBlock b e) ++ top_facts ns). apply Forall_app. split; [destruct e as [[]|]; auto|].
        eapply (IH top _ _ _ M proc1 E2 Gr); eauto.
        + destruct e as [[f imp]|]; injection E1 as <- <-; unfold proc1; [|rewrite app_nil_r; auto].
          apply Forall2_app; auto. constructor; auto. eapply nth_grows; [exact Gr2|]. apply nth_last.
        + rewrite L2. intros g V Hi. apply Hlog, in_or_app. auto.
        + intros b' x x' Hi Dx Vx. apply Forall_app in Vx. destruct Vx. apply Hdn2; auto.
        + apply Forall_app. auto.
    Qed.
  End Meaning.
End Proofs.
