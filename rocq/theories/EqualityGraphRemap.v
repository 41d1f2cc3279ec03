(** [remap_group] keeps the structural invariant of the equality graph. *)
From Coq Require Import List Arith NArith Bool Lia Permutation.
Import ListNotations.
From Verif Require Import Term Literal Clause SemFacts ClauseSet ClauseSetProofs P_ClauseSet EqualityGraph EqualityGraphProofs EqualityGraphClosure.

(** ** terms *)
Definition relabel (ts : list nat) (new i : nat) (ti : tinfo) : tinfo :=
  TI (ti_term ti) (if memb i ts then new else ti_group ti) (ti_decomp ti).
Lemma move_terms_wp s new ts : (forall t, In t ts -> t < length (eg_terms s)) ->
  wp (move_terms s new ts) (fun s' => exists l, s' = set_terms s l /\ length l = length (eg_terms s) /\
    forall i, nth_error l i = option_map (relabel ts new i) (nth_error (eg_terms s) i)).
Proof.
  intros Hts. unfold move_terms. apply wp_bind.
  set (l0 := eg_terms s) in *.
  (* [done]: those not in the rest *)
  eapply wp_mono; [|apply (wp_foldm _ (fun r l => (exists done, ts = done ++ r /\ length l = length l0 /\
     forall i, nth_error l i = option_map (relabel done new i) (nth_error l0 i))))].
  - intros l (done & E & L & N). rewrite app_nil_r in E. subst done. simpl. eauto.
  - exists []. split; auto. split; auto. intros i. destruct (nth_error l0 i) as [[]|]; auto.
  - intros x r l (done & E & L & N). assert (Hx : x < length l0) by (apply Hts; rewrite E; apply in_app_iff; simpl; auto).
    destruct (nth_error l0 x) as [t|] eqn:Ex; [|apply nth_error_None in Ex; lia]. apply wp_bind.
    apply wp_unwrap with (a := relabel done new x t); [rewrite N, Ex; auto|]. simpl. exists (done ++ [x]). split; [rewrite <- app_assoc; auto|].
    split; [rewrite upd_length; auto|]. intros i. rewrite nth_upd, N. unfold relabel, memb. rewrite existsb_app. simpl.
    destruct (Nat.eqb_spec x i) as [<-|Ni].
    + rewrite Ex. simpl. rewrite Nat.eqb_refl, orb_true_r. auto.
    + destruct (nth_error l0 i) as [u|]; simpl; auto. destruct (Nat.eqb_spec i x); [congruence|]. rewrite !orb_false_r. auto.
Qed.

(** ** applications *)
Section Apps.
Context (old new : nat) (Hon : old <> new).
Context (gs : list pgroup) (ap0 : list (option appinfo)) (am0 : list ((nat * nat) * nat)) (s2 : egraph).
Notation kr := (key_remap old new).
Notation live g i := (nth_error gs g = Some (Info i)).
Notation get := (map_get key_eqb).

Record inv3 (R : list nat) (ap : list (option appinfo)) (am : list ((nat * nat) * nat)) (pe : list semop) (keep : list nat) : Prop := {
  v_app : forall k a, nth_error ap k = Some (Some a) -> get am (ai_key a) = Some (ai_res a) /\ ai_res a < length gs;
  v_map : forall q r, get am q = Some r -> exists k, nth_error ap k = Some (Some (AI q r));
  v_inj : forall k k' a a', nth_error ap k = Some (Some a) -> nth_error ap k' = Some (Some a') -> ai_key a = ai_key a' -> k = k';
  v_len : length ap = length ap0;
  v_old : forall k a, nth_error ap k = Some (Some a) -> fst (ai_key a) = old \/ snd (ai_key a) = old -> In k R;
  v_grp : forall k a g, nth_error ap k = Some (Some a) -> g = fst (ai_key a) \/ g = snd (ai_key a) ->
    exists gi, live g gi /\ (In k (gi_apps gi) \/ (g = new /\ In k keep));
  v_keep : forall k, In k keep -> k < length ap;
  v_rest : forall k, In k R -> k < length ap;
  v_cover : forall q r0, get am0 q = Some r0 -> exists q' r, (q' = q \/ q' = kr q) /\ get am q' = Some r /\ by_pending pe r0 r;
  v_pend : exists l, pe = l ++ eg_pending s2 /\ forall o, In o l -> exists a b, o = OEq a b /\ a < length gs /\ b < length gs
}.

Lemma kr_idem q : kr (kr q) = kr q.
Proof. destruct q as [f a]. unfold key_remap; simpl. destruct (Nat.eqb_spec f old), (Nat.eqb_spec a old); simpl;
  rewrite ?(proj2 (Nat.eqb_neq new old)) by auto; rewrite ?(proj2 (Nat.eqb_neq f old)), ?(proj2 (Nat.eqb_neq a old)) by auto; auto. Qed.
Lemma kr_no q : fst (kr q) <> old /\ snd (kr q) <> old.
Proof. destruct q as [f a]. unfold key_remap; simpl. destruct (Nat.eqb_spec f old), (Nat.eqb_spec a old); auto. Qed.
Lemma kr_same q : fst q <> old -> snd q <> old -> kr q = q.
Proof. destruct q as [f a]. unfold key_remap; simpl. intros. rewrite !(proj2 (Nat.eqb_neq _ old)) by auto. auto. Qed.
Lemma kr_in q g : g = fst (kr q) \/ g = snd (kr q) -> g = new \/ g = fst q \/ g = snd q.
Proof. destruct q as [f a]. unfold key_remap; simpl. destruct (Nat.eqb_spec f old), (Nat.eqb_spec a old); simpl; tauto. Qed.
Lemma key_cases q q' : key_eqb q q' = true /\ q = q' \/ key_eqb q q' = false /\ q <> q'.
Proof. destruct (key_eqb q q') eqn:E; [left|right]; split; auto; [apply key_eqb_eq; auto|intros ->; rewrite (proj2 (key_eqb_eq _ _) eq_refl) in E; discriminate]. Qed.
Lemma by_pending_mono l pe a b : by_pending pe a b -> by_pending (l ++ pe) a b.
Proof. intros H E HE HP. apply H; auto. intros x y Hxy. apply HP. apply in_app_iff; auto. Qed.
Lemma by_pending_refl pe a : by_pending pe a a. Proof. intros E (R & _) _. apply R. Qed.
Lemma by_pending_trans pe a b c : by_pending pe a b -> by_pending pe b c -> by_pending pe a c.
Proof. intros H1 H2 E HE HP. pose proof (H1 E HE HP). pose proof (H2 E HE HP). destruct HE as (_ & _ & T). eauto. Qed.
Lemma by_pending_in pe a b : In (OEq a b) pe -> by_pending pe a b. Proof. intros H E HE HP. auto. Qed.

Lemma move_application_wp nl x R ap am pe keep : live new nl -> inv3 (x :: R) ap am pe keep ->
  wp (move_application old new (set_pending (set_apps s2 ap am) pe, keep) x)
     (fun sk => exists ap' am' pe', fst sk = set_pending (set_apps s2 ap' am') pe' /\ inv3 R ap' am' pe' (snd sk)).
Proof.
  intros Hnew [V1 V2 V3 V4 V5 V6 V7 V8 V9 V10]. unfold move_application. cbn [eg_apps eg_amap set_pending set_apps].
  assert (Hx : x < length ap) by (apply V8; simpl; auto).
  destruct (nth_error ap x) as [o|] eqn:Ex; [|apply nth_error_None in Ex; lia]. simpl unwrap. cbn [rbind].
  destruct o as [app|].
  - destruct (V1 _ _ Ex) as [Va Vn]. set (q := ai_key app) in *. set (am1 := map_remove key_eqb am q).
    assert (G1 : forall q', get am1 q' = if key_eqb q q' then None else get am q') by (intros; apply (get_remove key_eqb key_eqb_eq)).
    assert (Other : forall k a, k <> x -> nth_error ap k = Some (Some a) -> ai_key a <> q).
    { intros k a Nk Hk E. apply Nk. eapply V3; eauto. }
    destruct (get am1 (kr q)) as [ex|] eqn:Gx; cbn [wp fst snd].
    + (* the relation exists already *)
      assert (Nq : q <> kr q) by (intros E; rewrite G1, <- E, (proj2 (key_eqb_eq q q) eq_refl) in Gx; discriminate).
      assert (Gx' : get am (kr q) = Some ex) by (rewrite G1 in Gx; destruct (key_eqb q (kr q)); [discriminate|auto]).
      exists (upd ap x None), am1, (OEq (ai_res app) ex :: pe). split; [reflexivity|].
      assert (U : forall k a, nth_error (upd ap x None) k = Some (Some a) -> k <> x /\ nth_error ap k = Some (Some a)).
      { intros k a Hk. apply nth_upd_cases in Hk. destruct Hk as [[_ Hk]|[Nk Hk]]; [discriminate|auto]. }
      constructor.
      * intros k a Hk. apply U in Hk. destruct Hk as [Nk Hk]. rewrite G1. destruct (key_cases q (ai_key a)) as [[E1 E]|[E1 E]]; rewrite E1; [|exact (V1 _ _ Hk)].
        exfalso. eapply Other; eauto.
      * intros q' r Hq. rewrite G1 in Hq. destruct (key_cases q q') as [[E _]|[E Nq']]; rewrite E in Hq; [discriminate|].
        destruct (V2 _ _ Hq) as (k & Hk). exists k. rewrite nth_upd. destruct (Nat.eqb_spec x k) as [<-|_]; auto.
        exfalso. rewrite Ex in Hk. injection Hk as ->. unfold q in Nq'. simpl in Nq'. auto.
      * intros k k' a a' Hk Hk'. apply U in Hk, Hk'. eapply V3; tauto.
      * rewrite upd_length. auto.
      * intros k a Hk Ho. apply U in Hk. destruct Hk as [Nk Hk]. destruct (V5 _ _ Hk Ho); [congruence|auto].
      * intros k a g Hk. apply U in Hk. eapply V6; tauto.
      * intros k Hk. rewrite upd_length. auto.
      * intros k Hk. rewrite upd_length. apply V8; simpl; auto.
      * intros q0 r0 Hq0. destruct (V9 _ _ Hq0) as (q' & r & C1 & C2 & C3).
        destruct (key_cases q q') as [[E <-]|[E Nq']].
        -- exists (kr q), ex. split.
           { destruct C1 as [->|C1]; auto. exfalso. apply Nq. rewrite C1, kr_idem. auto. }
           split; auto. rewrite Va in C2. injection C2 as <-.
           apply by_pending_trans with (ai_res app); [apply (by_pending_mono [_]); auto|]. apply by_pending_in. simpl; auto.
        -- exists q', r. split; auto. rewrite G1, E. split; auto. apply (by_pending_mono [_]); auto.
      * destruct V10 as (l & -> & Hl). exists (OEq (ai_res app) ex :: l). split; auto.
        intros o [<-|Ho]; auto. exists (ai_res app), ex. split; auto. split; auto.
        destruct (V2 _ _ Gx') as (k & Hk). apply V1 in Hk. simpl in Hk. tauto.
    + set (am2 := map_set key_eqb am1 (kr q) (ai_res app)).
      assert (G2 : forall q', get am2 q' = if key_eqb (kr q) q' then Some (ai_res app) else get am1 q') by (intros; apply (get_set key_eqb key_eqb_eq)).
      assert (Free : forall q' r, get am q' = Some r -> q' <> q -> kr q <> q').
      { intros q' r Hq Nq' E. rewrite G1 in Gx. destruct (key_cases q (kr q)) as [[_ E']|[E' _]]; [congruence|]. rewrite E', E, Hq in Gx. discriminate. }
      exists (upd ap x (Some (AI (kr q) (ai_res app)))), am2, pe. split; [reflexivity|].
      assert (U : forall k a, nth_error (upd ap x (Some (AI (kr q) (ai_res app)))) k = Some (Some a) ->
        (k = x /\ a = AI (kr q) (ai_res app)) \/ (k <> x /\ nth_error ap k = Some (Some a))).
      { intros k a Hk. apply nth_upd_cases in Hk. destruct Hk as [[-> Hk]|[Nk Hk]]; [left; split; congruence|auto]. }
      assert (G3 : forall q' r, get am q' = Some r -> q' <> q -> get am2 q' = Some r).
      { intros q' r Hq Nq'. rewrite G2, G1. destruct (key_cases (kr q) q') as [[_ E]|[-> _]]; [exfalso; eapply Free; eauto|].
        destruct (key_cases q q') as [[_ E]|[-> _]]; [congruence|auto]. }
      assert (G4 : get am2 (kr q) = Some (ai_res app)) by (rewrite G2, (proj2 (key_eqb_eq _ _) eq_refl); auto).
      constructor.
      * intros k a Hk. apply U in Hk. destruct Hk as [[-> ->]|[Nk Hk]]; [auto|]. destruct (V1 _ _ Hk). split; auto. apply G3; auto. eapply Other; eauto.
      * intros q' r Hq. rewrite G2 in Hq. destruct (key_cases (kr q) q') as [[E <-]|[E Nq']]; rewrite E in Hq.
        -- injection Hq as <-. exists x. rewrite nth_upd, Nat.eqb_refl, Ex. auto.
        -- rewrite G1 in Hq. destruct (key_cases q q') as [[E' _]|[E' Nq2]]; rewrite E' in Hq; [discriminate|].
           destruct (V2 _ _ Hq) as (k & Hk). exists k. rewrite nth_upd. destruct (Nat.eqb_spec x k) as [<-|_]; auto.
           exfalso. rewrite Ex in Hk. injection Hk as ->. unfold q in Nq2. simpl in Nq2. auto.
      * assert (W : forall k a, k <> x -> nth_error ap k = Some (Some a) -> ai_key a <> kr q).
        { intros k a Nk Hk E. destruct (V1 _ _ Hk) as [Hm _]. apply (Free _ _ Hm); eauto. }
        intros k k' a a' Hk Hk' E. apply U in Hk, Hk'. destruct Hk as [[-> ->]|[Nk Hk]], Hk' as [[-> ->]|[Nk' Hk']]; auto.
        -- exfalso. apply (W _ _ Nk' Hk'). auto.
        -- exfalso. apply (W _ _ Nk Hk). auto.
        -- eapply V3; eauto.
      * rewrite upd_length. auto.
      * intros k a Hk Ho. apply U in Hk. destruct Hk as [[-> ->]|[Nk Hk]]; [simpl in Ho; destruct (kr_no q); tauto|].
        destruct (V5 _ _ Hk Ho); [congruence|auto].
      * intros k a g Hk Hg. apply U in Hk. destruct Hk as [[-> ->]|[Nk Hk]].
        -- cbn [ai_key] in Hg. apply kr_in in Hg. destruct Hg as [->|Hg].
           ++ exists nl. split; auto. right. split; auto. apply in_app_iff. simpl; auto.
           ++ destruct (V6 _ _ g Ex) as (gi & L & I); [destruct Hg as [->| ->]; auto|]. exists gi. split; auto.
              destruct I as [I|[-> I]]; auto. right. split; auto. apply in_app_iff; auto.
        -- destruct (V6 _ _ g Hk Hg) as (gi & L & I). exists gi. split; auto. destruct I as [I|[-> I]]; auto. right. split; auto. apply in_app_iff; auto.
      * intros k Hk. rewrite upd_length. apply in_app_iff in Hk. destruct Hk as [Hk|[<-|[]]]; auto.
      * intros k Hk. rewrite upd_length. apply V8; simpl; auto.
      * intros q0 r0 Hq0. destruct (V9 _ _ Hq0) as (q' & r & C1 & C2 & C3).
        destruct (key_cases q' q) as [[E ->]|[E Nq']].
        -- exists (kr q), r. split; [right; destruct C1 as [->| ->]; auto using kr_idem|]. split; auto. rewrite Va in C2. injection C2 as <-. auto.
        -- exists q', r. auto.
      * auto.
  - cbn [wp fst snd]. exists ap, am, pe. split; [reflexivity|]. constructor; auto.
    + intros k a Hk Ho. destruct (V5 _ _ Hk Ho) as [<-|]; auto. congruence.
    + intros k Hk. apply V8; simpl; auto.
Qed.
End Apps.

(** ** inequalities *)
Definition newineq (old new g : nat) (i : ginfo) : list nat :=
  let rest := delete old (gi_ineq i) in
  if Nat.eqb g new then rest else if memb new rest then rest else new :: rest.
Definition renew (old new : nat) (done : list nat) (g : nat) (p : pgroup) : pgroup :=
  match p with
  | Info i => if memb g done then Info (GI (gi_terms i) (gi_apps i) (newineq old new g i)) else p
  | _ => p
  end.
Definition flagged (b : bool) (s : egraph) : egraph := if b then set_contra s else s.

Lemma move_inequalities_wp old new s order : NoDup order ->
  (forall g, In g order -> exists i, nth_error (eg_groups s) g = Some (Info i) /\ In old (gi_ineq i)) ->
  wp (foldm (move_inequality old new) order (s, [])) (fun sd => exists gs b, fst sd = set_groups (flagged b s) gs /\
    length gs = length (eg_groups s) /\ remapped gs = remapped (eg_groups s) /\
    (forall g, nth_error gs g = option_map (renew old new order g) (nth_error (eg_groups s) g)) /\ (In new order -> b = true)).
Proof.
  intros ND Ho. set (gs0 := eg_groups s) in *.
  eapply wp_mono; [|apply (wp_foldm _ (fun r sd => exists done gs b, order = done ++ r /\ fst sd = set_groups (flagged b s) gs /\
    length gs = length gs0 /\ remapped gs = remapped gs0 /\
    (forall g, nth_error gs g = option_map (renew old new done g) (nth_error gs0 g)) /\ (In new done -> b = true)))].
  - intros sd (done & gs & b & E & H). rewrite app_nil_r in E. subst done. eauto.
  - exists [], gs0, false. split; auto. split; [destruct s; reflexivity|]. repeat (split; auto).
    intros g. destruct (nth_error gs0 g) as [[|]|]; auto.
  - intros x r [s' disc] (done & gs & b & E & Es & L & Rm & P & B). cbn [fst] in Es. subst s'. unfold move_inequality.
    destruct (Ho x) as (i & Hx & Hin); [rewrite E; apply in_app_iff; simpl; auto|].
    assert (Nd : ~ In x done). { rewrite E in ND. apply NoDup_remove_2 in ND. intros H. apply ND. apply in_app_iff; auto. }
    assert (Px : nth_error gs x = Some (Info i)). { rewrite P, Hx. simpl. apply memb_nin in Nd. rewrite Nd. auto. }
    unfold get_group_info. cbn [eg_groups set_groups]. rewrite Px. cbn [rbind]. rewrite (proj2 (memb_in _ _) Hin).
    set (put := fun l => upd gs x (Info (GI (gi_terms i) (gi_apps i) l))).
    assert (K : forall b' disc', (b = true -> b' = true) -> (x = new -> b' = true) ->
      exists done' gs' b'', order = done' ++ r /\ fst (set_groups (flagged b' s) (put (newineq old new x i)), disc' : list (nat * nat)) = set_groups (flagged b'' s) gs' /\
      length gs' = length gs0 /\ remapped gs' = remapped gs0 /\
      (forall g, nth_error gs' g = option_map (renew old new done' g) (nth_error gs0 g)) /\ (In new done' -> b'' = true)).
    { intros b' disc' Hb Hb'. exists (done ++ [x]), (put (newineq old new x i)), b'. split; [rewrite <- app_assoc; auto|]. split; [reflexivity|].
      unfold put. split; [rewrite upd_length; auto|]. split.
      { pose proof (remapped_upd gs x _ (Info (GI (gi_terms i) (gi_apps i) (newineq old new x i))) Px) as Q. simpl in Q. lia. }
      split.
      - intros g. rewrite nth_upd, P. unfold renew, memb. rewrite existsb_app. cbn [existsb]. destruct (Nat.eqb_spec x g) as [<-|Ng].
        + rewrite Hx. cbn [option_map]. rewrite Nat.eqb_refl, orb_true_r. auto.
        + destruct (nth_error gs0 g) as [[|j]|]; cbn [option_map]; auto. destruct (Nat.eqb_spec g x); [congruence|]. rewrite !orb_false_r. auto.
      - intros Hn. apply in_app_iff in Hn. destruct Hn as [Hn|[Hn|[]]]; auto. }
    unfold newineq in K. destruct (Nat.eqb_spec x new) as [En|Nn].
    + apply wp_mono with (P := fun sd => sd = (set_groups (flagged true s) (put (delete old (gi_ineq i))), disc)); [intros sd ->; apply K; auto|].
      destruct b; reflexivity.
    + destruct (memb new (delete old (gi_ineq i))) eqn:M.
      * apply wp_mono with (P := fun sd => sd = (set_groups (flagged b s) (put (delete old (gi_ineq i))), disc)); [intros sd ->; apply K; auto; congruence|].
        reflexivity.
      * apply wp_mono with (P := fun sd => sd = (set_groups (flagged b s) (put (new :: delete old (gi_ineq i))), disc ++ [(x, new)])); [intros sd ->; apply K; auto; congruence|].
        reflexivity.
Qed.

Lemma delete_nodup x l : NoDup l -> NoDup (delete x l). Proof. apply NoDup_filter. Qed.
Lemma merge_nodup new l : forall i, NoDup i -> NoDup (fold_left (fun l g => if negb (Nat.eqb g new) && negb (memb g l) then g :: l else l) l i).
Proof.
  induction l as [|x l IH]; intros i Hi; simpl; auto. apply IH. destruct (negb (Nat.eqb x new)); simpl; auto.
  destruct (memb x i) eqn:E; simpl; auto. constructor; auto. apply memb_nin. auto.
Qed.
Lemma newineq_in old new g i h : In h (newineq old new g i) <-> (h <> old /\ In h (gi_ineq i)) \/ (h = new /\ g <> new).
Proof.
  unfold newineq. destruct (Nat.eqb_spec g new) as [->|Ng]; [rewrite delete_in; tauto|].
  destruct (memb new (delete old (gi_ineq i))) eqn:M.
  - apply memb_in in M. rewrite delete_in in *. split; [tauto|]. intros [?|[-> _]]; auto.
  - simpl. rewrite delete_in. split; [intros [<-|?]; auto|]. intros [?|[-> _]]; auto.
Qed.
Lemma newineq_nodup old new g i : NoDup (gi_ineq i) -> NoDup (newineq old new g i).
Proof.
  intros H. unfold newineq. pose proof (delete_nodup old _ H). destruct (Nat.eqb g new); auto.
  destruct (memb new (delete old (gi_ineq i))) eqn:M; auto. constructor; auto. apply memb_nin; auto.
Qed.

(** ** the groups after the merge *)
Section Merge.
Context (old new : nat) (Hon : old <> new) (gs0 gsF : list pgroup) (oi ni : ginfo) (keep ord1 ord2 : list nat).
Context (Hold : nth_error gs0 old = Some (Info oi)) (Hnew : nth_error gs0 new = Some (Info ni)).
Context (HI : iwf gs0) (O1 : forall x, In x ord1 <-> In x (gi_ineq oi)) (O2 : forall x, In x ord2 <-> In x (gi_ineq oi)).
Notation mid i := (if memb new ord1 then GI (gi_terms i) (gi_apps i) (newineq old new new i) else i).
Context (HF : forall g, nth_error gsF g =
  if Nat.eqb g new then Some (Info (merge_info new (mid ni) oi keep ord2))
  else if Nat.eqb g old then Some (Remapped new) else option_map (renew old new ord1 g) (nth_error gs0 g)).

Lemma old_rel h : In h (gi_ineq oi) <-> rel gs0 old h.
Proof. split; [intros H; exists oi; auto|]. intros (i & H & I). rewrite Hold in H. injection H as <-. auto. Qed.
Lemma ord_rel h : memb h ord1 = true <-> rel gs0 old h. Proof. rewrite memb_in, O1. apply old_rel. Qed.

Lemma merged_live g i : nth_error gsF g = Some (Info i) -> g <> old /\ exists i0, nth_error gs0 g = Some (Info i0) /\
  NoDup (gi_ineq i) /\
  gi_terms i = gi_terms i0 ++ (if Nat.eqb g new then gi_terms oi else []) /\
  gi_apps i = gi_apps i0 ++ (if Nat.eqb g new then keep else []) /\
  forall h, In h (gi_ineq i) <-> h <> old /\ h <> g /\ (rel gs0 g h \/ (g = new /\ rel gs0 old h) \/ (h = new /\ rel gs0 g old)).
Proof.
  rewrite HF. destruct (Nat.eqb_spec g new) as [->|Ng].
  - intros H; injection H as <-. split; auto. exists ni. split; auto. cbn [merge_info gi_terms gi_apps gi_ineq].
    assert (NDn : NoDup (gi_ineq ni)) by (eapply (i_nodup _ HI); eauto).
    assert (Rn : forall h, In h (gi_ineq ni) <-> rel gs0 new h).
    { intros h. split; [intros H; exists ni; auto|]. intros (i & H & I). rewrite Hnew in H. injection H as <-. auto. }
    split; [apply merge_nodup; destruct (memb new ord1); cbn [gi_ineq]; auto; apply newineq_nodup; auto|].
    split; [destruct (memb new ord1); auto|]. split; [destruct (memb new ord1); auto|].
    intros h. rewrite fold_merge_in, O2, old_rel.
    assert (X : In h (gi_ineq (mid ni)) <-> h <> old /\ rel gs0 new h).
    { destruct (memb new ord1) eqn:M; cbn [gi_ineq].
      - rewrite newineq_in, Rn. tauto.
      - rewrite Rn. split; [|tauto]. intros H. split; auto. intros ->. apply (i_sym _ HI) in H. apply ord_rel in H. congruence. }
    rewrite X. split.
    + intros [[A B]|[A B]].
      * split; auto. split; auto. intros ->. eapply i_irr; eauto.
      * split; [|tauto]. intros ->. eapply i_irr; eauto.
    + intros (A & B & [C|[[_ C]|[C _]]]); auto.
      congruence.
  - destruct (Nat.eqb_spec g old) as [->|No]; [discriminate|]. destruct (nth_error gs0 g) as [[p|i0]|] eqn:E; cbn [option_map renew]; try discriminate.
    intros H. assert (H' : i = if memb g ord1 then GI (gi_terms i0) (gi_apps i0) (newineq old new g i0) else i0) by (destruct (memb g ord1); congruence).
    clear H. split; auto. exists i0. split; auto. assert (ND0 : NoDup (gi_ineq i0)) by (eapply (i_nodup _ HI); eauto).
    assert (R0 : forall h, In h (gi_ineq i0) <-> rel gs0 g h).
    { intros h. split; [intros H; exists i0; auto|]. intros (j & H & I). rewrite E in H. injection H as <-. auto. }
    split; [rewrite H'; destruct (memb g ord1); cbn [gi_ineq]; auto; apply newineq_nodup; auto|].
    rewrite !app_nil_r. split; [rewrite H'; destruct (memb g ord1); auto|]. split; [rewrite H'; destruct (memb g ord1); auto|].
    intros h. rewrite H'. destruct (memb g ord1) eqn:M; cbn [gi_ineq].
    + apply ord_rel in M. apply (i_sym _ HI) in M. rewrite newineq_in, R0. split.
      * intros [[A B]|[-> B]]; [|split; auto]. split; auto. split; auto. intros ->. eapply i_irr; eauto.
      * intros (A & B & [C|[[C _]|[-> C]]]); auto. congruence.
    + assert (M' : ~ rel gs0 old g) by (rewrite <- ord_rel; congruence). rewrite R0. split.
      * intros H. split; [|split; auto]; intros ->; [apply M'; apply (i_sym _ HI); auto|eapply i_irr; eauto].
      * intros (A & B & [C|[[C _]|[-> C]]]); auto; [congruence|]. exfalso. apply M'. apply (i_sym _ HI). auto.
Qed.
Lemma merged_kept g i0 : g <> old -> nth_error gs0 g = Some (Info i0) -> exists i, nth_error gsF g = Some (Info i).
Proof.
  intros No H. rewrite HF. destruct (Nat.eqb g new); [eauto|]. destruct (Nat.eqb_spec g old); [congruence|]. rewrite H. cbn [option_map renew].
  destruct (memb g ord1); eauto.
Qed.
Lemma rel_live g h : rel gs0 g h -> exists i, nth_error gs0 g = Some (Info i). Proof. intros (i & H & _). eauto. Qed.
Lemma merged_rel g h : rel gsF g h <-> g <> old /\ h <> old /\ g <> h /\ (rel gs0 g h \/ (g = new /\ rel gs0 old h) \/ (h = new /\ rel gs0 g old)).
Proof.
  split.
  - intros (i & H & I). destruct (merged_live g i H) as (No & i0 & H0 & _ & _ & _ & X). apply X in I. destruct I as (A & B & C). auto.
  - intros (A & B & C & D). assert (L : exists i0, nth_error gs0 g = Some (Info i0)).
    { destruct D as [D|[[-> D]|[_ D]]]; [eapply rel_live; eauto|eauto|eapply rel_live; eauto]. }
    destruct L as (i0 & L). destruct (merged_kept g i0 A L) as (i & H). exists i. split; auto.
    destruct (merged_live g i H) as (_ & _ & _ & _ & _ & _ & X). apply X. auto.
Qed.
Lemma merged_iwf : iwf gsF.
Proof.
  constructor.
  - intros g i H. destruct (merged_live g i H) as (_ & _ & _ & ND & _). auto.
  - intros g H. apply merged_rel in H. tauto.
  - intros g h H. apply merged_rel in H. apply merged_rel. destruct H as (A & B & C & D). split; auto. split; auto. split; auto.
    destruct D as [D|[[-> D]|[-> D]]]; apply (i_sym _ HI) in D; auto.
Qed.
Lemma merged_gwf terms terms' : gwf terms gs0 -> length gsF = length gs0 -> length terms' = length terms ->
  (forall i ti, nth_error terms i = Some ti -> exists ti', nth_error terms' i = Some ti' /\ ti_group ti' = rmap old new (ti_group ti)) -> gwf terms' gsF.
Proof.
  intros [G1 G2 G3 G4] L1 L2 T. assert (T' : forall i ti', nth_error terms' i = Some ti' -> exists ti, nth_error terms i = Some ti /\ ti_group ti' = rmap old new (ti_group ti)).
  { intros i ti' H. assert (Li : i < length terms) by (rewrite <- L2; eapply nth_lt; eauto). destruct (nth_error terms i) as [ti|] eqn:E; [|apply nth_error_None in E; lia].
    destruct (T _ _ E) as (t2 & H2 & E2). exists ti. split; auto. congruence. }
  constructor; [congruence| | |].
  - intros i ti' H. destruct (T' _ _ H) as (ti & Hi & Eg). destruct (G2 _ _ Hi) as (gi & Lg & In_). rewrite Eg. unfold rmap.
    destruct (Nat.eqb_spec (ti_group ti) old) as [Eo|No].
    + destruct (merged_kept new ni (not_eq_sym Hon) Hnew) as (i' & Hi'). exists i'. split; auto.
      destruct (merged_live _ _ Hi') as (_ & i0 & _ & _ & Et & _). rewrite Et, Nat.eqb_refl. apply in_app_iff. right. rewrite Eo, Hold in Lg. injection Lg as <-. auto.
    + destruct (merged_kept _ gi No Lg) as (i' & Hi'). exists i'. split; auto. destruct (merged_live _ _ Hi') as (_ & i0 & L0 & _ & Et & _). rewrite Et. apply in_app_iff. left.
      rewrite Lg in L0. injection L0 as <-. auto.
  - intros g gi t H In_. destruct (merged_live _ _ H) as (No & i0 & L0 & _ & Et & _). rewrite Et in In_. apply in_app_iff in In_. destruct In_ as [In_|In_].
    + destruct (G3 _ _ _ L0 In_) as (ti & Hi & Eg). destruct (T _ _ Hi) as (ti' & Hi' & Eg'). exists ti'. split; auto. rewrite Eg', Eg. unfold rmap.
      destruct (Nat.eqb_spec g old); congruence.
    + destruct (Nat.eqb_spec g new) as [->|]; [|destruct In_]. destruct (G3 _ _ _ Hold In_) as (ti & Hi & Eg). destruct (T _ _ Hi) as (ti' & Hi' & Eg'). exists ti'. split; auto.
      rewrite Eg', Eg. unfold rmap. rewrite Nat.eqb_refl. auto.
  - intros g gi H E. destruct (merged_live _ _ H) as (No & i0 & L0 & _ & Et & _). rewrite Et in E. apply app_eq_nil in E. apply (G4 _ _ L0). tauto.
Qed.
Lemma merged_rwf : length gsF = length gs0 -> remapped gsF = S (remapped gs0) -> rwf gs0 -> rwf gsF.
Proof.
  intros L R (rk & Hr). set (rk0 := fun g => match nth_error gs0 g with Some (Remapped _) => rk g | _ => 0 end).
  exists (fun g => if Nat.eqb g new then 0 else S (rk0 g)). intros g h H. rewrite HF in H.
  destruct (Nat.eqb_spec g new) as [|Ng]; [discriminate|]. rewrite L, R.
  destruct (Nat.eqb_spec g old) as [->|No].
  - injection H as <-. rewrite Nat.eqb_refl. split; [eapply nth_lt; eauto|]. split; [lia|]. unfold rk0. rewrite Hold. lia.
  - destruct (nth_error gs0 g) as [[p|i]|] eqn:E; cbn [option_map renew] in H; [injection H as <-|destruct (memb g ord1); discriminate|discriminate].
    destruct (Hr _ _ E) as (R1 & R2 & R3). split; auto. assert (X : rk0 g = rk g) by (unfold rk0; rewrite E; auto). rewrite X.
    split; [|lia]. destruct (Nat.eqb p new); [lia|]. unfold rk0. destruct (nth_error gs0 p) as [[|]|]; lia.
Qed.
Lemma merged_awf ap0 am0 ap am s2 pe : awf gs0 ap0 am0 -> length gsF = length gs0 -> inv3 old new gs0 ap0 am0 s2 [] ap am pe keep -> awf gsF ap am.
Proof.
  intros A L [V1 V2 V3 V4 V5 V6 V7 V8 V9 V10]. constructor; auto.
  - intros g gi k H I. destruct (merged_live _ _ H) as (No & i0 & L0 & _ & _ & Ea & _). rewrite Ea in I. apply in_app_iff in I. destruct I as [I|I].
    + rewrite V4. eapply a_idx; eauto.
    + destruct (Nat.eqb g new); [auto|destruct I].
  - rewrite L. exact V1.
  - intros k a g H E. destruct (V6 _ _ _ H E) as (gi & L0 & I).
    assert (No : g <> old) by (intros ->; eapply (V5 _ _ H); intuition).
    destruct (merged_kept _ _ No L0) as (i' & Hi'). exists i'. split; auto. destruct (merged_live _ _ Hi') as (_ & i0 & L0' & _ & _ & Ea & _).
    rewrite L0 in L0'. injection L0' as <-. rewrite Ea. apply in_app_iff. destruct I as [I|[-> I]]; auto. rewrite Nat.eqb_refl. auto.
Qed.
End Merge.

(** ** the whole operation *)
Lemma nth_error_eq {A} (a b : list A) : (forall i, nth_error a i = nth_error b i) -> a = b.
Proof.
  revert b; induction a as [|x a IH]; intros [|y b] H; auto; try (specialize (H 0); discriminate).
  f_equal; [specialize (H 0); simpl in H; congruence|]. apply IH. intros i. apply (H (S i)).
Qed.
Lemma reverse_noop new s l disc : (forall g, In g l -> rel (eg_groups s) g new) -> foldm (reverse_inequality new) l (s, disc) = Ok (s, disc).
Proof.
  induction l as [|g l IH]; intros H; simpl; auto. destruct (H g) as (i & E & I); [simpl; auto|]. rewrite E. rewrite (proj2 (memb_in _ _) I). simpl.
  apply IH. intros; apply H; simpl; auto.
Qed.
Lemma relabel_group terms gs old new oi i ti : gwf terms gs -> nth_error gs old = Some (Info oi) -> nth_error terms i = Some ti ->
  ti_group (relabel (gi_terms oi) new i ti) = rmap old new (ti_group ti).
Proof.
  intros [G1 G2 G3 G4] Ho H. simpl. unfold rmap. destruct (memb i (gi_terms oi)) eqn:M.
  - apply memb_in in M. destruct (G3 _ _ _ Ho M) as (t & Ht & E). rewrite H in Ht. injection Ht as <-. rewrite E, Nat.eqb_refl. auto.
  - destruct (Nat.eqb_spec (ti_group ti) old) as [E|]; auto. destruct (G2 _ _ H) as (gi & L & I). rewrite E, Ho in L. injection L as <-.
    apply memb_nin in M. tauto.
Qed.

Section Remap.
Context (ordk : nat -> list nat -> list nat) (ordc : nat -> list clauseid -> list clauseid).
Context (ordk_perm : forall n l, Permutation (ordk n l) l) (ordc_perm : forall n l, Permutation (ordc n l) l).

Lemma remove_group_moved n s g : cwf n s -> clauses_moved s (fst (remove_group ordc s g)) /\ cwf n (fst (remove_group ordc s g)) /\
  forall c l, In c (snd (remove_group ordc s g)) -> In l c -> litn n l.
Proof.
  intros [C1 C2 C3]. unfold remove_group. cbn [fst snd]. set (cs := ordc _ _). destruct (consistent_remove_all cs _ C1) as [D1 D2].
  split; [constructor; auto; exists []; auto|]. split.
  - constructor; auto. intros c Hc. apply D2 in Hc. apply C2. tauto.
  - intros c l Hc Hl. apply (ordc_in ordc ordc_perm) in Hc. apply (co_group _ C1) in Hc. apply (C2 c); tauto.
Qed.

Lemma remap_group_wp s old new oi ni : jwf s -> old <> new ->
  nth_error (eg_groups s) old = Some (Info oi) -> nth_error (eg_groups s) new = Some (Info ni) ->
  wp (remap_group ordk ordc s old new) (fun s' => jwf s' /\ evolves s s' /\
    (forall i ti, nth_error (eg_terms s) i = Some ti -> exists ti', nth_error (eg_terms s') i = Some ti' /\ ti_group ti' = rmap old new (ti_group ti)) /\
    S (livec (eg_groups s')) = livec (eg_groups s)).
Proof.
  intros [JG JI JR JA JD JC] Hon Ho Hn. unfold remap_group, take_group. unfold get_group_info at 1. rewrite Ho. cbn [rbind].
  apply wp_bind. set (s1 := set_groups s _).
  eapply wp_mono; [|apply move_terms_wp].
  2:{ intros t Ht. simpl. destruct (g_gt _ _ JG _ _ _ Ho Ht) as (ti & H & _). eapply nth_lt; eauto. }
  intros s2 (tl & E2 & L2 & T2). apply wp_bind.
  assert (TG : forall i ti, nth_error (eg_terms s) i = Some ti -> exists ti', nth_error tl i = Some ti' /\ ti_group ti' = rmap old new (ti_group ti) /\
     ti_term ti' = ti_term ti /\ ti_decomp ti' = ti_decomp ti).
  { intros i ti H. exists (relabel (gi_terms oi) new i ti). rewrite T2. cbn [s1 eg_terms set_groups]. rewrite H. split; auto. split; auto.
    eapply relabel_group; eauto. }
  eapply wp_mono; [|apply (wp_foldm _ (fun R sk => exists ap am pe, fst sk = set_pending (set_apps s2 ap am) pe /\
     inv3 old new (eg_groups s) (eg_apps s) (eg_amap s) s2 R ap am pe (snd sk)))].
  2:{ exists (eg_apps s2), (eg_amap s2), (eg_pending s2). split; [destruct s2; reflexivity|]. subst s2. cbn [fst snd eg_apps eg_amap set_terms s1 set_groups eg_pending].
      destruct JA as [A1 A2 A3 A4 A5]. constructor; [exact A2|exact A5|exact A4|reflexivity|..].
      - intros k a Hk E. assert (X : exists gi, nth_error (eg_groups s) old = Some (Info gi) /\ In k (gi_apps gi)) by (eapply (A3 k a old Hk); intuition).
        destruct X as (gi & L & I). rewrite Ho in L. injection L as <-. auto.
      - intros k a g Hk E. destruct (A3 _ _ _ Hk E) as (gi & L & I). eauto.
      - intros k [].
      - intros k Hk. exact (A1 _ _ _ Ho Hk).
      - intros q r0 H. exists q, r0. split; auto. split; auto. apply by_pending_refl.
      - exists []. split; auto. intros o []. }
  2:{ intros x r [s' keep] (ap & am & pe & Es & V). cbn [fst snd] in *. subst s'. exact (move_application_wp old new Hon _ _ _ _ ni x r ap am pe keep Hn V). }
  intros [s3 keep] (ap & am & pe & E3 & V). cbn [fst snd] in *.
  assert (G3 : eg_groups s3 = upd (eg_groups s) old (Remapped new)) by (subst s3 s2 s1; auto).
  set (ord1 := ordk (eg_tick s3) (gi_ineq oi)). apply wp_bind.
  assert (O1 : forall x, In x ord1 <-> In x (gi_ineq oi)) by (intros; apply (ordk_in ordk ordk_perm)).
  eapply wp_mono; [|apply move_inequalities_wp].
  2:{ eapply Permutation_NoDup; [apply Permutation_sym, ordk_perm|]. eapply i_nodup; eauto. }
  2:{ intros g Hg. apply O1 in Hg. assert (R : rel (eg_groups s) old g) by (exists oi; auto). cbn [tick eg_groups]. rewrite G3.
      assert (Ng : old <> g) by (intros <-; eapply i_irr; eauto). apply (i_sym _ JI) in R. destruct R as (i & E & I). exists i. split; auto.
      rewrite nth_upd. destruct (Nat.eqb_spec old g); congruence. }
  intros [s4 disc] (gs4 & b & E4 & L4 & R4 & P4 & B4). cbn [fst] in E4. cbn [tick eg_groups] in *. rewrite G3 in *.
  rewrite upd_length in L4. pose proof (remapped_upd (eg_groups s) old _ (Remapped new) Ho) as R0. simpl in R0.
  set (n := length (eg_groups s)) in *.
  assert (F4 : eg_terms s4 = tl /\ eg_groups s4 = gs4 /\ eg_apps s4 = ap /\ eg_amap s4 = am /\ eg_clauses s4 = eg_clauses s /\ eg_decomps s4 = eg_decomps s /\
     eg_opaque s4 = eg_opaque s /\ eg_pending s4 = pe /\ (eg_contra s = true -> eg_contra s4 = true) /\ (b = true -> eg_contra s4 = true)).
  { subst s4 s3 s2 s1. destruct b; simpl; repeat split; auto. discriminate. }
  destruct F4 as (F1 & F2 & F3 & F4 & F5 & F6 & F7 & F8 & F9 & F10). clear E4.
  assert (EP : eg_pending s2 = eg_pending s) by (subst s2 s1; reflexivity).
  assert (V10 := v_pend _ _ _ _ _ _ _ _ _ _ _ V). destruct V10 as (pl & Epe & Hpl). rewrite EP in Epe.
  assert (C4 : cwf n s4).
  { destruct JC as [C1 C2 C3]. constructor; [rewrite F5; auto|rewrite F5; auto|]. rewrite F8, Epe. intros o Ho'. apply in_app_iff in Ho'. destruct Ho' as [H|H]; auto.
    destruct (Hpl _ H) as (x & y & -> & X & Y). simpl. auto. }
  destruct (handle_all_moved ordc ordc_perm n disc s4 C4) as [M5 C5]. set (s5 := handle_all ordc s4 disc) in *.
  assert (N4 : nth_error gs4 new = Some (Info (if memb new ord1 then GI (gi_terms ni) (gi_apps ni) (newineq old new new ni) else ni))).
  { rewrite P4, nth_upd. destruct (Nat.eqb_spec old new); [congruence|]. rewrite Hn. simpl. destruct (memb new ord1); auto. }
  set (mni := if memb new ord1 then _ else ni) in *.
  unfold get_group_info. rewrite (m_g _ _ M5), F2, N4. cbn [rbind].
  set (ord2 := ordk (eg_tick s5) (gi_ineq oi)). set (mi := merge_info new mni oi keep ord2).
  assert (O2 : forall x, In x ord2 <-> In x (gi_ineq oi)) by (intros; apply (ordk_in ordk ordk_perm)).
  set (gsF := upd gs4 new (Info mi)). cbv zeta.
  set (s6 := tick (set_groups s5 gsF)).
  assert (LF : length gsF = n) by (unfold gsF; rewrite upd_length; auto).
  assert (HF : forall g, nth_error gsF g = if Nat.eqb g new then Some (Info (merge_info new mni oi keep ord2))
     else if Nat.eqb g old then Some (Remapped new) else option_map (renew old new ord1 g) (nth_error (eg_groups s) g)).
  { intros g. unfold gsF. rewrite nth_upd, P4, nth_upd. rewrite (Nat.eqb_sym new g), (Nat.eqb_sym old g). destruct (Nat.eqb_spec g new) as [->|Ng].
    - destruct (Nat.eqb_spec new old); [congruence|]. rewrite Hn. auto.
    - destruct (Nat.eqb_spec g old) as [->|]; auto. rewrite Ho. auto. }
  pose proof (merged_live old new Hon _ _ oi ni keep ord1 ord2 Ho Hn JI O1 O2 HF) as ML.
  pose proof (merged_kept old new _ _ oi ni keep ord1 ord2 HF) as MK.
  pose proof (merged_rel old new Hon _ _ oi ni keep ord1 ord2 Ho Hn JI O1 O2 HF) as MR.
  pose proof (merged_iwf old new Hon _ _ oi ni keep ord1 ord2 Ho Hn JI O1 O2 HF) as MI.
  assert (Hlive : nth_error gsF new = Some (Info mi)) by (rewrite HF, Nat.eqb_refl; auto).
  set (ord3 := ordk (eg_tick s6) (gi_ineq mi)).
  rewrite reverse_noop.
  2:{ intros g Hg. apply (ordk_in ordk ordk_perm) in Hg. cbn [tick eg_groups s6 set_groups]. apply (i_sym _ MI). exists mi. auto. }
  cbn [rbind handle_all fold_left]. set (s7 := tick s6).
  assert (C7 : cwf n s7) by (destruct C5; constructor; auto).
  pose proof (remove_group_moved n s7 old C7) as (M8 & C8 & Hc). destruct (remove_group ordc s7 old) as [s8 cs]. cbn [fst snd] in M8, C8, Hc.
  assert (Nn : new < n) by (eapply nth_lt; eauto).
  assert (M9 : clauses_moved s8 (fold_left (move_clause old new) cs s8) /\ cwf n (fold_left (move_clause old new) cs s8)).
  { apply (fold_ind _ (fun s' => clauses_moved s8 s' /\ cwf n s')); [|auto using moved_refl].
    intros c s' Hcc [M W]. destruct (move_clause_moved n old new s' c Nn (fun l => Hc c l Hcc) W) as [M' W']. split; auto. eapply moved_trans; eauto. }
  cbn [wp]. destruct M9 as [M9 C9]. set (s9 := fold_left _ cs s8) in *. clearbody s9. pose proof (moved_trans _ _ _ M8 M9) as M. clear M8 M9 C8 Hc.
  assert (GT : eg_terms s9 = tl) by (rewrite (m_t _ _ M); cbn; rewrite (m_t _ _ M5); auto).
  assert (GG : eg_groups s9 = gsF) by (rewrite (m_g _ _ M); auto).
  assert (GA : eg_apps s9 = ap) by (rewrite (m_a _ _ M); cbn; rewrite (m_a _ _ M5); auto).
  assert (GM : eg_amap s9 = am) by (rewrite (m_m _ _ M); cbn; rewrite (m_m _ _ M5); auto).
  assert (GD : eg_decomps s9 = eg_decomps s) by (rewrite (m_d _ _ M); cbn; rewrite (m_d _ _ M5); auto).
  assert (GO : eg_opaque s9 = eg_opaque s) by (rewrite (m_o _ _ M); cbn; rewrite (m_o _ _ M5); auto).
  assert (GC : eg_contra s4 = true -> eg_contra s9 = true) by (intros X; apply (m_c _ _ M); cbn; apply (m_c _ _ M5); auto).
  assert (GP : incl pe (eg_pending s9)).
  { destruct (m_p _ _ M) as (l1 & X1), (m_p _ _ M5) as (l2 & X2). rewrite X1. cbn [s7 s6 tick set_groups eg_pending]. rewrite X2, F8. intros o I. rewrite !in_app_iff. auto. }
  assert (RF : remapped gsF = S (remapped (eg_groups s))).
  { pose proof (remapped_upd gs4 new _ (Info mi) N4) as Q. simpl in Q. fold gsF in Q. lia. }
  split; [|split; [|split]].
  - constructor; rewrite ?GT, ?GG, ?GA, ?GM, ?GD, ?GO; auto.
    + apply (merged_gwf old new Hon (eg_groups s) gsF oi ni keep ord1 ord2 Ho Hn JI O1 O2 HF (eg_terms s)); auto.
      intros i ti H. destruct (TG _ _ H) as (t & H1 & H2 & _). eauto.
    + apply (merged_rwf old new Hon (eg_groups s) gsF oi ni keep ord1 ord2 Ho Hn HF); auto.
    + apply (merged_awf old new Hon (eg_groups s) gsF oi ni keep ord1 ord2 Ho Hn JI O1 O2 HF (eg_apps s) (eg_amap s) ap am s2 pe); auto.
    + assert (TG' : forall i t', nth_error tl i = Some t' -> exists t, nth_error (eg_terms s) i = Some t /\ ti_term t' = ti_term t /\ ti_decomp t' = ti_decomp t).
      { intros i t' H. rewrite T2 in H. cbn [s1 eg_terms set_groups] in H. destruct (nth_error (eg_terms s) i) as [t|]; [|discriminate]. injection H as <-. exists t. auto. }
      destruct JD as (D1 & D2 & D3). split; [|split].
      * intros i t' H. destruct (TG' _ _ H) as (t & Ht & X1 & X2). specialize (D1 _ _ Ht). rewrite X2, X1.
        destruct (ti_decomp t) as [a|f a|]; auto. destruct D1 as [Y (tf & ta & Hf & Ha & Et)]. split; auto.
        destruct (TG _ _ Hf) as (tf' & Hf' & _ & Zf & _), (TG _ _ Ha) as (ta' & Ha' & _ & Za & _). exists tf', ta'. rewrite Zf, Za. auto.
      * intros d i H. destruct (D2 _ _ H) as (t & Ht & X). destruct (TG _ _ Ht) as (t' & Ht' & _ & _ & Z). exists t'. split; auto. congruence.
      * intros u i H. destruct (D3 _ _ H) as (t & Ht & X). destruct (TG _ _ Ht) as (t' & Ht' & _ & Z & _). exists t'. split; auto. congruence.
    + rewrite LF. auto.
  - constructor; auto.
    + unfold shape. rewrite GT. apply nth_error_eq. intros i. rewrite !nth_error_map, T2. cbn [s1 eg_terms set_groups].
      destruct (nth_error (eg_terms s) i); auto.
    + intros o I. apply GP. rewrite Epe. apply in_app_iff. auto.
    + exists (rmap old new). rewrite GT, GG, GM. split; [|split].
      * intros i ti H. destruct (TG _ _ H) as (t & H1 & H2 & _). eauto.
      * intros x y r H. destruct (v_cover _ _ _ _ _ _ _ _ _ _ _ V _ _ H) as (q' & r' & Q1 & Q2 & Q3). exists r'. split.
        -- rewrite <- Q2. f_equal. change (rmap old new x, rmap old new y) with (key_remap old new (x, y)). destruct Q1 as [->| ->]; auto.
           destruct (v_map _ _ _ _ _ _ _ _ _ _ _ V _ _ Q2) as (k & Hk). apply kr_same; intros E; eapply (v_old _ _ _ _ _ _ _ _ _ _ _ V _ _ Hk); simpl; auto.
        -- intros E HE X1 X3. apply Q3; auto.
      * intros g h R. destruct (Nat.eq_dec g old) as [->|Ng].
        -- assert (Nh : h <> old) by (intros ->; exact (i_irr _ JI _ R)). unfold rmap. rewrite Nat.eqb_refl. destruct (Nat.eqb_spec h old); [congruence|].
           destruct (Nat.eq_dec h new) as [->|Nh2].
           ++ left. apply GC, F10, B4, O1. destruct R as (i & E & I). rewrite Ho in E. injection E as <-. auto.
           ++ right. apply MR. auto 8.
        -- destruct (Nat.eq_dec h old) as [->|Nh].
           ++ unfold rmap. rewrite Nat.eqb_refl. destruct (Nat.eqb_spec g old); [congruence|]. destruct (Nat.eq_dec g new) as [->|Nh2].
              ** left. apply GC, F10, B4, O1. apply (i_sym _ JI) in R. destruct R as (i & E & I). rewrite Ho in E. injection E as <-. auto.
              ** right. apply MR. auto 8.
           ++ right. unfold rmap. destruct (Nat.eqb_spec g old); [congruence|]. destruct (Nat.eqb_spec h old); [congruence|]. apply MR.
              assert (g <> h) by (intros ->; exact (i_irr _ JI _ R)). auto 8.
  - intros i ti H. destruct (TG _ _ H) as (t & H1 & H2 & _). rewrite GT. eauto.
  - unfold livec. rewrite GG, RF, LF. fold n. assert (remapped (eg_groups s) < n) by (eapply remapped_live; eauto). lia.
Qed.
End Remap.
