(** C27: merging caches keeps what is new. *)
From Coq Require Import String List Arith Bool.
Import ListNotations.
From Verif Require Import BuildCache BuildCacheProofs.
Local Open Scope string_scope.

(** what a cache says *)
Definition get_certs (c : cache) (d : descriptor) : option store := mget desc_eqb d (certs c).
Definition get_interface (c : cache) (r : path) : option string := m_interface (root_manifest c r).
Definition get_implementation (c : cache) (r : path) (k : string) : option string := mget String.eqb k (m_implementation (root_manifest c r)).
Definition get_dependency (c : cache) (r : path) (k : string) : option string := mget String.eqb k (m_dependencies (root_manifest c r)).
(** a hash map has a key at most once *)
Definition is_map (c : cache) : Prop :=
  NoDup (keys (certs c)) /\ NoDup (keys (manifests c)) /\
  forall r m, In (r, m) (manifests c) -> NoDup (keys (m_implementation m)) /\ NoDup (keys (m_dependencies m)).
(** [a], and [b] where [a] says nothing *)
Definition first_of {A} (a b x : option A) : Prop := (a <> None -> x = a) /\ (a = None -> x = b).
Lemma or_else_first {A} (a b : option A) : first_of a b (or_else a b).
Proof. split; destruct a; simpl; congruence. Qed.

Lemma missing_root c old r : is_map old -> root_manifest (merge_missing_manifests c old) r =
  match mget path_eqb r (manifests old) with Some m => merge_missing (root_manifest c r) m | None => root_manifest c r end.
Proof.
  intros (_ & N & _). unfold root_manifest, merge_missing_manifests. cbn [manifests].
  rewrite (mget_fold_update path_eqb path_eqb_eq (fun o m => merge_missing (match o with Some m => m | None => no_manifest end) m)) by auto.
  destruct (mget path_eqb r (manifests old)); auto.
Qed.
Lemma over_root c o r : is_map o -> root_manifest (merge_updates c o) r =
  match mget path_eqb r (manifests o) with Some m => merge_over (root_manifest c r) m | None => root_manifest c r end.
Proof.
  intros (_ & N & _). unfold root_manifest, merge_updates. cbn [manifests].
  rewrite (mget_fold_update path_eqb path_eqb_eq (fun o m => merge_over (match o with Some m => m | None => no_manifest end) m)) by auto.
  destruct (mget path_eqb r (manifests o)); auto.
Qed.

(** ** Old entries only fill gaps *)
Theorem merging_keeps_new : forall c old, is_map old ->
  (forall d, first_of (get_certs c d) (get_certs old d) (get_certs (merge_certificates c old) d)) /\
  (forall r, first_of (get_interface c r) (get_interface old r) (get_interface (merge_certificates c old) r)) /\
  (forall r k, first_of (get_implementation c r k) (get_implementation old r k) (get_implementation (merge_certificates c old) r k)) /\
  (forall r k, first_of (get_dependency c r k) (get_dependency old r k) (get_dependency (merge_certificates c old) r k)).
Proof.
  intros c old H. assert (E : forall r, root_manifest (merge_certificates c old) r =
    match mget path_eqb r (manifests old) with Some m => merge_missing (root_manifest c r) m | None => root_manifest c r end) by (intros r; apply (missing_root (merge_missing_certs c old)); auto).
  assert (O : forall r, mget path_eqb r (manifests old) = None -> root_manifest old r = no_manifest) by (intros r Hr; unfold root_manifest; rewrite Hr; auto).
  assert (S : forall r m, mget path_eqb r (manifests old) = Some m -> root_manifest old r = m) by (intros r m Hr; unfold root_manifest; rewrite Hr; auto).
  assert (G : forall r (f : manifest -> option string), f no_manifest = None -> (forall a b, f (merge_missing a b) = or_else (f a) (f b)) ->
    first_of (f (root_manifest c r)) (f (root_manifest old r)) (f (root_manifest (merge_certificates c old) r))).
  { intros r f Hn Hf. rewrite E. destruct (mget path_eqb r (manifests old)) as [m|] eqn:Em.
    - rewrite (S r m Em), Hf. apply or_else_first.
    - rewrite (O r Em), Hn. split; auto. }
  split; [|split; [|split]].
  - intros d. unfold get_certs, merge_certificates, merge_missing_manifests, merge_missing_certs. cbn [certs].
    rewrite (mget_fold_new desc_eqb desc_eqb_eq). apply or_else_first.
  - intros r. apply (G r m_interface); auto.
  - intros r k. apply (G r (fun m => mget String.eqb k (m_implementation m))); auto. intros a b. unfold merge_missing, put_missing. cbn [m_implementation].
    apply (mget_fold_new String.eqb seqb_eq).
  - intros r k. apply (G r (fun m => mget String.eqb k (m_dependencies m))); auto. intros a b. unfold merge_missing, put_missing. cbn [m_dependencies].
    apply (mget_fold_new String.eqb seqb_eq).
Qed.
Print Assumptions merging_keeps_new.

Theorem merging_is_idempotent : forall c old, is_map old -> merge_certificates (merge_certificates c old) old = merge_certificates c old.
Proof.
  intros c old H. change (merge_certificates (merge_certificates c old) old) with
    (Cache (fold_left (fun m e => mput_new desc_eqb (fst e) (snd e) m) (certs old) (certs (merge_certificates c old)))
       (fold_left (fun ms e => mput path_eqb (fst e) (merge_missing (match mget path_eqb (fst e) ms with Some m => m | None => no_manifest end) (snd e)) ms)
          (manifests old) (manifests (merge_certificates c old)))).
  assert (X : fold_left (fun m e => mput_new desc_eqb (fst e) (snd e) m) (certs old) (certs (merge_certificates c old)) = certs (merge_certificates c old)).
  { apply (fold_new_id desc_eqb). intros k v Hk. unfold merge_certificates, merge_missing_manifests, merge_missing_certs. cbn [certs].
    rewrite (mget_fold_new desc_eqb desc_eqb_eq). destruct H as (N & _ & _). rewrite (in_mget desc_eqb desc_eqb_eq _ _ _ N Hk). destruct (mget desc_eqb k (certs c)); discriminate. }
  rewrite X. assert (Y : forall ms, (forall r m, In (r, m) (manifests old) -> exists b, mget path_eqb r ms = Some b /\ merge_missing b m = b) ->
    fold_left (fun ms e => mput path_eqb (fst e) (merge_missing (match mget path_eqb (fst e) ms with Some m => m | None => no_manifest end) (snd e)) ms) (manifests old) ms = ms).
  { intros ms Hm. apply (fold_update_id path_eqb (fun o m => merge_missing (match o with Some m => m | None => no_manifest end) m)). exact Hm. }
  rewrite Y; [destruct (merge_certificates c old); auto|].
  intros r m Hm. pose proof (in_mget path_eqb path_eqb_eq _ _ _ (proj1 (proj2 H)) Hm) as Hg.
  unfold merge_certificates, merge_missing_manifests. cbn [manifests].
  rewrite (mget_fold_update path_eqb path_eqb_eq (fun o m => merge_missing (match o with Some m => m | None => no_manifest end) m) _ (proj1 (proj2 H))).
  rewrite Hg. eexists. split; [reflexivity|]. cbn [manifests merge_missing_certs].
  set (b := match mget path_eqb r (manifests c) with Some m => m | None => no_manifest end).
  assert (P : forall l, NoDup (keys l) -> forall a, put_missing (put_missing a l) l = put_missing a l).
  { intros l N a. unfold put_missing at 1. apply (fold_new_id String.eqb). intros k v Hk. unfold put_missing. rewrite (mget_fold_new String.eqb seqb_eq).
    rewrite (in_mget String.eqb seqb_eq _ _ _ N Hk). destruct (mget String.eqb k a); discriminate. }
  destruct (proj2 (proj2 H) r m Hm) as [N1 N2]. unfold merge_missing. cbn [m_interface m_implementation m_dependencies]. rewrite !P by auto. f_equal.
  destruct (m_interface b), (m_interface m); auto.
Qed.
Print Assumptions merging_is_idempotent.

(** ** The last update wins *)
Fixpoint last_said {A} (l : list (option A)) (x : option A) : option A :=
  match l with [] => x | o :: r => last_said r (match o with Some _ => o | None => x end) end.
Theorem updates_last_wins : forall us c, (forall u, In u us -> is_map u) -> let c' := fold_left merge_updates us c in
  (forall d, get_certs c' d = last_said (map (fun u => get_certs u d) us) (get_certs c d)) /\
  (forall r, get_interface c' r = last_said (map (fun u => get_interface u r) us) (get_interface c r)) /\
  (forall r k, get_implementation c' r k = last_said (map (fun u => get_implementation u r k) us) (get_implementation c r k)) /\
  (forall r k, get_dependency c' r k = last_said (map (fun u => get_dependency u r k) us) (get_dependency c r k)).
Proof.
  assert (One : forall c u, is_map u ->
    (forall d, get_certs (merge_updates c u) d = or_else (get_certs u d) (get_certs c d)) /\
    (forall r, get_interface (merge_updates c u) r = or_else (get_interface u r) (get_interface c r)) /\
    (forall r k, get_implementation (merge_updates c u) r k = or_else (get_implementation u r k) (get_implementation c r k)) /\
    (forall r k, get_dependency (merge_updates c u) r k = or_else (get_dependency u r k) (get_dependency c r k))).
  { intros c u H. split.
    - intros d. unfold get_certs, merge_updates. cbn [certs]. apply (mget_put_all desc_eqb desc_eqb_eq). apply H.
    - assert (G : forall r (f : manifest -> option string), f no_manifest = None -> (forall m, In (r, m) (manifests u) -> f (merge_over (root_manifest c r) m) = or_else (f m) (f (root_manifest c r))) ->
        f (root_manifest (merge_updates c u) r) = or_else (f (root_manifest u r)) (f (root_manifest c r))).
      { intros r f Hn Hf. rewrite over_root by auto. unfold root_manifest at 3. destruct (mget path_eqb r (manifests u)) as [m|] eqn:Em.
        - apply Hf. apply (mget_in path_eqb path_eqb_eq _ _ _ Em).
        - rewrite Hn. auto. }
      split; [|split].
      + intros r. apply (G r m_interface); auto.
      + intros r k. apply (G r (fun m => mget String.eqb k (m_implementation m))); auto. intros m Hm. apply (mget_put_all String.eqb seqb_eq). apply (proj2 (proj2 H) r m Hm).
      + intros r k. apply (G r (fun m => mget String.eqb k (m_dependencies m))); auto. intros m Hm. apply (mget_put_all String.eqb seqb_eq). apply (proj2 (proj2 H) r m Hm). }
  induction us as [|u us IH]; intros c H; cbv zeta; [repeat split|]. cbn [fold_left map last_said].
  destruct (IH (merge_updates c u) (fun x Hx => H x (or_intror Hx))) as (A1 & A2 & A3 & A4). destruct (One c u (H u (or_introl eq_refl))) as (B1 & B2 & B3 & B4).
  split; [|split; [|split]].
  - intros d. rewrite A1, B1. destruct (get_certs u d); auto.
  - intros r. rewrite A2, B2. destruct (get_interface u r); auto.
  - intros r k. rewrite A3, B3. destruct (get_implementation u r k); auto.
  - intros r k. rewrite A4, B4. destruct (get_dependency u r k); auto.
Qed.
Print Assumptions updates_last_wins.

(** ** A package is reported just when saving would change its recorded dependencies *)
Lemma same_map_spec a b : NoDup (keys a) -> NoDup (keys b) -> same_map a b = true <-> forall k, mget String.eqb k a = mget String.eqb k b.
Proof.
  intros Na Nb. unfold same_map. rewrite andb_true_iff, !forallb_forall. split.
  - intros [H1 H2] k. destruct (mget String.eqb k a) as [v|] eqn:Ea.
    + pose proof (H1 _ (mget_in String.eqb seqb_eq _ _ _ Ea)) as H. apply opt_eqb_eq in H. simpl in H. auto.
    + destruct (mget String.eqb k b) as [v|] eqn:Eb; auto. pose proof (H2 _ (mget_in String.eqb seqb_eq _ _ _ Eb)) as H. apply opt_eqb_eq in H. simpl in H. congruence.
  - intros H. split; intros [k v] Hk; apply opt_eqb_eq; simpl; [rewrite <- H|rewrite H]; apply (in_mget String.eqb seqb_eq); auto.
Qed.
Lemma put_all_nodup (upd : list (string * string)) : forall m, NoDup (keys m) -> NoDup (keys (put_all String.eqb m upd)).
Proof. unfold put_all. induction upd as [|e upd IH]; intros m N; auto. cbn [fold_left]. apply IH. apply (nodup_put String.eqb seqb_eq). auto. Qed.
Theorem reported_iff_dependencies_change : forall c old (preserve : bool) r, is_map c -> is_map old -> In r (keys (manifests c)) ->
  let after := if preserve then merge_missing_manifests c old else c in
  In r (needing_update c old preserve) <-> exists k, get_dependency after r k <> get_dependency old r k.
Proof.
  intros c old preserve r Hc Ho Hr after. apply in_map_iff in Hr. destruct Hr as ([r' m] & Er & Hm). simpl in Er. subst r'.
  pose proof (in_mget path_eqb path_eqb_eq _ _ _ (proj1 (proj2 Hc)) Hm) as Gm. destruct (proj2 (proj2 Hc) _ _ Hm) as [_ Nm].
  set (old_m := mget path_eqb r (manifests old)).
  set (expected := if preserve then put_all String.eqb (match old_m with Some m => m_dependencies m | None => [] end) (m_dependencies m) else m_dependencies m).
  assert (No : NoDup (keys (match old_m with Some m => m_dependencies m | None => [] end))).
  { subst old_m. destruct (mget path_eqb r (manifests old)) as [om|] eqn:E; [|constructor]. apply (proj2 (proj2 Ho) r om). apply (mget_in path_eqb path_eqb_eq _ _ _ E). }
  assert (Ne : NoDup (keys expected)) by (subst expected; destruct preserve; auto; apply put_all_nodup; auto).
  assert (Ex : forall k, get_dependency after r k = mget String.eqb k expected).
  { intros k. unfold get_dependency. subst after expected. destruct preserve.
    - rewrite missing_root by auto. fold old_m. rewrite (mget_put_all String.eqb seqb_eq) by auto. unfold root_manifest. rewrite Gm.
      destruct old_m as [om|]; [|simpl; destruct (mget String.eqb k (m_dependencies m)); auto]. apply (mget_fold_new String.eqb seqb_eq).
    - unfold root_manifest. rewrite Gm. auto. }
  assert (Od : forall k, get_dependency old r k = mget String.eqb k (match old_m with Some m => m_dependencies m | None => [] end)).
  { intros k. unfold get_dependency, root_manifest. fold old_m. destruct old_m; auto. }
  assert (In' : In r (needing_update c old preserve) <-> match old_m with Some om => same_map (m_dependencies om) expected | None => match expected with [] => true | _ => false end end = false).
  { unfold needing_update. rewrite in_flat_map. split.
    - intros ([r' m'] & Hm' & Hr). cbn [fst snd] in Hr. 
      match type of Hr with In _ (if ?b then _ else _) => assert (r' = r) as -> by (destruct b; [destruct Hr|destruct Hr as [Hr|[]]; auto]) end.
      assert (m' = m) as -> by (pose proof (in_mget path_eqb path_eqb_eq _ _ _ (proj1 (proj2 Hc)) Hm'); congruence).
      fold old_m in Hr. fold expected in Hr. match type of Hr with In _ (if ?b then _ else _) => destruct b; [destruct Hr|auto] end.
    - intros E. exists (r, m). split; auto. cbn [fst snd]. fold old_m. fold expected. rewrite E. left; auto. }
  rewrite In'. clear In'. split.
  - intros E. destruct old_m as [om|].
    + assert (X : ~ forall k, mget String.eqb k (m_dependencies om) = mget String.eqb k expected) by (rewrite <- same_map_spec by auto; congruence).
      unfold same_map in E. apply andb_false_iff in E. assert (Y : forall l, forallb (fun e => opt_eqb (mget String.eqb (fst e) expected) (Some (snd e))) l = false ->
        exists e, In e l /\ opt_eqb (mget String.eqb (fst e) expected) (Some (snd e)) = false).
      { induction l as [|e l IH]; simpl; [discriminate|]. destruct (opt_eqb _ _) eqn:Ee; [|eauto]. simpl. intros Hl. destruct (IH Hl) as (e' & ? & ?). eauto. }
      assert (Y' : forall l, forallb (fun e => opt_eqb (mget String.eqb (fst e) (m_dependencies om)) (Some (snd e))) l = false ->
        exists e, In e l /\ opt_eqb (mget String.eqb (fst e) (m_dependencies om)) (Some (snd e)) = false).
      { induction l as [|e l IH]; simpl; [discriminate|]. destruct (opt_eqb _ _) eqn:Ee; [|eauto]. simpl. intros Hl. destruct (IH Hl) as (e' & ? & ?). eauto. }
      destruct E as [E|E]; [apply Y in E|apply Y' in E]; destruct E as ([k v] & Hk & Ek); exists k; rewrite Ex, Od; cbn [fst snd] in Ek; intros Heq.
      * rewrite Heq, (in_mget String.eqb seqb_eq _ _ _ No Hk) in Ek. simpl in Ek. rewrite String.eqb_refl in Ek. discriminate.
      * rewrite <- Heq, (in_mget String.eqb seqb_eq _ _ _ Ne Hk) in Ek. simpl in Ek. rewrite String.eqb_refl in Ek. discriminate.
    + destruct expected as [|[k v] e] eqn:Ee; [discriminate|]. exists k. rewrite Ex, Od. simpl. rewrite String.eqb_refl. discriminate.
  - intros [k Hk]. rewrite Ex, Od in Hk. destruct old_m as [om|].
    + destruct (same_map (m_dependencies om) expected) eqn:E; auto. rewrite same_map_spec in E by auto. rewrite (E k) in Hk. congruence.
    + destruct expected; auto. destruct (Hk eq_refl).
Qed.
Print Assumptions reported_iff_dependencies_change.

(** ** Concrete case *)
Definition cm_a := Name ["a"].
Definition cm_b := Name ["b"].
Definition cm_new := Cache [(cm_a, ["n1"])] [(["src"], Manifest None [("a.ac", "h2")] [("p", "d2")])].
Definition cm_old := Cache [(cm_a, ["o1"]); (cm_b, ["o2"])] [(["src"], Manifest (Some "i") [("a.ac", "h1"); ("b.ac", "h3")] [("p", "d1")]); (["src"; "q"], Manifest (Some "j") [] [])].
Example merging_case :
  is_map cm_old /\ is_map cm_new /\
  merge_certificates cm_new cm_old =
    Cache [(cm_a, ["n1"]); (cm_b, ["o2"])] [(["src"], Manifest (Some "i") [("a.ac", "h2"); ("b.ac", "h3")] [("p", "d2")]); (["src"; "q"], Manifest (Some "j") [] [])] /\
  get_implementation (fold_left merge_updates [cm_old; cm_new] no_cache) ["src"] "a.ac" = Some "h2" /\
  get_implementation (fold_left merge_updates [cm_new; cm_old] no_cache) ["src"] "a.ac" = Some "h1" /\
  needing_update cm_new cm_old true = [["src"]] /\ needing_update cm_old cm_old true = [].
Proof.
  assert (N : forall c, c = cm_old \/ c = cm_new -> is_map c).
  { intros c [->| ->]; (split; [|split]); try (unfold keys; simpl; repeat (apply NoDup_cons; [simpl; intuition discriminate|]); apply NoDup_nil).
    - intros r m H. destruct H as [H|[H|[]]]; injection H as <- <-; split; unfold keys; simpl; repeat (apply NoDup_cons; [simpl; intuition discriminate|]); apply NoDup_nil.
    - intros r m H. destruct H as [H|[]]; injection H as <- <-; split; unfold keys; simpl; repeat (apply NoDup_cons; [simpl; intuition discriminate|]); apply NoDup_nil. }
  split; [apply N; auto|]. split; [apply N; auto|]. repeat split; vm_compute; reflexivity.
Qed.
