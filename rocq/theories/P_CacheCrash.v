(** C25, C26: what is on disk when the process stops while the build cache is saved. *)
From Coq Require Import String Ascii List Arith Bool Lia.
Import ListNotations.
From Verif Require Import BuildCache BuildCacheProofs P_ModuleNames.
Local Open Scope string_scope.

(** the content of a file *)
Notation content p f := (@mget path string path_eqb p f).
Lemma content_put f p s q : content q (mput path_eqb p s f) = if path_eqb p q then Some s else content q f.
Proof. apply mget_put. apply path_eqb_eq. Qed.
Lemma content_remove f p q : content q (mremove path_eqb p f) = if path_eqb p q then None else content q f.
Proof. apply mget_remove. apply path_eqb_eq. Qed.
Lemma path_neq p q : p <> q -> path_eqb p q = false.
Proof. intros H. destruct (path_eqb p q) eqn:E; auto. apply path_eqb_eq in E. contradiction. Qed.

Definition touches (o : op) : list path :=
  match o with Create p | Append p _ | Remove p => [p] | Sync _ => [] | Rename p q => [p; q] end.
Lemma exec1_other f o p : ~ In p (touches o) -> content p (exec1 f o) = content p f.
Proof.
  destruct o as [q|q s|q|q q'|q]; simpl; intros H; auto.
  - rewrite content_put, path_neq by tauto. auto.
  - destruct (content q f); auto. rewrite content_put, path_neq by tauto. auto.
  - destruct (content q f); auto. rewrite content_put, content_remove, !path_neq by tauto. auto.
  - rewrite content_remove, path_neq by tauto. auto.
Qed.
Lemma exec_app f a b : exec f (a ++ b)%list = exec (exec f a) b.
Proof. apply fold_left_app. Qed.
Lemma exec_other l : forall f p, (forall o, In o l -> ~ In p (touches o)) -> content p (exec f l) = content p f.
Proof.
  induction l as [|o l IH]; intros f p H; auto. change (exec f (o :: l)) with (exec (exec1 f o) l). rewrite IH by (intros; apply H; simpl; auto).
  apply exec1_other. apply H. simpl; auto.
Qed.
Lemma stops_touch l m : stops l m -> forall p, (forall o, In o l -> ~ In p (touches o)) -> forall o, In o m -> ~ In p (touches o).
Proof.
  induction 1 as [l|q s t l|o l m H IH]; intros p K o' Ho; [destruct Ho|destruct Ho as [<-|[]]; apply (K (Append q (s ++ t))); simpl; auto|].
  destruct Ho as [<-|Ho]; [apply K; simpl; auto|]. apply (IH p); auto. intros; apply K; simpl; auto.
Qed.
Lemma stops_other l m f p : stops l m -> (forall o, In o l -> ~ In p (touches o)) -> content p (exec f m) = content p f.
Proof. intros H K. apply exec_other. eapply stops_touch; eauto. Qed.
Lemma stops_app a : forall b m, stops (a ++ b)%list m -> stops a m \/ exists m', m = (a ++ m')%list /\ stops b m'.
Proof.
  induction a as [|o a IH]; intros b m H; [right; exists m; auto|]. cbn [app] in H. inversion H; subst.
  - left. constructor.
  - left. constructor.
  - destruct (IH _ _ H3) as [H'|(m' & -> & H')]; [left; constructor; auto|right; exists m'; auto].
Qed.
Lemma stops_all l : stops l l.
Proof. induction l; constructor; auto. Qed.
Lemma stops_flat {A} (g : A -> list op) l : forall m, stops (flat_map g l) m ->
  m = flat_map g l \/ exists l1 e l2 m', l = (l1 ++ e :: l2)%list /\ m = (flat_map g l1 ++ m')%list /\ stops (g e) m'.
Proof.
  induction l as [|e l IH]; intros m H; [left; inversion H; auto|]. cbn [flat_map] in *. apply stops_app in H. destruct H as [H|(m' & -> & H)].
  - right. exists [], e, l, m. auto.
  - destruct (IH _ H) as [->|(l1 & e' & l2 & m2 & -> & -> & H')]; [left; auto|]. right. exists (e :: l1), e', l2, m2. split; auto. split; auto. simpl. rewrite app_assoc. auto.
Qed.

(** ** C26: one manifest *)
Lemma temp_neq d x : x <> ".manifest.json.tmp" -> sub d [x] <> temp_path (sub d [x]).
Proof. unfold temp_path, with_file_name, sub. rewrite removelast_last. intros H E. apply app_inj_tail in E. destruct E as [_ E]. auto. Qed.
Lemma manifest_path_eq r : manifest_path r = sub (sub r ["certs"]) ["manifest.json"].
Proof. rewrite sub_sub. auto. Qed.
Lemma manifest_neq_temp r : manifest_path r <> temp_path (manifest_path r).
Proof. rewrite manifest_path_eq. apply temp_neq. discriminate. Qed.

(** At every stop the manifest is the old one or the new one, a finished save has the new one, and no file besides it and the temporary
    file is changed. *)
Theorem manifest_is_old_or_new : forall json f r mf m, stops (save_manifest json (manifest_path r) mf) m ->
  (content (manifest_path r) (exec f m) = content (manifest_path r) f \/
   content (manifest_path r) (exec f m) = Some (json mf ++ newline)) /\
  (forall p, p <> manifest_path r -> p <> sub r ["certs"; ".manifest.json.tmp"] -> content p (exec f m) = content p f) /\
  (m = save_manifest json (manifest_path r) mf -> content (manifest_path r) (exec f m) = Some (json mf ++ newline)).
Proof.
  intros json f r mf m H. pose proof (manifest_neq_temp r) as N. assert (Et : temp_path (manifest_path r) = sub r ["certs"; ".manifest.json.tmp"]).
  { rewrite manifest_path_eq. unfold temp_path, with_file_name, sub. rewrite removelast_last, <- app_assoc. auto. }
  set (p := manifest_path r) in *. unfold save_manifest in H. rewrite Et in *. set (t := sub r ["certs"; ".manifest.json.tmp"]) in *.
  assert (F : forall f : fs, content p (exec f [Create t; Append t (json mf); Append t newline; Sync t; Rename t p]) = Some (json mf ++ newline)).
  { intros f'. cbn [exec fold_left exec1]. repeat (rewrite content_put, path_eqb_refl; cbv iota). reflexivity. }
  split; [|split].
  - change [Create t; Append t (json mf); Append t newline; Sync t; Rename t p] with ([Create t; Append t (json mf); Append t newline; Sync t] ++ [Rename t p])%list in H.
    apply stops_app in H. destruct H as [H|(m' & -> & H)].
    + left. eapply stops_other; eauto. intros o Ho. simpl in Ho. clear - Ho N; clearbody t p; intuition (subst; simpl in *; intuition congruence).
    + inversion H; subst; [left; apply exec_other; intros o Ho; simpl in Ho; clear - Ho N; clearbody t p; intuition (subst; simpl in *; intuition congruence)|]. inversion H3; subst. right. apply F.
  - intros q N1 N2. eapply stops_other; eauto. intros o Ho. simpl in Ho. clear - Ho N1 N2; clearbody t p; intuition (subst; simpl in *; intuition congruence).
  - intros ->. unfold save_manifest. rewrite Et. apply F.
Qed.
Print Assumptions manifest_is_old_or_new.
(** Reloading: what is parsed is what was parsed before, or the new manifest. *)
Theorem manifest_reloads : forall json parse f r mf m, (forall x, parse (json x ++ newline) = Some x) ->
  stops (save_manifest json (manifest_path r) mf) m ->
  let read (g : fs) : option manifest := match content (manifest_path r) g with Some s => parse s | None => None end in
  read (exec f m) = read f \/ read (exec f m) = Some mf.
Proof.
  intros json parse f r mf m Hp H. cbv zeta. destruct (manifest_is_old_or_new json f r mf m H) as ([E|E] & _); rewrite E; auto.
Qed.
Print Assumptions manifest_reloads.

(** ** Power loss: a file that was written and not synced since may hold anything. *)
Fixpoint unsynced (m : list op) : list path :=  (* the operations with the last one first *)
  match m with
  | [] => []
  | Create p :: m | Append p _ :: m => p :: unsynced m
  | Sync p :: m | Remove p :: m => filter (fun q => negb (path_eqb p q)) (unsynced m)
  | Rename p q :: m => if existsb (path_eqb p) (unsynced m) then q :: unsynced m else filter (fun x => negb (path_eqb q x)) (unsynced m)
  end.
Definition power_loss (f : fs) (l : list op) (g : fs) : Prop :=
  exists m, stops l m /\ forall p, ~ In p (unsynced (rev m)) -> content p g = content p (exec f m).
Theorem manifest_survives_power_loss : forall json f r mf g, power_loss f (save_manifest json (manifest_path r) mf) g ->
  content (manifest_path r) g = content (manifest_path r) f \/ content (manifest_path r) g = Some (json mf ++ newline).
Proof.
  intros json f r mf g (m & H & K). destruct (manifest_is_old_or_new json f r mf m H) as (D & _). rewrite K; auto. clear D K. pose proof (manifest_neq_temp r) as N.
  unfold save_manifest in H. set (t := temp_path (manifest_path r)) in *. set (p := manifest_path r) in *.
  change [Create t; Append t (json mf); Append t newline; Sync t; Rename t p] with ([Create t; Append t (json mf); Append t newline; Sync t] ++ [Rename t p])%list in H.
  apply stops_app in H. destruct H as [H|(m' & -> & H)].
  - assert (X : forall m, stops [Create t; Append t (json mf); Append t newline; Sync t] m -> forall q, In q (unsynced (rev m)) -> q = t).
    { clear. intros m H. repeat match goal with K : stops (_ :: _) _ |- _ => inversion K; clear K; subst | K : stops [] _ |- _ => inversion K; clear K; subst end;
        intros q; simpl; rewrite ?path_eqb_refl; simpl; intuition. }
    intros Hi. apply N. apply (X m H p Hi).
  - inversion H; subst.
    + simpl. rewrite path_eqb_refl. simpl. auto.
    + inversion H3; subst. simpl. rewrite path_eqb_refl. simpl. auto.
Qed.
Print Assumptions manifest_survives_power_loss.

(** ** C25: the whole cache *)
(** the text of a certificate file *)
Definition text (s : store) : string := fold_right (fun c t => c ++ newline ++ t) "" s.
Lemma app_assoc_s a b c : (a ++ b) ++ c = a ++ b ++ c.
Proof. induction a; simpl; congruence. Qed.
Lemma app_nil_s a : a ++ "" = a.
Proof. induction a; simpl; congruence. Qed.
Lemma appends p s : forall (f : fs) t0, content p f = Some t0 -> content p (exec f (map (fun c => Append p (c ++ newline)) s)) = Some (t0 ++ text s).
Proof.
  induction s as [|c s IH]; intros f t0 H; [simpl; rewrite app_nil_s; auto|]. cbn [map]. change (exec f (?o :: ?l)) with (exec (exec1 f o) l).
  rewrite (IH _ (t0 ++ c ++ newline)); [unfold text; cbn [fold_right]; rewrite !app_assoc_s; auto|]. cbn [exec1]. rewrite H, content_put, path_eqb_refl. auto.
Qed.
Lemma appends_cut p s : forall (f : fs) t0 m, content p f = Some t0 -> stops (map (fun c => Append p (c ++ newline)) s) m -> exists t u, content p (exec f m) = Some (t0 ++ t) /\ text s = t ++ u.
Proof.
  induction s as [|c s IH]; intros f t0 m H K.
  - inversion K; subst. exists "", "". rewrite app_nil_s. auto.
  - cbn [map] in K. inversion K as [|p1 s1 t1 l1 E1|o1 l1 m1 K1]; subst.
    + exists "", (text (c :: s)). rewrite app_nil_s. auto.
    + exists s1, (t1 ++ text s). cbn [exec fold_left exec1]. rewrite H, content_put, path_eqb_refl. split; auto. unfold text; cbn [fold_right]. rewrite <- app_assoc_s. change (fold_right (fun c t => c ++ newline ++ t) "" s) with (text s). rewrite <- app_assoc_s. congruence.
    + assert (E : content p (exec1 f (Append p (c ++ newline))) = Some (t0 ++ c ++ newline)) by (cbn [exec1]; rewrite H, content_put, path_eqb_refl; auto).
      destruct (IH _ _ _ E K1) as (t & u & H1 & H2). exists (c ++ newline ++ t), u. change (exec f (?o :: ?l)) with (exec (exec1 f o) l). rewrite H1. rewrite !app_assoc_s. split; auto.
      unfold text; cbn [fold_right]. fold (text s). rewrite H2. auto.
Qed.
Lemma store_saved f p s : content p (exec f (save_store p s)) = Some (text s).
Proof. unfold save_store. change (exec f (?o :: ?l)) with (exec (exec1 f o) l). rewrite (appends p s _ ""); auto. cbn [exec1]. rewrite content_put, path_eqb_refl. auto. Qed.
Lemma store_cut f p s m : stops (save_store p s) m -> content p (exec f m) = content p f \/ exists t u, content p (exec f m) = Some t /\ text s = t ++ u.
Proof.
  unfold save_store. intros H. inversion H; subst; auto. right. change (exec f (?o :: ?l)) with (exec (exec1 f o) l). apply (appends_cut p s _ "" m0); auto.
  cbn [exec1]. rewrite content_put, path_eqb_refl. auto.
Qed.
Lemma store_touches p s o : In o (save_store p s) -> touches o = [p].
Proof. unfold save_store. intros [<-|H]; auto. apply in_map_iff in H. destruct H as (c & <- & _). auto. Qed.

Lemma nodup_app_l {A} (l m : list A) : NoDup (l ++ m) -> NoDup l.
Proof. induction l as [|a l IH]; intros N; [constructor|]. cbn [app] in N. inversion N; subst. constructor; auto. intros H. apply H1. apply in_or_app; auto. Qed.
Lemma nodup_app_no {A} (l m : list A) a : NoDup (l ++ m) -> In a l -> In a m -> False.
Proof. induction l as [|b l IH]; intros N H K; [destruct H|]. cbn [app] in N. inversion N; subst. destruct H as [->|H]; auto. apply H2. apply in_or_app; auto. Qed.
Section Save.
Context (json : manifest -> string) (f : fs) (src : path) (c old : cache) (preserve : bool).
Let ex := fun p => mhas path_eqb p f.
Let c' := if preserve then merge_missing_manifests c old else c.
Let cert_ops := flat_map (fun e => match cert_path ex src (fst e) with Some p => save_store p (snd e) | None => [] end) (certs c).
Let manifest_ops := flat_map (fun e => if manifest_is_empty (snd e) then [] else save_manifest json (manifest_path (fst e)) (snd e)) (manifests c').
Let remove_ops := if preserve then [] else flat_map (fun e => if mhas path_eqb (fst e) (manifests c') then [] else [Remove (manifest_path (fst e))]) (manifests old).
Lemma ops_eq : save_ops json f src c old preserve = (cert_ops ++ manifest_ops ++ remove_ops)%list.
Proof. unfold save_ops, cert_ops, manifest_ops, remove_ops, c'. destruct preserve; auto. Qed.
Lemma ends_jsonl d p : from_project src d -> cert_path ex src d = Some p -> exists q s, p = sub q [s ++ ".jsonl"].
Proof.
  destruct d as [|parts|q]; intros F H; [discriminate| |].
  - destruct (cert_path_name _ _ _ _ F H) as (_ & -> & _). rewrite two_tail. exists (sub src (removelast parts ++ ["certs"])), (last parts ""). unfold sub. rewrite <- !app_assoc. auto.
  - apply cert_path_file in H. destruct H as (d & s & _ & _ & ->). eauto.
Qed.
Lemma last_char s x : x <> "l"%char -> forall t, s ++ ".jsonl" = t ++ String x "" -> False.
Proof.
  intros N. induction s as [|a s IH]; intros t.
  - destruct t as [|b0 [|b1 [|b2 [|b3 [|b4 [|b5 [|b6 t]]]]]]]; simpl; intros H; try discriminate H; injection H; intros; subst; try congruence.
  - destruct t as [|b t]; simpl; intros H.
    + injection H as _ H. destruct s; discriminate.
    + injection H as _ H. eauto.
Qed.
Lemma jsonl_other q s r : sub q [s ++ ".jsonl"] <> manifest_path r /\ sub q [s ++ ".jsonl"] <> temp_path (manifest_path r).
Proof.
  split; intros E.
  - rewrite manifest_path_eq in E. unfold sub in E. apply app_inj_tail in E. destruct E as [_ E].
    apply (last_char s "n") with (t := "manifest.jso"); [discriminate|exact E].
  - unfold temp_path, with_file_name, sub in E. apply app_inj_tail in E. destruct E as [_ E]. apply (last_char s "p") with (t := ".manifest.json.tm"); [discriminate|exact E].
Qed.
Lemma manifest_ops_touch o p : In o (manifest_ops ++ remove_ops)%list -> In p (touches o) -> exists r, p = manifest_path r \/ p = temp_path (manifest_path r).
Proof.
  rewrite in_app_iff. intros [H|H] K.
  - unfold manifest_ops in H. apply in_flat_map in H. destruct H as (e & _ & H). destruct (manifest_is_empty (snd e)); [destruct H|]. exists (fst e). simpl in H. intuition (subst; simpl in K; intuition).
  - unfold remove_ops in H. destruct preserve; [destruct H|]. apply in_flat_map in H. destruct H as (e & _ & H). destruct (mhas path_eqb (fst e) (manifests c')); [destruct H|]. destruct H as [<-|[]].
    simpl in K. exists (fst e). intuition.
Qed.
Context (Fp : forall d s, In (d, s) (certs c) -> from_project src d) (Nd : NoDup (keys (certs c))).
Lemma cert_ops_touch l o p : (forall e, In e l -> In e (certs c)) -> In o (flat_map (fun e => match cert_path ex src (fst e) with Some p => save_store p (snd e) | None => [] end) l) -> In p (touches o) ->
  exists d s, In (d, s) l /\ cert_path ex src d = Some p.
Proof.
  intros _ H K. apply in_flat_map in H. destruct H as ([d s] & Hi & H). cbn [fst snd] in H. destruct (cert_path ex src d) as [q|] eqn:E; [|destruct H]. rewrite (store_touches _ _ _ H) in K. destruct K as [<-|[]]. eauto.
Qed.
Lemma manifest_not_cert r d p : from_project src d -> cert_path ex src d = Some p -> p <> manifest_path r.
Proof. intros F H. destruct (ends_jsonl d p F H) as (q & s & ->). apply jsonl_other. Qed.
Lemma cert_not_touched d p o : from_project src d -> cert_path ex src d = Some p -> In o (manifest_ops ++ remove_ops)%list -> ~ In p (touches o).
Proof. intros F H Ho K. destruct (manifest_ops_touch o p Ho K) as (r & [E|E]); destruct (ends_jsonl d p F H) as (q & s & ->); destruct (jsonl_other q s r); auto. Qed.
Lemma certs_prefix l1 e l2 : certs c = (l1 ++ e :: l2)%list -> forall d s, In (d, s) (l1 ++ e :: l2)%list -> from_project src d.
Proof. intros E d s H. rewrite <- E in H. eauto. Qed.
(** the certificate files after a number of finished stores *)
Lemma stores_done l : (forall d s, In (d, s) l -> from_project src d) -> NoDup (keys l) -> forall f0 d s p, In (d, s) l -> cert_path ex src d = Some p ->
  content p (exec f0 (flat_map (fun e => match cert_path ex src (fst e) with Some p => save_store p (snd e) | None => [] end) l)) = Some (text s).
Proof.
  induction l as [|[d0 s0] l IH]; intros F N f0 d s p Hi Hp; [destruct Hi|]. cbn [flat_map fst snd]. rewrite exec_app. inversion N as [|k0 l0 Nn Nl]; subst. destruct Hi as [Hi|Hi].
  - injection Hi as -> ->. rewrite Hp. rewrite exec_other; [apply store_saved|]. intros o Ho K. apply in_flat_map in Ho. destruct Ho as ([d1 s1] & Hj & H). cbn [fst snd] in H.
    destruct (cert_path ex src d1) as [q|] eqn:E; [|destruct H]. rewrite (store_touches _ _ _ H) in K. destruct K as [->|[]].
    assert (d = d1) by (eapply (certificate_files_are_distinct ex src d d1 p); eauto; [eapply F; left; eauto|eapply F; right; eauto]). subst d1. apply Nn. apply (in_map fst) in Hj. exact Hj.
  - eapply IH; eauto. intros; eapply F; right; eauto.
Qed.
Lemma stores_untouched l : forall f0 p, (forall d s, In (d, s) l -> cert_path ex src d <> Some p) ->
  content p (exec f0 (flat_map (fun e => match cert_path ex src (fst e) with Some p => save_store p (snd e) | None => [] end) l)) = content p f0.
Proof.
  intros f0 p H. apply exec_other. intros o Ho K. apply in_flat_map in Ho. destruct Ho as ([d s] & Hi & Ho). cbn [fst snd] in Ho. destruct (cert_path ex src d) as [q|] eqn:E; [|destruct Ho].
  rewrite (store_touches _ _ _ Ho) in K. destruct K as [->|[]]. apply (H d s Hi E).
Qed.
Lemma all_stores_done : forall d s p, In (d, s) (certs c) -> cert_path ex src d = Some p -> content p (exec f cert_ops) = Some (text s).
Proof. intros. eapply stores_done; eauto. Qed.

Lemma certificates_at_stop m : stops (save_ops json f src c old preserve) m ->
  exists torn : list path, length torn <= 1 /\ forall d s p, In (d, s) (certs c) -> cert_path ex src d = Some p ->
    content p (exec f m) = content p f \/ content p (exec f m) = Some (text s) \/ (In p torn /\ exists t u, text s = t ++ u /\ content p (exec f m) = Some t).
Proof.
  rewrite ops_eq. intros H. apply stops_app in H. destruct H as [H|(m' & -> & H)].
  - unfold cert_ops in H. apply stops_flat in H. destruct H as [->|(l1 & [d0 s0] & l2 & m' & E & -> & H)].
    + exists []. split; auto. intros d s p Hi Hp. right. left. eapply all_stores_done; eauto.
    + cbn [fst snd] in H. destruct (cert_path ex src d0) as [p0|] eqn:E0.
      * exists [p0]. split; auto. intros d s p Hi Hp. pose proof Hi as Hi'. rewrite E in Hi. apply in_app_iff in Hi. pose proof Nd as N. rewrite E in N. unfold keys in N. rewrite map_app in N. cbn [map fst] in N.
        pose proof (NoDup_remove_2 _ _ _ N) as Nx. rewrite in_app_iff in Nx.
        assert (Pd : forall d' s', In (d', s') (certs c) -> d' <> d0 -> forall q, cert_path ex src d' = Some q -> q <> p0).
        { intros d' s' Hd Ne q Hq ->. apply Ne. eapply (certificate_files_are_distinct ex src d' d0 p0); eauto. eapply Fp. rewrite E. apply in_or_app. right. left. eauto. }
        rewrite exec_app. destruct Hi as [Hi|[Hi|Hi]].
        -- right. left. assert (Nn : d <> d0) by (intros ->; apply Nx; left; apply (in_map fst) in Hi; exact Hi).
           rewrite (stops_other _ _ _ _ H); [|intros o Ho K; rewrite (store_touches _ _ _ Ho) in K; destruct K as [<-|[]]; apply (Pd d s Hi' Nn p0 Hp eq_refl)].
           eapply stores_done; eauto; [intros; eapply Fp; rewrite E; apply in_or_app; left; eauto|]. unfold keys. eapply nodup_app_l; eauto.
        -- injection Hi as <- <-. rewrite Hp in E0. injection E0 as <-. destruct (store_cut (exec f (flat_map (fun e => match cert_path ex src (fst e) with Some p => save_store p (snd e) | None => [] end) l1)) _ _ _ H) as [K|(t & u & K & Ht)].
           ++ left. rewrite K. apply stores_untouched. intros d' s' Hd' Hq. assert (d' = d0).
              { eapply (certificate_files_are_distinct ex src d' d0 p); eauto. eapply (Fp d' s'); rewrite E; apply in_or_app; left; auto. }
              subst d'. apply Nx. left. apply (in_map fst) in Hd'. exact Hd'.
           ++ right. right. split; [left; auto|]. eauto.
        -- left. assert (Nn : d <> d0) by (intros ->; apply Nx; right; apply (in_map fst) in Hi; exact Hi).
           rewrite (stops_other _ _ _ _ H); [|intros o Ho K; rewrite (store_touches _ _ _ Ho) in K; destruct K as [<-|[]]; apply (Pd d s Hi' Nn p0 Hp eq_refl)].
           apply stores_untouched. intros d' s' Hd' Hq. assert (d' = d).
           { eapply (certificate_files_are_distinct ex src d' d p); eauto. eapply (Fp d' s'); rewrite E; apply in_or_app; left; auto. }
           subst d'. apply NoDup_remove_1 in N. apply (in_map fst) in Hd', Hi. eapply nodup_app_no; eauto.
      * exists []. split; auto. intros d s p Hi Hp. inversion H; subst. rewrite app_nil_r. pose proof Hi as Hi'. rewrite E in Hi. apply in_app_iff in Hi. pose proof Nd as N. rewrite E in N. unfold keys in N. rewrite map_app in N. cbn [map fst] in N.
        destruct Hi as [Hi|[Hi|Hi]].
        -- right. left. eapply stores_done; eauto; [intros; eapply Fp; rewrite E; apply in_or_app; left; eauto|]. unfold keys. eapply nodup_app_l; eauto.
        -- congruence.
        -- left. apply stores_untouched. intros d' s' Hd' Hq. assert (d' = d).
           { eapply (certificate_files_are_distinct ex src d' d p); eauto. eapply (Fp d' s'); rewrite E; apply in_or_app; left; auto. }
           subst d'. apply NoDup_remove_1 in N. apply (in_map fst) in Hd', Hi. eapply nodup_app_no; eauto.
  - exists []. split; auto. intros d s p Hi Hp. right. left. rewrite exec_app. rewrite (stops_other _ _ _ _ H); [eapply all_stores_done; eauto|].
    intros o Ho. eapply cert_not_touched; eauto.
Qed.
Lemma manifest_changed_certs m r : stops (save_ops json f src c old preserve) m -> content (manifest_path r) (exec f m) <> content (manifest_path r) f ->
  forall d s p, In (d, s) (certs c) -> cert_path ex src d = Some p -> content p (exec f m) = Some (text s).
Proof.
  rewrite ops_eq. intros H Hc d s p Hi Hp. apply stops_app in H. destruct H as [H|(m' & -> & H)].
  - exfalso. apply Hc. eapply stops_other; eauto. intros o Ho K. destruct (cert_ops_touch (certs c) _ _ (fun _ X => X) Ho K) as (d' & s' & Hd & Hq). apply (manifest_not_cert r d' _ (Fp _ _ Hd) Hq). auto.
  - rewrite exec_app. rewrite (stops_other _ _ _ _ H); [eapply all_stores_done; eauto|]. intros o Ho. eapply cert_not_touched; eauto.
Qed.
Lemma others_unchanged m p : stops (save_ops json f src c old preserve) m -> (forall d s, In (d, s) (certs c) -> cert_path ex src d <> Some p) ->
  (forall r, p <> manifest_path r /\ p <> temp_path (manifest_path r)) -> content p (exec f m) = content p f.
Proof.
  rewrite ops_eq. intros H N1 N2. eapply stops_other; eauto. intros o Ho K. apply in_app_iff in Ho. destruct Ho as [Ho|Ho].
  - destruct (cert_ops_touch (certs c) _ _ (fun _ X => X) Ho K) as (d & s & Hd & Hq). apply (N1 d s Hd Hq).
  - destruct (manifest_ops_touch o p Ho K) as (r & [E|E]); destruct (N2 r); auto.
Qed.
Lemma manifest_path_inj r1 r2 : manifest_path r1 = manifest_path r2 -> r1 = r2.
Proof. unfold manifest_path, sub. apply app_inv_tail. Qed.
Lemma temp_not_manifest r1 r2 : manifest_path r1 <> temp_path (manifest_path r2).
Proof.
  rewrite manifest_path_eq. unfold temp_path, with_file_name, sub. intros E. apply app_inj_tail in E. destruct E as [_ E]. discriminate.
Qed.
Lemma manifests_at_stop m r : NoDup (keys (manifests c')) -> stops (save_ops json f src c old preserve) m ->
  content (manifest_path r) (exec f m) = content (manifest_path r) f \/
  (exists mf, mget path_eqb r (manifests c') = Some mf /\ content (manifest_path r) (exec f m) = Some (json mf ++ newline)) \/
  (content (manifest_path r) (exec f m) = None /\ preserve = false /\ mget path_eqb r (manifests c) = None /\ mget path_eqb r (manifests old) <> None).
Proof.
  rewrite ops_eq. intros Nm H.
  assert (Cu : forall f0 m0, stops cert_ops m0 -> content (manifest_path r) (exec f0 m0) = content (manifest_path r) f0).
  { intros f0 m0 H0. eapply stops_other; eauto. intros o Ho K. destruct (cert_ops_touch (certs c) _ _ (fun _ X => X) Ho K) as (d' & s' & Hd & Hq). apply (manifest_not_cert r d' _ (Fp _ _ Hd) Hq). auto. }
  apply stops_app in H. destruct H as [H|(m' & -> & H)]; [left; auto|]. rewrite exec_app.
  rewrite <- (Cu f cert_ops (stops_all _)). generalize (exec f cert_ops). intros f1. clear Cu.
  assert (Mu : forall m0 f0, stops manifest_ops m0 -> content (manifest_path r) (exec f0 m0) = content (manifest_path r) f0 \/
     (exists mf, mget path_eqb r (manifests c') = Some mf /\ content (manifest_path r) (exec f0 m0) = Some (json mf ++ newline))).
  { intros m0 f0 H0. unfold manifest_ops in H0. assert (G : forall l, (forall e, In e l -> In e (manifests c')) -> forall f0, 
      content (manifest_path r) (exec f0 (flat_map (fun e => if manifest_is_empty (snd e) then [] else save_manifest json (manifest_path (fst e)) (snd e)) l)) = content (manifest_path r) f0 \/
      (exists mf, mget path_eqb r (manifests c') = Some mf /\ content (manifest_path r) (exec f0 (flat_map (fun e => if manifest_is_empty (snd e) then [] else save_manifest json (manifest_path (fst e)) (snd e)) l)) = Some (json mf ++ newline))).
    { induction l as [|[r1 m1] l IH]; intros Hl f2; [left; auto|]. cbn [flat_map fst snd]. rewrite exec_app. destruct (IH (fun e He => Hl e (or_intror He)) (exec f2 (if manifest_is_empty m1 then [] else save_manifest json (manifest_path r1) m1))) as [K|(mf & K1 & K2)]; [|right; eauto].
      rewrite K. destruct (manifest_is_empty m1); [left; auto|]. destruct (manifest_is_old_or_new json f2 r1 m1 _ (stops_all _)) as (_ & Ho & Hn). destruct (path_eqb r r1) eqn:E.
      - apply path_eqb_eq in E. subst r1. right. exists m1. split; [|auto]. apply in_mget; auto; [apply path_eqb_eq|]. apply Hl. left; auto.
      - left. apply Ho.
        + intros X. apply manifest_path_inj in X. subst. rewrite path_eqb_refl in E. discriminate.
        + intros X. change (manifest_path r) with (sub r ["certs"; "manifest.json"]) in X. unfold sub in X. rewrite !two_tail in X. apply app_inj_tail in X. destruct X as [_ X]. discriminate. }
    apply stops_flat in H0. destruct H0 as [->|(l1 & [r1 m1] & l2 & m2 & E & -> & H0)]; [apply G; auto|]. rewrite exec_app.
    destruct (G l1 ltac:(intros e He; rewrite E; apply in_or_app; auto) f0) as [K|(mf & K1 & K2)]; cbn [fst snd] in H0.
    - rewrite <- K. generalize (exec f0 (flat_map (fun e => if manifest_is_empty (snd e) then [] else save_manifest json (manifest_path (fst e)) (snd e)) l1)). intros f2.
      destruct (manifest_is_empty m1); [inversion H0; subst; left; auto|]. destruct (manifest_is_old_or_new json f2 r1 m1 _ H0) as (Hd & Ho & _). destruct (path_eqb r r1) eqn:Er.
      + apply path_eqb_eq in Er. subst r1. destruct Hd as [Hd|Hd]; [left; auto|right]. exists m1. split; auto. apply in_mget; auto; [apply path_eqb_eq|]. rewrite E. apply in_or_app. right. left. auto.
      + left. apply Ho.
        * intros X. apply manifest_path_inj in X. subst. rewrite path_eqb_refl in Er. discriminate.
        * intros X. change (manifest_path r) with (sub r ["certs"; "manifest.json"]) in X. unfold sub in X. rewrite !two_tail in X. apply app_inj_tail in X. destruct X as [_ X]. discriminate.
    - right. exists mf. split; auto. destruct (manifest_is_empty m1); [inversion H0; subst; auto|].
      destruct (manifest_is_old_or_new json (exec f0 (flat_map (fun e => if manifest_is_empty (snd e) then [] else save_manifest json (manifest_path (fst e)) (snd e)) l1)) r1 m1 _ H0) as (Hd & Ho & _). destruct (path_eqb r r1) eqn:Er.
      + apply path_eqb_eq in Er. subst r1. assert (Em : mget path_eqb r (manifests c') = Some m1) by (apply in_mget; auto; [apply path_eqb_eq|]; rewrite E; apply in_or_app; right; left; auto).
        assert (mf = m1) by congruence. subst. destruct Hd as [Hd|Hd]; rewrite Hd; auto.
      + rewrite Ho; auto.
        * intros X. apply manifest_path_inj in X. subst. rewrite path_eqb_refl in Er. discriminate.
        * intros X. change (manifest_path r) with (sub r ["certs"; "manifest.json"]) in X. unfold sub in X. rewrite !two_tail in X. apply app_inj_tail in X. destruct X as [_ X]. discriminate. }
  apply stops_app in H. destruct H as [H|(m2 & -> & H)]; [destruct (Mu _ f1 H) as [K|K]; auto|]. rewrite exec_app.
  assert (Ru : forall f2, content (manifest_path r) (exec f2 m2) = content (manifest_path r) f2 \/
     (content (manifest_path r) (exec f2 m2) = None /\ preserve = false /\ mget path_eqb r (manifests c) = None /\ mget path_eqb r (manifests old) <> None)).
  { clear Mu. intros f2. unfold remove_ops, c' in H. destruct preserve; [inversion H; subst; left; auto|].
    assert (T : forall o, In o m2 -> exists r1, o = Remove (manifest_path r1) /\ mget path_eqb r1 (manifests c) = None /\ mget path_eqb r1 (manifests old) <> None).
    { assert (S : forall l m, stops l m -> (forall o, In o l -> exists r1, o = Remove (manifest_path r1) /\ mget path_eqb r1 (manifests c) = None /\ mget path_eqb r1 (manifests old) <> None) -> forall o, In o m -> exists r1, o = Remove (manifest_path r1) /\ mget path_eqb r1 (manifests c) = None /\ mget path_eqb r1 (manifests old) <> None).
      { induction 1 as [l|q s t l|o l m K IH]; intros A o' Ho'; [destruct Ho'| |].
        - destruct (A (Append q (s ++ t)) (or_introl eq_refl)) as (r1 & X & _). discriminate.
        - destruct Ho' as [<-|Ho']; [apply A; left; auto|]. apply IH; auto. intros; apply A; right; auto. }
      intros o Ho. eapply S; eauto. intros o' Ho'. apply in_flat_map in Ho'. destruct Ho' as ([r1 m1] & Hi & Ho'). cbn [fst] in Ho'. unfold mhas in Ho'. destruct (mget path_eqb r1 (manifests c)) eqn:E1; [destruct Ho'|].
      destruct Ho' as [<-|[]]. exists r1. split; auto. split; auto. intros E2. clear - Hi E2. induction (manifests old) as [|[a b] l IH]; [destruct Hi|]. cbn [mget] in E2. destruct (path_eqb a r1) eqn:E; [discriminate|].
      destruct Hi as [Hi|Hi]; auto. injection Hi as -> ->. rewrite path_eqb_refl in E. discriminate. }
    clear H. revert f2. induction m2 as [|o m2 IH]; intros f2; [left; auto|]. change (exec f2 (o :: m2)) with (exec (exec1 f2 o) m2).
    destruct (IH (fun o Ho => T o (or_intror Ho)) (exec1 f2 o)) as [K|K]; [|right; auto]. destruct (T o (or_introl eq_refl)) as (r1 & -> & T1 & T2). rewrite K. cbn [exec1]. rewrite content_remove.
    destruct (path_eqb (manifest_path r1) (manifest_path r)) eqn:E; [|left; auto]. apply path_eqb_eq, manifest_path_inj in E. subst r1. right. auto. }
  destruct (Ru (exec f1 manifest_ops)) as [K|K]; [|right; right; exact K]. rewrite K. destruct (Mu _ f1 (stops_all _)) as [K'|K']; auto.
Qed.
End Save.

(** At every stop every certificate file is the old one or the new one, except at most one, which is the beginning of the new one. *)
Theorem certificates_old_new_or_cut_partial : forall json f src c old preserve m,
  (forall d s, In (d, s) (certs c) -> from_project src d) -> NoDup (keys (certs c)) -> stops (save_ops json f src c old preserve) m ->
  exists torn : list path, length torn <= 1 /\ forall d s p, In (d, s) (certs c) -> cert_path (fun p => mhas path_eqb p f) src d = Some p ->
    content p (exec f m) = content p f \/ content p (exec f m) = Some (text s) \/ (In p torn /\ exists t u, text s = t ++ u /\ content p (exec f m) = Some t).
Proof. intros json f src c old preserve m F N. apply certificates_at_stop; auto. Qed.
Print Assumptions certificates_old_new_or_cut_partial.
(** At every stop every manifest is the old one, the one of the saved cache, or gone because a full build has no such package any more. *)
Theorem manifests_old_new_or_gone : forall json f src c old preserve m r,
  (forall d s, In (d, s) (certs c) -> from_project src d) -> NoDup (keys (manifests c)) -> stops (save_ops json f src c old preserve) m ->
  content (manifest_path r) (exec f m) = content (manifest_path r) f \/
  (exists mf, mget path_eqb r (manifests (saved_cache c old preserve)) = Some mf /\ content (manifest_path r) (exec f m) = Some (json mf ++ newline)) \/
  (content (manifest_path r) (exec f m) = None /\ preserve = false /\ mget path_eqb r (manifests c) = None /\ mget path_eqb r (manifests old) <> None).
Proof.
  intros json f src c old preserve m r F N H. apply (manifests_at_stop json f src c old preserve F m r); auto.
  destruct preserve; auto. unfold merge_missing_manifests. cbn [manifests]. clear H F. generalize (manifests old) at 1. generalize dependent (manifests c). intros m0 N l. revert m0 N.
  induction l as [|e l IH]; intros m0 N; auto. cbn [fold_left]. apply IH. apply nodup_put; auto. apply path_eqb_eq.
Qed.
Print Assumptions manifests_old_new_or_gone.
(** A manifest on disk that is not the old one finds all certificate files of the new cache complete. *)
Theorem new_manifest_has_certificates : forall json f src c old preserve m r,
  (forall d s, In (d, s) (certs c) -> from_project src d) -> NoDup (keys (certs c)) -> stops (save_ops json f src c old preserve) m ->
  content (manifest_path r) (exec f m) <> content (manifest_path r) f ->
  forall d s p, In (d, s) (certs c) -> cert_path (fun p => mhas path_eqb p f) src d = Some p -> content p (exec f m) = Some (text s).
Proof. intros json f src c old preserve m r F N H K. eapply manifest_changed_certs; eauto. Qed.
Print Assumptions new_manifest_has_certificates.
(** No other file is touched: sources, certificates of modules that are not saved. *)
Theorem save_touches_nothing_else : forall json f src c old preserve m p, stops (save_ops json f src c old preserve) m ->
  (forall d s, In (d, s) (certs c) -> cert_path (fun p => mhas path_eqb p f) src d <> Some p) ->
  file_name p <> Some "manifest.json" -> file_name p <> Some ".manifest.json.tmp" -> content p (exec f m) = content p f.
Proof.
  intros json f src c old preserve m p H N1 N2 N3. eapply others_unchanged; eauto. intros r. split; intros ->.
  - apply N2. change (manifest_path r) with (sub r (["certs"] ++ ["manifest.json"])). apply name_sub.
  - apply N3. unfold temp_path, with_file_name. apply (name_sub _ []).
Qed.
Print Assumptions save_touches_nothing_else.
(** A complete certificate file is read back as it was written. *)
Lemma substring_last s c : substring (String.length (s ++ String c "") - 1) 1 (s ++ String c "") = String c "".
Proof.
  rewrite app_len. cbn [String.length]. replace (String.length s + 1 - 1) with (String.length s) by lia. induction s as [|a s IH]; auto.
Qed.
Theorem certificate_file_reloads : forall readable s,
  (forall l, In l s -> free "010" l /\ readable l = true /\ blank l = false /\ strip_cr l = l) -> load_store readable (text s) = Some s.
Proof.
  intros readable s H. unfold load_store, text_lines.
  assert (E : split "010" (text s) = sub s [""]).
  { clear - H. unfold text. induction s as [|a s IH]; auto. cbn [fold_right]. change (a ++ newline ++ ?t) with (a ++ String "010" t). rewrite split_sep by (apply H; left; auto). rewrite IH by (intros; apply H; right; auto). auto. }
  rewrite E. unfold sub. rewrite last_last, removelast_last. cbn [String.eqb]. assert (Em : map strip_cr s = s).
  { clear - H. induction s as [|a s IH]; auto. cbn [map]. rewrite IH by (intros; apply H; right; auto). f_equal. apply H. left; auto. }
  rewrite Em. assert (Ef : filter (fun x => negb (blank x)) s = s).
  { clear - H. induction s as [|a s IH]; auto. cbn [filter]. destruct (H a (or_introl eq_refl)) as (_ & _ & -> & _). cbn [negb]. f_equal. apply IH. intros; apply H; right; auto. }
  rewrite Ef. assert (Er : forallb readable s = true) by (apply forallb_forall; intros; apply H; auto). rewrite Er. auto.
Qed.
Print Assumptions certificate_file_reloads.

(** ** The full claim fails: the certificate file is emptied before it is written, so a stop leaves a module with neither the old nor the
    new certificates, while the old manifest still vouches for it. *)
Definition cc_src : path := ["src"].
Definition cc_nat := Name ["nat"].
Definition cc_m (h : string) := Manifest None [("nat.ac", h)] [].
Definition cc_json (m : manifest) : string := match m_implementation m with (_, h) :: _ => h | [] => "" end.
Definition cc_parse (s : string) : option manifest := match split "010" s with [h; ""] => Some (cc_m h) | _ => None end.
Definition cc_old := Cache [(cc_nat, ["{1}"; "{2}"])] [(cc_src, cc_m "h1")].
Definition cc_new := Cache [(cc_nat, ["{3}"; "{4}"])] [(cc_src, cc_m "h1")].
Definition cc_files : fs := [(["src"; "nat.ac"], "theorem"); (["src"; "certs"; "nat.jsonl"], text ["{1}"; "{2}"]); (["src"; "certs"; "manifest.json"], "h1" ++ newline)].
Definition cc_readable (s : string) : bool := String.eqb (substring (String.length s - 1) 1 s) "}".
Definition cc_ops := save_ops cc_json cc_files cc_src cc_new cc_old false.
Definition cc_after := exec cc_files (firstn 1 cc_ops).
Lemma stops_firstn l : forall n, stops l (firstn n l).
Proof. induction l; intros [|n]; constructor; auto. Qed.
Theorem reload_old_or_new_refuted : exists json readable parse f src c old m d, stops (save_ops json f src c old false) m /\
  load readable parse f src = old /\ load readable parse (exec f (save_ops json f src c old false)) src = c /\
  let after := load readable parse (exec f m) src in
  mget desc_eqb d (certs after) <> mget desc_eqb d (certs old) /\ mget desc_eqb d (certs after) <> mget desc_eqb d (certs c) /\
  manifest_matches (fun p => mhas path_eqb p (exec f m)) src after d "h1" = true.
Proof.
  exists cc_json, cc_readable, cc_parse, cc_files, cc_src, cc_new, cc_old, (firstn 1 cc_ops), cc_nat.
  split; [apply stops_firstn|]. split; [reflexivity|]. split; [reflexivity|]. cbv zeta. split; [vm_compute; discriminate|]. split; [vm_compute; discriminate|]. reflexivity.
Qed.
Print Assumptions reload_old_or_new_refuted.
(** Certificate files are not synced: after a power loss the new manifest can stand beside lost certificates. *)
Theorem power_loss_certificates_refuted : exists json f src c old g d s p r, power_loss f (save_ops json f src c old false) g /\
  content (manifest_path r) g <> content (manifest_path r) f /\ In (d, s) (certs c) /\ cert_path (fun p => mhas path_eqb p f) src d = Some p /\ content p g <> Some (text s).
Proof.
  set (new := Cache [(cc_nat, ["{3}"; "{4}"])] [(cc_src, cc_m "h2")]).
  exists cc_json, cc_files, cc_src, new, cc_old, (mput path_eqb ["src"; "certs"; "nat.jsonl"] "" (exec cc_files (save_ops cc_json cc_files cc_src new cc_old false))), cc_nat, ["{3}"; "{4}"], ["src"; "certs"; "nat.jsonl"], cc_src.
  split.
  - exists (save_ops cc_json cc_files cc_src new cc_old false). split; [apply stops_all|]. intros p Hp. rewrite content_put. destruct (path_eqb ["src"; "certs"; "nat.jsonl"] p) eqn:E; auto.
    apply path_eqb_eq in E. subst p. exfalso. apply Hp. vm_compute. auto.
  - split; [vm_compute; discriminate|]. split; [left; auto|]. split; [reflexivity|vm_compute; discriminate].
Qed.
Print Assumptions power_loss_certificates_refuted.

(** ** Concrete cases *)
Example crash_case :
  (forall d s, In (d, s) (certs cc_new) -> from_project cc_src d) /\ NoDup (keys (certs cc_new)) /\ NoDup (keys (manifests cc_new)) /\
  length cc_ops = 8 /\ stops cc_ops (firstn 6 cc_ops) /\
  content ["src"; "certs"; "nat.jsonl"] (exec cc_files (firstn 6 cc_ops)) = Some (text ["{3}"; "{4}"]) /\
  content (manifest_path cc_src) (exec cc_files (firstn 6 cc_ops)) = Some ("h1" ++ newline) /\
  load_store cc_readable (text ["{3}"; "{4}"]) = Some ["{3}"; "{4}"] /\
  (forall x, cc_parse (cc_json (cc_m x) ++ newline) = Some (cc_m x) \/ ~ free "010" x).
Proof.
  split; [intros d s [H|[]]; injection H as <- <-; reflexivity|]. split; [repeat (apply NoDup_cons; [simpl; intuition discriminate|]); apply NoDup_nil|].
  split; [repeat (apply NoDup_cons; [simpl; intuition discriminate|]); apply NoDup_nil|]. split; [reflexivity|]. split; [apply stops_firstn|]. repeat (split; [reflexivity|]).
  intros x. destruct (in_dec ascii_dec "010"%char (list_ascii_of_string x)) as [H|H]; [right; intros K; apply K, H|left].
  unfold cc_parse, cc_json, cc_m. cbn [m_implementation]. unfold newline. rewrite split_sep by exact H. reflexivity.
Qed.
