(** C46: a module that is skipped as unchanged was verified before with the same text and the same texts of all dependencies. *)
From Coq Require Import String Ascii List Arith Bool Lia.
Import ListNotations.
From Verif Require Import BuildCache BuildCacheProofs P_ModuleNames SkipUnchanged.
Local Open Scope string_scope.

Definition path_ok (p : path) : Prop := Forall (free "/") p.

Lemma some_inj {A} (a b : A) : Some a = Some b -> a = b.
Proof. congruence. Qed.
(** ** The traversal finds all dependencies *)
Section Deps.
Context (src : path) (imports : string -> list (list string)) (w : world).
Notation dir := (direct src imports w).
Lemma existsb_desc d l : existsb (desc_eqb d) l = true <-> In d l.
Proof.
  rewrite existsb_exists. split; [intros (x & H & E); apply desc_eqb_eq in E; subst; auto|]. intros H. exists d. split; auto. apply desc_eqb_eq; auto.
Qed.
Definition traversed (seen out : list descriptor) (d : descriptor) (r : bool * list descriptor * list descriptor) : Prop :=
  let '(new, seen', out') := r in
  incl seen seen' /\ incl out out' /\ In d seen' /\ (forall x, In x seen' -> In x seen \/ incl (dir x) seen') /\
  (forall x, In x seen' -> In x seen \/ (x = d /\ new = true) \/ In x out').
Lemma each_spec (go : list descriptor -> list descriptor -> descriptor -> option (bool * list descriptor * list descriptor)) :
  (forall seen out d r, go seen out d = Some r -> traversed seen out d r) ->
  forall l seen out r, each go l seen out = Some r ->
  let '(new, seen', out') := r in
  new = true /\ incl seen seen' /\ incl out out' /\ incl l seen' /\ (forall x, In x seen' -> In x seen \/ incl (dir x) seen') /\ (forall x, In x seen' -> In x seen \/ In x out').
Proof.
  intros G. induction l as [|e l IH]; intros seen out [[new seen'] out'] H.
  - cbn [each] in H. injection H as <- <- <-. repeat split; auto using incl_refl. intros x [].
  - cbn [each] in H. destruct (go seen out e) as [[[n1 s1] o1]|] eqn:E; [|discriminate]. apply G in E. destruct E as (A1 & A2 & A3 & A4 & A5). apply IH in H. destruct H as (-> & B1 & B2 & B3 & B4 & B5).
    assert (O : incl o1 out') by (destruct n1; auto; intros x Hx; apply B2; apply in_or_app; auto).
    split; auto. split; [eapply incl_tran; eauto|]. split; [eapply incl_tran; eauto|]. split; [intros x [<-|Hx]; auto|]. split.
    + intros x Hx. destruct (B4 x Hx) as [Hx'|Hx']; auto. destruct (A4 x Hx') as [|K]; auto. right. eapply incl_tran; eauto.
    + intros x Hx. destruct (B5 x Hx) as [Hx'|Hx']; auto. destruct (A5 x Hx') as [|[[-> ->]|K]]; auto. right. apply B2. apply in_or_app. right. left. auto.
Qed.
Lemma append_spec fuel : forall seen out d r, append_deps src imports fuel w seen out d = Some r -> traversed seen out d r.
Proof.
  induction fuel as [|fuel IH]; intros seen out d [[new seen'] out'] H; [discriminate|]. cbn [append_deps] in H. destruct (existsb (desc_eqb d) seen) eqn:E.
  - apply existsb_desc in E. injection H as <- <- <-. repeat split; auto using incl_refl.
  - apply (each_spec _ IH) in H. destruct H as (-> & B1 & B2 & B3 & B4 & B5). split; [intros x Hx; apply B1; right; auto|]. split; auto. split; [apply B1; left; auto|]. split.
    + intros x Hx. destruct (B4 x Hx) as [[->|Hx']|Hx']; auto.
    + intros x Hx. destruct (B5 x Hx) as [[->|Hx']|Hx']; auto.
Qed.
Lemma all_deps_complete fuel d deps : all_deps src imports fuel w d = Some deps -> forall e, depends src imports w d e -> e = d \/ In e deps.
Proof.
  unfold all_deps. destruct (append_deps src imports fuel w [] [] d) as [[[new seen] out]|] eqn:E; [|discriminate]. intros H. injection H as <-. apply append_spec in E. destruct E as (_ & _ & A3 & A4 & A5). cbn [snd].
  assert (C : forall x e, depends src imports w x e -> In x seen -> In e seen).
  { induction 1 as [x e H|x e y H D IH]; intros Hx.
    - destruct (A4 x Hx) as [[]|K]. auto.
    - apply IH. destruct (A4 x Hx) as [[]|K]. auto. }
  intros e D. destruct (A5 e (C d e D A3)) as [[]|[[-> _]|K]]; auto.
Qed.
End Deps.

(** ** What a manifest says about a source file *)
Definition vouches (k : cache) (p : path) (h : string) : Prop :=
  exists r m, mget path_eqb r (manifests k) = Some m /\
    ((p = sub r ["interface.ac"] /\ m_interface m = Some h) \/
     (exists rel, p = sub r rel /\ rel <> [] /\ mget String.eqb (join "/" rel) (m_implementation m) = Some h)).
Lemma opt_some (a : option string) h : opt_eqb a (Some h) = true -> a = Some h.
Proof. apply opt_eqb_eq. Qed.
Section Vouch.
Context (exists_ : path -> bool) (src : path).
Lemma package_root_inside l x r : package_root exists_ src (sub src (l ++ [x])) = Some r -> exists a b, l = (a ++ b)%list /\ r = sub src a.
Proof. intros H. apply root_spec in H. destruct H as (a & b & E & _ & Er & _). eauto. Qed.
Lemma source_form d p : source_path exists_ src d = Some p -> exists l x, p = sub src (l ++ [x]).
Proof.
  destruct d as [|parts|q]; try discriminate. destruct parts as [|a r]; [discriminate|]. cbn [source_path]. set (parts := a :: r).
  destruct (exists_ (sub (sub src (removelast parts)) [last parts ""; "interface.ac"])); rewrite sub_sub; intros H; apply (f_equal (fun o => match o with Some x => x | None => [] end)) in H; cbv iota in H; subst p.
  - rewrite two_tail. eexists _, _. reflexivity.
  - eexists _, _. reflexivity.
Qed.
Lemma root_form p r : (exists l x, p = sub src (l ++ [x])) -> root_for_source exists_ src p = Some r -> exists rel, rel <> [] /\ p = sub r rel /\ (exists a, r = sub src a).
Proof.
  intros (l & x & ->) H. unfold root_for_source in H. rewrite strip_sub in H. destruct (package_root exists_ src (sub src (l ++ [x]))) as [r'|] eqn:E; injection H as <-.
  - apply package_root_inside in E. destruct E as (a & b & -> & ->). exists (b ++ [x])%list. split; [destruct b; discriminate|]. split; [|eauto]. unfold sub. rewrite <- !app_assoc. auto.
  - exists (l ++ [x])%list. split; [destruct l; discriminate|]. split; auto. exists []. unfold sub. rewrite app_nil_r. auto.
Qed.
Lemma interface_form p r : root_for_source exists_ src p = Some r -> is_interface_path exists_ src p = true -> p = sub r ["interface.ac"].
Proof.
  unfold root_for_source, is_interface_path. destruct (strip_prefix src p); [|discriminate]. intros H. injection H as <-. rewrite andb_true_iff. intros [_ H].
  destruct (package_root exists_ src p) as [r|]; [|discriminate]. apply path_eqb_eq in H. auto.
Qed.
Lemma matches_vouches k d p h : source_path exists_ src d = Some p -> manifest_matches exists_ src k d h = true -> vouches k p h.
Proof.
  intros Hs H. unfold manifest_matches in H. rewrite Hs in H. destruct (root_for_source exists_ src p) as [r|] eqn:Er; [|discriminate].
  destruct (mget path_eqb r (manifests k)) as [m|] eqn:Em; [|discriminate]. exists r, m. split; auto. destruct (is_interface_path exists_ src p) eqn:Ei.
  - left. split; [eapply interface_form; eauto|]. apply opt_some in H. auto.
  - right. destruct (root_form p r (source_form _ _ Hs) Er) as (rel & Nr & -> & _). exists rel. split; auto. split; auto. unfold implementation_key in H. rewrite strip_sub in H. apply opt_some in H. auto.
Qed.
Lemma sub_inj_l r1 r2 l : sub r1 l = sub r2 l -> r1 = r2.
Proof. unfold sub. apply app_inv_tail. Qed.
Lemma path_ok_sub r l : path_ok (sub r l) -> path_ok l.
Proof. unfold path_ok, sub. rewrite Forall_app. tauto. Qed.
(** recording a module adds its own text and nothing else *)
Lemma record_vouches c d h deps p q h' : source_path exists_ src d = Some q -> path_ok q -> path_ok p -> vouches (record_state exists_ src c d h deps) p h' -> vouches c p h' \/ (p = q /\ h' = h).
Proof.
  intros Hs Oq Op (r & m & Hm & Hv). unfold record_state in Hm. rewrite Hs in Hm. destruct (root_for_source exists_ src q) as [r0|] eqn:Er; [|left; exists r, m; auto].
  cbn [manifests] in Hm. rewrite mget_put in Hm by apply path_eqb_eq. destruct (path_eqb r0 r) eqn:E; [|left; exists r, m; auto]. apply path_eqb_eq in E. subst r0. injection Hm as <-. cbn [m_interface m_implementation] in Hv.
  assert (L : forall o, (p = sub r ["interface.ac"] /\ m_interface (root_manifest c r) = Some h' \/ (exists rel, p = sub r rel /\ rel <> [] /\ mget String.eqb (join "/" rel) (m_implementation (root_manifest c r)) = Some h')) -> vouches c p h' \/ o).
  { intros o H. left. unfold root_manifest in H. destruct (mget path_eqb r (manifests c)) as [m0|] eqn:E0; [exists r, m0; auto|]. cbn in H. destruct H as [[_ H]|(rel & _ & _ & H)]; discriminate. }
  destruct (is_interface_path exists_ src q) eqn:Ei; cbn [m_interface m_implementation] in Hv.
  - destruct Hv as [[-> Hv]|Hv]; [|apply L; auto]. right. split; [symmetry; eapply interface_form; eauto|congruence].
  - destruct (root_form q r (source_form _ _ Hs) Er) as (rel & Nr & -> & _). unfold implementation_key in Hv. rewrite strip_sub in Hv. cbn [option_map m_interface m_implementation] in Hv.
    destruct Hv as [Hv|(rel' & -> & Nr' & Hv)]; [apply L; auto|]. rewrite mget_put in Hv by apply seqb_eq. destruct (String.eqb (join "/" rel) (join "/" rel')) eqn:E.
    + apply seqb_eq in E. apply (join_inj "/" rel rel') in E; auto; [|apply (path_ok_sub r); auto|apply (path_ok_sub r); auto]. subst rel'. right. split; congruence.
    + apply L. right. exists rel'. auto.
Qed.
Lemma insert_vouches c d s o deps p h' : vouches (insert exists_ src c d s o deps) p h' -> vouches (match o with Some h => record_state exists_ src c d h deps | None => c end) p h'.
Proof. unfold insert. intros (r & m & H). exists r, m. exact H. Qed.
End Vouch.

(** ** Resolving names *)
Section History.
Context (src : path) (imports : string -> list (list string)) (src_ok : path_ok src).
Notation source w d := (source src w d).
Lemma resolve_source w parts p : parts <> [] -> forallb valid_part parts = true -> path_from_descriptor (w_exists w) src (Name parts) = Some p -> source w (Name parts) = Some p.
Proof.
  intros N V H. cbn [path_from_descriptor] in H. change (join "." parts) with (join (String "." "") parts) in H. rewrite split_join in H; [|auto|apply valid_all_free; auto].
  unfold module_path in H. rewrite V in H. unfold SkipUnchanged.source. destruct parts as [|a r]; [congruence|]. cbn [source_path].
  destruct (w_exists w (sub (sub src (removelast (a :: r))) [last (a :: r) ""; "interface.ac"])); [|congruence]. destruct (w_exists w (sub (sub src (removelast (a :: r))) [last (a :: r) "" ++ ".ac"])); congruence.
Qed.
Lemma resolves_source w d : resolves src w d -> exists p, source w d = Some p /\ w_exists w p = true /\ path_ok p.
Proof.
  destruct d as [|parts|q]; intros [R (p & H & He)]; try contradiction. destruct R as [N V]. pose proof (resolve_source w parts p N V H) as Hs. exists p. split; auto. split; auto.
  unfold SkipUnchanged.source in Hs. destruct parts as [|a r]; [congruence|]. set (parts := a :: r) in *. assert (X : p = sub (sub src (removelast parts)) [last parts ""; "interface.ac"] \/ p = sub (sub src (removelast parts)) [last parts "" ++ ".ac"]).
  { change (source_path (w_exists w) src (Name parts)) with (Some (if w_exists w (sub (sub src (removelast parts)) [last parts ""; "interface.ac"]) then sub (sub src (removelast parts)) [last parts ""; "interface.ac"] else sub (sub src (removelast parts)) [last parts "" ++ ".ac"])) in Hs.
    apply some_inj in Hs. destruct (w_exists w (sub (sub src (removelast parts)) [last parts ""; "interface.ac"])); auto. }
  assert (Ff : Forall (free "/") (removelast parts)) by (apply Forall_forall; intros s Hs'; apply valid_slash; pose proof (forallb_front _ V) as Vf; rewrite forallb_forall in Vf; auto).
  pose proof (valid_slash _ (forallb_last _ N V)) as Fl. unfold path_ok. destruct X as [->| ->]; unfold sub; rewrite !Forall_app; (split; [split; auto|]).
  - repeat constructor; auto. unfold free. simpl. intuition discriminate.
  - repeat constructor. unfold free in *. clear - Fl. induction (last parts "") as [|c s IH]; simpl in *; intuition discriminate.
Qed.
(** a name that resolves in both worlds, to a file in the one that exists in the other, means the same file *)
Lemma same_file w w0 d p : resolves src w d -> resolves src w0 d -> source w d = Some p -> w_exists w0 p = true -> source w0 d = Some p.
Proof.
  destruct d as [|parts|q]; intros [R (p1 & H1 & E1)] [_ (p2 & H2 & E2)] Hs He; try contradiction. destruct R as [N V].
  pose proof (resolve_source w parts p1 N V H1) as S1. pose proof (resolve_source w0 parts p2 N V H2) as S2. rewrite Hs in S1. injection S1 as <-. rewrite S2. f_equal.
  cbn [path_from_descriptor] in H1, H2. change (join "." parts) with (join (String "." "") parts) in H1, H2. rewrite split_join in H1, H2; try apply valid_all_free; auto.
  unfold module_path in H1, H2. rewrite V in H1, H2. clear Hs S2. set (fi := sub (sub src (removelast parts)) [last parts ""; "interface.ac"]) in *. set (ff := sub (sub src (removelast parts)) [last parts "" ++ ".ac"]) in *.
  destruct (w_exists w fi), (w_exists w ff), (w_exists w0 fi) eqn:A, (w_exists w0 ff) eqn:B; try discriminate; try congruence.
Qed.

Definition agrees (w0 w : world) (d0 d : descriptor) : Prop :=
  (exists p, source w0 d0 = Some p /\ source w d = Some p /\ w_text w0 p = w_text w p) /\
  forall e, depends src imports w d e -> exists q, source w0 e = Some q /\ source w e = Some q /\ w_text w0 q = w_text w q.
Definition certified (w : world) (log : list (world * descriptor)) (k : cache) : Prop := forall p h, path_ok p -> vouches k p h ->
  exists d, loads src imports w d /\ source w d = Some p /\ w_text w p = h /\ exists w0 d0, In (w0, d0) log /\ agrees w0 w d0 d.
Definition full (write preserve : bool) : Prop := write = true /\ preserve = false.

Lemma certified_incl w log log' k : incl log log' -> certified w log k -> certified w log' k.
Proof. intros I H p h O V. destruct (H p h O V) as (d & L & S & T & w0 & d0 & Hi & A). exists d. split; auto. split; auto. split; auto. exists w0, d0. auto. Qed.
Lemma direct_text w w0 d d0 p : source w d = Some p -> source w0 d0 = Some p -> w_text w0 p = w_text w p -> direct src imports w0 d0 = direct src imports w d.
Proof. intros H1 H2 H3. unfold direct, hash. rewrite H1, H2. cbn [option_map]. rewrite H3. auto. Qed.
(** the heart: skipping against a certified cache *)
Lemma skip_agrees check fuel w wk log k d deps : certified wk log k -> loads src imports w d -> all_deps src imports fuel w d = Some deps ->
  skips src check w k d deps = true -> exists w0 d0, In (w0, d0) log /\ agrees w0 w d0 d.
Proof.
  intros C [Rd Re] Hd Hs. unfold skips in Hs. rewrite !andb_true_iff in Hs. destruct Hs as [[[_ Hm] Hf] _]. rewrite forallb_forall in Hf.
  assert (M : forall e, resolves src w e -> matches src w k e = true -> exists p, source w e = Some p /\ w_exists w p = true /\ path_ok p /\ vouches k p (w_text w p)).
  { intros e R Hme. destruct (resolves_source w e R) as (p & Hp & Hx & Ho). exists p. repeat (split; auto). unfold matches, hash in Hme. rewrite Hp in Hme. cbn [option_map] in Hme.
    eapply matches_vouches; eauto. }
  destruct (M d Rd Hm) as (p & Hp & _ & Ho & Hv). destruct (C p _ Ho Hv) as (d' & [Rd' Re'] & Hp' & Ht' & w1 & d1 & Hi & (A1 & A2)). exists w1, d1. split; auto.
  destruct A1 as (p1 & S1 & S2 & T1). assert (p1 = p) by congruence. subst p1.
  assert (Al : forall e, depends src imports w d e -> exists q, source w e = Some q /\ path_ok q /\ vouches k q (w_text w q)).
  { intros e D. destruct (all_deps_complete src imports w fuel d deps Hd e D) as [->|K].
    - exists p. auto.
    - destruct (M e (Re e D) (Hf e K)) as (q & Hq & _ & Oq & Vq). eauto. }
  assert (Fo : forall e, depends src imports w d e -> resolves src wk e -> exists q, source w e = Some q /\ source wk e = Some q /\ w_text wk q = w_text w q).
  { intros e D R. destruct (Al e D) as (q & Hq & Oq & Vq). destruct (C q _ Oq Vq) as (dq & [Rq _] & Sq & Tq & _). exists q. split; auto.
    destruct (resolves_source wk dq Rq) as (q' & Sq' & Xq & _). assert (q' = q) by congruence. subst q'. split; auto. apply (same_file w wk e q); auto. }
  assert (Dk : forall x e, depends src imports w x e -> forall x', direct src imports wk x' = direct src imports w x -> (forall y, depends src imports w x y -> depends src imports w d y) ->
                           (forall y, depends src imports wk x' y -> depends src imports wk d' y) -> depends src imports wk x' e).
  { induction 1 as [x e H|x e y H D IH]; intros x' Ed Hd1 Hd2; [apply depends_direct; rewrite Ed; auto|].
    apply depends_trans with (e := e); [rewrite Ed; auto|]. assert (De : depends src imports w d e) by (apply Hd1; apply depends_direct; auto).
    assert (Dk : depends src imports wk d' e) by (apply Hd2; apply depends_direct; rewrite Ed; auto).
    destruct (Fo e De (Re' e Dk)) as (q & Q1 & Q2 & Q3). apply IH.
    - eapply direct_text; eauto.
    - intros y' Hy. apply Hd1. eapply depends_trans; eauto.
    - intros y' Hy. apply Hd2. eapply depends_trans; eauto. rewrite Ed. auto. }
  assert (Dd : forall e, depends src imports w d e -> depends src imports wk d' e).
  { intros e D. eapply Dk; eauto. eapply direct_text; eauto. }
  split.
  - exists p. split; auto. split; auto. congruence.
  - intros e D. destruct (A2 e (Dd e D)) as (q & Q1 & Q2 & Q3). destruct (Fo e D (Re' e (Dd e D))) as (q' & P1 & P2 & P3). assert (q' = q) by congruence. subst q'. exists q. split; auto. split; auto. congruence.
Qed.
Lemma record_certified w log c d h deps : certified w log c -> loads src imports w d -> hash src w d = Some h -> (exists w0 d0, In (w0, d0) log /\ agrees w0 w d0 d) ->
  certified w log (record_state (w_exists w) src c d h deps).
Proof.
  intros C L Hh (w0 & d0 & Hi & A) p h' O V. destruct (resolves_source w d (proj1 L)) as (q & Hq & _ & Oq). destruct (record_vouches (w_exists w) src c d h deps p q h' Hq Oq O V) as [V'|[-> ->]]; [apply C; auto|].
  exists d. split; auto. split; auto. split; [unfold hash in Hh; rewrite Hq in Hh; injection Hh as <-; auto|]. eauto.
Qed.
Lemma self_agrees w d : loads src imports w d -> agrees w w d d.
Proof.
  intros [R Re]. split.
  - destruct (resolves_source w d R) as (p & Hp & _). exists p. auto.
  - intros e D. destruct (resolves_source w e (Re e D)) as (q & Hq & _). exists q. auto.
Qed.
Lemma act_certified fuel check w wk k log0 c log a c' log' : certified wk log0 k -> incl log0 log -> certified w log c -> loads src imports w (module_of a) ->
  act src imports fuel check w k (c, log) a = Some (c', log') -> incl log log' /\ certified w log' c'.
Proof.
  intros Ck I C L H. unfold act in H. destruct (all_deps src imports fuel w (module_of a)) as [deps|] eqn:Ed; [|discriminate]. destruct (hash src w (module_of a)) as [h|] eqn:Eh; [|discriminate].
  destruct a as [d s good|d]; cbn [module_of] in *.
  - destruct (skips src check w k d deps) eqn:Es.
    + injection H as <- <-. split; [apply incl_refl|]. apply record_certified; auto. destruct (skip_agrees check fuel w wk log0 k d deps Ck L Ed Es) as (w0 & d0 & Hi & A). exists w0, d0. auto.
    + destruct good; injection H as <- <-.
      * split; [apply incl_tl, incl_refl|]. intros p h' O V. apply insert_vouches in V. revert p h' O V. apply record_certified; auto; [eapply certified_incl; eauto; apply incl_tl, incl_refl|].
        exists w, d. split; [left; auto|]. apply self_agrees; auto.
      * split; [apply incl_refl|]. intros p h' O V. apply insert_vouches in V. apply C; auto.
  - injection H as <- <-. split; [apply incl_tl, incl_refl|]. apply record_certified; auto; [eapply certified_incl; eauto; apply incl_tl, incl_refl|]. exists w, d. split; [left; auto|]. apply self_agrees; auto.
Qed.
Lemma acts_certified fuel check w wk k log0 l : forall c log c' log', certified wk log0 k -> incl log0 log -> certified w log c -> (forall a, In a l -> loads src imports w (module_of a)) ->
  acts src imports fuel check w k (c, log) l = Some (c', log') -> incl log log' /\ certified w log' c'.
Proof.
  induction l as [|a l IH]; intros c log c' log' Ck I C L H; cbn [acts] in H.
  - injection H as <- <-. split; auto using incl_refl.
  - destruct (act src imports fuel check w k (c, log) a) as [[c1 log1]|] eqn:Ea; [|discriminate]. destruct (act_certified _ _ _ _ _ _ _ _ _ _ _ Ck I C (L a (or_introl eq_refl)) Ea) as [I1 C1].
    destruct (IH c1 log1 c' log' Ck (incl_tran I I1) C1 (fun a Ha => L a (or_intror Ha)) H) as [I2 C2]. split; auto. eapply incl_tran; eauto.
Qed.
Lemma history_certified k log : history src imports full k log -> exists w, certified w log k.
Proof.
  induction 1 as [|k log fuel check w l new log' write preserve H [wk IH] Hok L Ha].
  - exists (World (fun _ => false) (fun _ => "")). intros p h _ (r & m & Hm & _). discriminate.
  - destruct Hok as [-> ->]. exists w. assert (C0 : certified w log no_cache) by (intros p h _ (r & m & Hm & _); discriminate).
    destruct (acts_certified _ _ _ _ _ _ _ _ _ _ _ IH (incl_refl _) C0 L Ha) as [_ C]. intros p h O (r & m & Hm & Hv). apply C; auto. exists r, m. split; auto.
Qed.
End History.

(** For histories of full builds that write the cache: a module is only skipped when a module with the same source file was verified (or
    validated) before, with the same text, and with the same source files and texts of everything it imports, directly or not. *)
Theorem skipped_was_verified_partial : forall src imports k log fuel check w d deps, path_ok src -> history src imports full k log ->
  loads src imports w d -> all_deps src imports fuel w d = Some deps -> skips src check w k d deps = true ->
  exists w0 d0, In (w0, d0) log /\ (exists p, source src w0 d0 = Some p /\ source src w d = Some p /\ w_text w0 p = w_text w p) /\
    forall e, depends src imports w d e -> exists q, source src w0 e = Some q /\ source src w e = Some q /\ w_text w0 q = w_text w q.
Proof.
  intros src imports k log fuel check w d deps O H L Hd Hs. destruct (history_certified src imports O k log H) as [wk C]. exact (skip_agrees src imports O check fuel w wk log k d deps C L Hd Hs).
Qed.
Print Assumptions skipped_was_verified_partial.

(** ** The claim fails for partial builds, and for builds that keep the cache in memory *)
Definition su_src : path := ["src"].
Definition su_imports (t : string) : list (list string) := if String.eqb t "import b" then [["b"]] else [].
Definition su_files : path -> bool := mn_files [["src"; "a.ac"]; ["src"; "b.ac"]].
Definition su_world (b : string) : world := World su_files (fun p => if path_eqb p ["src"; "a.ac"] then "import b" else b).
Definition su_a := Name ["a"].
Definition su_b := Name ["b"].
(** both modules are verified; then [b] is edited and only [b] is verified *)
Definition su_k1 : cache * list (world * descriptor) :=
  match acts su_src su_imports 5 true (su_world "one") no_cache (no_cache, []) [Verify su_b [] true; Verify su_a ["{}"] true] with Some st => st | None => (no_cache, []) end.
Definition su_c1 := update true false (fst su_k1) no_cache.
Definition su_k2 : cache * list (world * descriptor) :=
  match acts su_src su_imports 5 true (su_world "two") su_c1 (no_cache, snd su_k1) [Verify su_b [] true] with Some st => st | None => (no_cache, []) end.
Lemma su_depends b d e : depends su_src su_imports (su_world b) d e -> b <> "import b" -> (d = su_a -> e = su_b) /\ (d = su_b -> False).
Proof.
  intros H N. assert (B : direct su_src su_imports (su_world b) su_b = []).
  { change (map Name (su_imports b) = []). unfold su_imports. apply String.eqb_neq in N. rewrite N. reflexivity. }
  assert (A : direct su_src su_imports (su_world b) su_a = [su_b]) by reflexivity.
  induction H as [d e H|d e x H D IH]; (split; intros ->).
  - rewrite A in H. destruct H as [<-|[]]; auto.
  - rewrite B in H. destruct H.
  - rewrite A in H. destruct H as [<-|[]]. destruct IH as [_ IH]. destruct (IH eq_refl).
  - rewrite B in H. destruct H.
Qed.
Lemma su_loads b d : b <> "import b" -> d = su_a \/ d = su_b -> loads su_src su_imports (su_world b) d.
Proof.
  intros N Hd. assert (Ra : resolves su_src (su_world b) su_a) by (split; [split; [discriminate|reflexivity]|]; exists ["src"; "a.ac"]; split; reflexivity).
  assert (Rb : resolves su_src (su_world b) su_b) by (split; [split; [discriminate|reflexivity]|]; exists ["src"; "b.ac"]; split; reflexivity).
  split; [destruct Hd as [->| ->]; auto|]. intros e D. apply su_depends in D; auto. destruct D as [D1 D2]. destruct Hd as [->| ->]; [rewrite D1 by auto; auto|destruct (D2 eq_refl)].
Qed.
Lemma su_history1 (ok : bool -> bool -> Prop) : ok true false -> history su_src su_imports ok su_c1 (snd su_k1).
Proof.
  intros Hok. eapply (h_build _ _ ok no_cache [] 5 true (su_world "one") [Verify su_b [] true; Verify su_a ["{}"] true] (fst su_k1) (snd su_k1) true false).
  - constructor.
  - exact Hok.
  - intros a [<-|[<-|[]]]; apply su_loads; simpl; auto; discriminate.
  - reflexivity.
Qed.
Theorem skipped_was_verified_refuted : forall write preserve, write = false \/ preserve = true ->
  exists src imports k log fuel w d deps e, history src imports (fun w p => (w = true /\ p = false) \/ (w = write /\ p = preserve)) k log /\
  loads src imports w d /\ all_deps src imports fuel w d = Some deps /\ skips src true w k d deps = true /\
  depends src imports w d e /\
  forall w0 d0, In (w0, d0) log -> source src w0 d0 = source src w d -> hash src w0 e <> hash src w e.
Proof.
  intros write preserve Hp. exists su_src, su_imports, (update write preserve (fst su_k2) su_c1), (snd su_k2), 5, (su_world "two"), su_a, [su_b], su_b. split.
  - eapply (h_build _ _ _ su_c1 (snd su_k1) 5 true (su_world "two") [Verify su_b [] true] (fst su_k2) (snd su_k2) write preserve).
    + apply su_history1. auto.
    + auto.
    + intros a [<-|[]]. apply su_loads; simpl; auto; discriminate.
    + reflexivity.
  - split; [apply su_loads; auto; discriminate|]. split; [reflexivity|]. split; [destruct write, preserve; try (destruct Hp; discriminate); vm_compute; reflexivity|].
    split; [apply depends_direct; left; reflexivity|]. intros w0 d0 Hi. cbn in Hi. destruct Hi as [Hi|[Hi|[Hi|[]]]]; injection Hi as <- <-; intros H; try discriminate H; vm_compute; discriminate.
Qed.
Print Assumptions skipped_was_verified_refuted.

(** ** Concrete case: after the first build both modules are skipped, after the edit of [b] neither is. *)
Example skip_case :
  history su_src su_imports full su_c1 (snd su_k1) /\ path_ok su_src /\
  skips su_src true (su_world "one") su_c1 su_a [su_b] = true /\ all_deps su_src su_imports 5 (su_world "one") su_a = Some [su_b] /\
  skips su_src true (su_world "two") su_c1 su_a [su_b] = false /\ skips su_src true (su_world "two") su_c1 su_b [] = false /\
  skips su_src true (su_world "two") (update true false (fst su_k2) su_c1) su_a [su_b] = false.
Proof.
  split; [apply su_history1; split; auto|]. split; [repeat constructor; unfold free; simpl; intuition discriminate|]. repeat split; reflexivity.
Qed.
