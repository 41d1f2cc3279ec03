(** C28: module names, source files and certificate files. *)
From Coq Require Import String Ascii List Arith Bool Lia.
Import ListNotations.
From Verif Require Import BuildCache BuildCacheProofs.
Local Open Scope string_scope.

(** ** Strings *)
Definition free (c : ascii) (s : string) : Prop := ~ In c (list_ascii_of_string s).
Lemma split_free c s : free c s -> split c s = [s].
Proof.
  unfold free. induction s as [|d s IH]; simpl; auto. intros H. destruct (Ascii.eqb_spec d c) as [->|N]; [tauto|]. rewrite IH by tauto. auto.
Qed.
Lemma split_sep c s t : free c s -> split c (s ++ String c t) = s :: split c t.
Proof.
  unfold free. induction s as [|d s IH]; simpl; intros H.
  - rewrite Ascii.eqb_refl. auto.
  - destruct (Ascii.eqb_spec d c) as [->|N]; [tauto|]. rewrite IH by tauto. auto.
Qed.
Lemma split_join c l : l <> [] -> Forall (free c) l -> split c (join (String c "") l) = l.
Proof.
  intros N H. induction H as [|a l Ha Hl IH]; [congruence|]. destruct l as [|b l]; [simpl; apply split_free; auto|].
  change (join (String c "") (a :: b :: l)) with (a ++ String c (join (String c "") (b :: l))). rewrite split_sep by auto. rewrite IH; auto. discriminate.
Qed.
Lemma join_inj c l m : l <> [] -> m <> [] -> Forall (free c) l -> Forall (free c) m -> join (String c "") l = join (String c "") m -> l = m.
Proof. intros. rewrite <- (split_join c l), <- (split_join c m) by auto. congruence. Qed.
Lemma valid_free s c : valid_part s = true -> word_char c = false -> free c s.
Proof.
  destruct s as [|d s]; [discriminate|]. cbn [valid_part]. rewrite andb_true_iff, forallb_forall. intros [_ H] Hc Hin. specialize (H c Hin). congruence.
Qed.
Lemma valid_dot s : valid_part s = true -> free "." s.
Proof. intros H. apply valid_free; auto. Qed.
Lemma valid_slash s : valid_part s = true -> free "/" s.
Proof. intros H. apply valid_free; auto. Qed.
Lemma rdot_free t : free "." t -> rdot t = None.
Proof.
  unfold free. induction t as [|d t IH]; simpl; auto. intros H. rewrite IH by tauto. destruct (Ascii.eqb_spec d ".") as [->|N]; [tauto|auto].
Qed.
Lemma rdot_app s t : free "." t -> rdot (s ++ String "." t) = Some (s, t).
Proof. intros H. induction s as [|d s IH]; simpl; [rewrite rdot_free by auto; auto|rewrite IH; auto]. Qed.
Lemma split_name_ext s t : s <> "" -> free "." t -> split_name (s ++ String "." t) = (s, Some t).
Proof. intros N H. unfold split_name. rewrite rdot_app by auto. destruct s; [congruence|auto]. Qed.
Lemma ac_free : free "." "ac". Proof. unfold free; simpl; intuition discriminate. Qed.
Lemma jsonl_free : free "." "jsonl". Proof. unfold free; simpl; intuition discriminate. Qed.
Lemma app_len s t : String.length (s ++ t) = String.length s + String.length t.
Proof. induction s; simpl; auto. Qed.
Lemma strip_ac_app s : strip_ac (s ++ ".ac") = Some s.
Proof.
  induction s as [|c s IH]; [reflexivity|]. cbn [strip_ac append]. destruct (String.eqb_spec (String c (s ++ ".ac")) ".ac") as [E|E].
  - exfalso. injection E as _ E. apply (f_equal String.length) in E. rewrite app_len in E. simpl in E. lia.
  - rewrite IH. auto.
Qed.
Lemma strip_ac_some s t : strip_ac s = Some t -> s = t ++ ".ac".
Proof.
  revert t. induction s as [|c s IH]; intros t; cbn [strip_ac]; [discriminate|]. destruct (String.eqb_spec (String c s) ".ac") as [->|E]; [intros H; injection H as <-; auto|].
  destruct (strip_ac s) as [u|]; [|discriminate]. intros H. injection H as <-. simpl. rewrite <- (IH u); auto.
Qed.
Lemma app_inj_r s t u : s ++ u = t ++ u -> s = t.
Proof.
  revert t. induction s as [|c s IH]; intros [|d t] H; auto.
  - apply (f_equal String.length) in H. simpl in H. rewrite app_len in H. lia.
  - apply (f_equal String.length) in H. simpl in H. rewrite app_len in H. lia.
  - simpl in H. injection H as -> H. f_equal. auto.
Qed.
Lemma ac_nonempty s : s ++ ".ac" <> "".
Proof. destruct s; discriminate. Qed.
Lemma interface_ac s : s ++ ".ac" = "interface.ac" -> s = "interface".
Proof. intros H. apply (app_inj_r s "interface" ".ac"). exact H. Qed.

(** ** Paths *)
Lemma parent_sub d l x : parent (sub d (l ++ [x])) = Some (sub d l).
Proof.
  unfold parent, sub. rewrite app_assoc. destruct ((d ++ l) ++ [x])%list eqn:E; [destruct (d ++ l)%list; discriminate|]. rewrite <- E. rewrite removelast_last. auto.
Qed.
Lemma name_sub d l x : file_name (sub d (l ++ [x])) = Some x.
Proof.
  unfold file_name, sub. rewrite app_assoc. destruct ((d ++ l) ++ [x])%list eqn:E; [destruct (d ++ l)%list; discriminate|]. rewrite <- E. rewrite last_last. auto.
Qed.
Lemma strip_sub d l : strip_prefix d (sub d l) = Some l.
Proof. induction d as [|a d IH]; simpl; auto. rewrite String.eqb_refl. exact IH. Qed.
Lemma strip_some d p l : strip_prefix d p = Some l -> p = sub d l.
Proof.
  revert p. induction d as [|a d IH]; intros [|b p] H; simpl in *; try congruence. destruct (String.eqb_spec a b) as [->|]; [|discriminate]. unfold sub in *. simpl. f_equal. auto.
Qed.
Lemma parts_split (parts : list string) : parts <> [] -> parts = (removelast parts ++ [last parts ""])%list.
Proof. apply app_removelast_last. Qed.

Lemma sub_sub d l m : sub (sub d l) m = sub d (l ++ m).
Proof. unfold sub. rewrite app_assoc. auto. Qed.
Lemma two_tail (l : list string) a b : (l ++ [a; b] = (l ++ [a]) ++ [b])%list.
Proof. rewrite <- app_assoc. auto. Qed.
Section Names.
Context (exists_ : path -> bool) (src : path).
Lemma nearest_here up d : d <> src -> exists_ (sub d ["interface.ac"]) = true -> nearest_root exists_ src (S up) d = Some d.
Proof. intros N E. cbn [nearest_root]. rewrite E. destruct (path_eqb d src) eqn:E2; auto. apply path_eqb_eq in E2. contradiction. Qed.
Lemma root_here l x : l <> [] -> exists_ (sub src (l ++ ["interface.ac"])) = true -> package_root exists_ src (sub src (l ++ [x])) = Some (sub src l).
Proof.
  intros N E. unfold package_root. rewrite parent_sub. apply nearest_here.
  - unfold sub. intros H. apply (f_equal (@length _)) in H. rewrite app_length in H. destruct l; [congruence|simpl in H; lia].
  - unfold sub in *. rewrite <- app_assoc. exact E.
Qed.
(** the nearest package is a directory above the file that has an interface *)
Lemma nearest_spec : forall up l r, nearest_root exists_ src up (sub src l) = Some r ->
  exists a b, l = (a ++ b)%list /\ a <> [] /\ r = sub src a /\ exists_ (sub r ["interface.ac"]) = true.
Proof.
  induction up as [|up IH]; intros l r H; [discriminate|]. cbn [nearest_root] in H. destruct (path_eqb (sub src l) src) eqn:E1; [discriminate|].
  assert (Nl : l <> []) by (intros ->; unfold sub in E1; rewrite app_nil_r, path_eqb_refl in E1; discriminate).
  destruct (exists_ (sub (sub src l) ["interface.ac"])) eqn:E2.
  - injection H as <-. exists l, []. rewrite app_nil_r. auto.
  - rewrite (parts_split l Nl), parent_sub in H. destruct (IH _ _ H) as (a & b & Eb & Na & Hr & He). exists a, (b ++ [last l ""])%list. split; auto.
    rewrite app_assoc, <- Eb. apply parts_split; auto.
Qed.
Lemma root_spec l x r : package_root exists_ src (sub src (l ++ [x])) = Some r ->
  exists a b, l = (a ++ b)%list /\ a <> [] /\ r = sub src a /\ exists_ (sub r ["interface.ac"]) = true.
Proof. unfold package_root. rewrite parent_sub. apply nearest_spec. Qed.
Lemma sub_inj d l m : sub d l = sub d m -> l = m.
Proof. unfold sub. apply app_inv_head. Qed.
(** an interface path, seen from the file *)
Lemma interface_iff l x : (match package_root exists_ src (sub src (l ++ [x])) with Some r => path_eqb (sub src (l ++ [x])) (sub r ["interface.ac"]) | None => false end) = true <->
  l <> [] /\ x = "interface.ac" /\ exists_ (sub src (l ++ [x])) = true.
Proof.
  split.
  - destruct (package_root exists_ src (sub src (l ++ [x]))) as [r|] eqn:E; [|discriminate]. intros H. apply path_eqb_eq in H.
    destruct (root_spec _ _ _ E) as (a & b & -> & Na & -> & He). rewrite (sub_sub src a ["interface.ac"]) in H.
    apply sub_inj in H. apply app_inj_tail in H. destruct H as [H ->]. rewrite H. split; auto. split; auto. unfold sub in *. rewrite app_assoc. exact He.
  - intros (Nl & -> & He). rewrite root_here by auto. apply path_eqb_eq. unfold sub. rewrite app_assoc. auto.
Qed.
Lemma valid_all_free parts : forallb valid_part parts = true -> Forall (free ".") parts.
Proof. rewrite forallb_forall. intros H. apply Forall_forall. intros s Hs. apply valid_dot, H, Hs. Qed.
Lemma parts_from_all b : forall front x, forallb valid_part front = true -> parts_from b (front ++ [x]) =
  match strip_ac x with Some p => if String.eqb x "interface.ac" && b then Some front else if valid_part p then Some (front ++ [p])%list else None | None => None end.
Proof.
  induction front as [|a front IH]; intros x H.
  - cbn [app parts_from]. destruct (strip_ac x) as [p|]; auto.
  - cbn [forallb] in H. apply andb_true_iff in H. destruct H as [Ha Hf]. assert (E : parts_from b ((a :: front) ++ [x]) = if valid_part a then option_map (cons a) (parts_from b (front ++ [x])) else None).
    { cbn [app parts_from]. destruct (front ++ [x])%list eqn:E; [destruct front; discriminate|]. auto. }
    rewrite E, Ha, IH by auto. destruct (strip_ac x) as [p|]; auto. destruct (String.eqb x "interface.ac" && b); auto. destruct (valid_part p); auto.
Qed.
Lemma forallb_front parts : forallb valid_part parts = true -> forallb valid_part (removelast parts) = true.
Proof. rewrite !forallb_forall. intros H x Hx. apply H. destruct parts as [|a p]; [destruct Hx|]. rewrite (parts_split (a :: p)) by discriminate. apply in_or_app; auto. Qed.
Lemma forallb_last parts : parts <> [] -> forallb valid_part parts = true -> valid_part (last parts "") = true.
Proof. rewrite forallb_forall. intros N H. apply H. rewrite (parts_split parts) at 2 by auto. apply in_or_app. right. left. auto. Qed.
Lemma valid_nonempty s : valid_part s = true -> s <> "".
Proof. destruct s; simpl; congruence. Qed.

(** what [cert_path] gives *)
Lemma cert_path_name parts p : forallb valid_part parts = true -> cert_path exists_ src (Name parts) = Some p ->
  parts <> [] /\ p = sub src (removelast parts ++ ["certs"; last parts "" ++ ".jsonl"]) /\
  source_path exists_ src (Name parts) = Some (sub src (removelast parts ++ [last parts "" ++ ".ac"])) /\
  is_interface_path exists_ src (sub src (removelast parts ++ [last parts "" ++ ".ac"])) = false.
Proof.
  intros V H. destruct parts as [|a0 r0]; [discriminate|]. set (parts := a0 :: r0) in *. assert (N : parts <> []) by discriminate.
  cbn [cert_path] in H. change (source_path exists_ src (Name parts)) with
    (Some (if exists_ (sub (sub src (removelast parts)) [last parts ""; "interface.ac"]) then sub (sub src (removelast parts)) [last parts ""; "interface.ac"]
           else sub (sub src (removelast parts)) [last parts "" ++ ".ac"])) in *.
  rewrite !sub_sub in *. destruct (exists_ (sub src (removelast parts ++ [last parts ""; "interface.ac"]))) eqn:Ei.
  - exfalso. assert (E : (removelast parts ++ [last parts ""; "interface.ac"])%list = (parts ++ ["interface.ac"])%list).
    { rewrite (parts_split parts N) at 3. rewrite <- app_assoc. auto. }
    rewrite E in *. assert (I : is_interface_path exists_ src (sub src (parts ++ ["interface.ac"])) = true).
    { unfold is_interface_path. rewrite name_sub. cbn [opt_eqb]. rewrite String.eqb_refl. cbn [andb]. apply interface_iff. auto. }
    rewrite I in H. discriminate.
  - destruct (is_interface_path exists_ src (sub src (removelast parts ++ [last parts "" ++ ".ac"]))) eqn:Ip; [discriminate|]. split; auto. split; [|auto].
    unfold cert_path_for_source in H. unfold file_stem in H. rewrite parent_sub, name_sub in H. cbn [option_map] in H.
    rewrite split_name_ext in H; [|apply valid_nonempty, forallb_last; auto|exact ac_free]. cbn [fst] in H. injection H as <-. rewrite sub_sub. auto.
Qed.
End Names.

(** ** Parsing a printed name returns it *)
Theorem printed_name_parses : forall parts, parts <> [] -> (forall s, In s parts -> free "." s) -> name (display (Name parts)) = Name parts.
Proof. intros parts N H. unfold name, display. rewrite split_join; auto. apply Forall_forall. auto. Qed.
Print Assumptions printed_name_parses.
Theorem printed_name_parses_refuted : exists parts, parts <> [] /\ name (display (Name parts)) <> Name parts.
Proof. exists ["a.b"]. split; discriminate. Qed.
Print Assumptions printed_name_parses_refuted.

(** ** The source file determines the module
    except that [p.interface] names the interface file of the package [p] *)
Theorem source_determines_module_partial : forall exists_ src parts p, parts <> [] ->
  path_from_descriptor exists_ src (Name parts) = Some p -> forallb valid_part parts = true ->
  ~ (last parts "" = "interface" /\ length parts > 1 /\ exists_ p = true) ->
  descriptor_from_path exists_ src p = Some (Name parts).
Proof.
  intros exists_ src parts p N H V Ni. cbn [path_from_descriptor] in H. change (join "." parts) with (join (String "." "") parts) in H.
  rewrite split_join in H; [|auto|apply valid_all_free; auto]. unfold module_path in H. rewrite V in H. rewrite !sub_sub in H.
  destruct (exists_ (sub src (removelast parts ++ [last parts ""; "interface.ac"]))) eqn:Ei.
  - destruct (exists_ (sub src (removelast parts ++ [last parts "" ++ ".ac"]))); [discriminate|]. injection H as <-.
    assert (E : (removelast parts ++ [last parts ""; "interface.ac"])%list = (parts ++ ["interface.ac"])%list).
    { rewrite (parts_split parts N) at 3. rewrite <- app_assoc. auto. }
    rewrite E in *. unfold descriptor_from_path. rewrite strip_sub.
    rewrite (proj2 (interface_iff exists_ src parts "interface.ac") (conj N (conj eq_refl Ei))). rewrite parts_from_all by auto. simpl. auto.
  - injection H as <-. unfold descriptor_from_path. rewrite strip_sub. rewrite parts_from_all by (apply forallb_front; auto). rewrite strip_ac_app.
    assert (Vl : valid_part (last parts "") = true) by (apply forallb_last; auto).
    set (b := match package_root exists_ src _ with Some r => _ | None => false end).
    destruct (String.eqb_spec (last parts "" ++ ".ac") "interface.ac") as [E|E]; cbn [andb].
    + destruct b eqn:Eb.
      * exfalso. apply interface_iff in Eb. destruct Eb as (Nf & _ & He). apply Ni. split; [apply interface_ac; auto|]. split; auto.
        destruct parts as [|x [|y l]]; [congruence|destruct (Nf eq_refl)|simpl; lia].
      * rewrite Vl. simpl. rewrite <- parts_split by auto. auto.
    + rewrite Vl. simpl. rewrite <- parts_split by auto. auto.
Qed.
Print Assumptions source_determines_module_partial.
Definition mn_files (l : list path) (p : path) : bool := existsb (path_eqb p) l.
Theorem source_determines_module_refuted : exists exists_ src d e p, d <> e /\
  path_from_descriptor exists_ src d = Some p /\ path_from_descriptor exists_ src e = Some p /\ exists_ p = true.
Proof.
  exists (mn_files [["src"; "foo"; "interface.ac"]]), ["src"], (Name ["foo"]), (Name ["foo"; "interface"]), ["src"; "foo"; "interface.ac"].
  split; [discriminate|]. repeat split; reflexivity.
Qed.
Print Assumptions source_determines_module_refuted.

(** ** The module determines its source file *)
Lemma parts_from_inv b : forall rel parts, parts_from b rel = Some parts -> rel <> [] -> forallb valid_part parts = true /\
  ((b = true /\ rel = sub parts ["interface.ac"]) \/ (parts <> [] /\ rel = sub (removelast parts) [last parts "" ++ ".ac"])).
Proof.
  induction rel as [|a rel IH]; intros parts H N; [congruence|]. destruct rel as [|a' rel].
  - cbn [parts_from] in H. destruct (strip_ac a) as [s|] eqn:Ea; [|discriminate]. apply strip_ac_some in Ea. subst a. destruct (String.eqb_spec (s ++ ".ac") "interface.ac") as [E|E]; cbn [andb] in H.
    + destruct b; [injection H as <-; rewrite E; auto|]. destruct (valid_part s) eqn:Es; [|discriminate]. injection H as <-. simpl. rewrite Es. split; auto. right. split; [discriminate|auto].
    + destruct (valid_part s) eqn:Es; [|discriminate]. injection H as <-. simpl. rewrite Es. split; auto. right. split; [discriminate|auto].
  - change (parts_from b (a :: a' :: rel)) with (if valid_part a then option_map (cons a) (parts_from b (a' :: rel)) else None) in H.
    destruct (valid_part a) eqn:Ea; [|discriminate]. destruct (parts_from b (a' :: rel)) as [q|]; [|discriminate]. injection H as <-.
    destruct (IH q eq_refl ltac:(discriminate)) as (V & [[Hb Hr]|[Nq Hr]]); (split; [cbn [forallb]; rewrite Ea; exact V|]).
    + left. split; auto. rewrite Hr. auto.
    + right. split; [discriminate|]. rewrite Hr. destruct q as [|q0 q]; [congruence|]. auto.
Qed.
Theorem module_determines_source : forall exists_ src parts p q, parts <> [] -> exists_ p = true ->
  descriptor_from_path exists_ src p = Some (Name parts) -> path_from_descriptor exists_ src (Name parts) = Some q -> p = q.
Proof.
  intros exists_ src parts p q N Hp H H2. unfold descriptor_from_path in H. destruct (strip_prefix src p) as [rel|] eqn:E; [|discriminate]. apply strip_some in E. subst p.
  set (b := match package_root exists_ src _ with Some r => _ | None => false end) in *.
  destruct (parts_from b rel) as [parts'|] eqn:Ep; [|discriminate]. injection H as ->. destruct rel as [|r0 r]; [injection Ep as <-; congruence|].
  destruct (parts_from_inv _ _ _ Ep ltac:(discriminate)) as (V & D). clear Ep. cbn [path_from_descriptor] in H2. change (join "." parts) with (join (String "." "") parts) in H2.
  rewrite split_join in H2; [|auto|apply valid_all_free; auto]. unfold module_path in H2. rewrite V in H2. rewrite !sub_sub in H2.
  assert (Ei : sub (removelast parts) [last parts ""; "interface.ac"] = sub parts ["interface.ac"]).
  { rewrite (parts_split parts N) at 3. unfold sub. rewrite <- app_assoc. auto. }
  unfold sub in Ei, D. rewrite Ei in H2. destruct D as [[_ D]|[_ D]]; rewrite D in *; clear D.
  - rewrite Hp in H2. destruct (exists_ (sub src (removelast parts ++ [last parts "" ++ ".ac"]))); [discriminate|]. injection H2 as <-. auto.
  - rewrite Hp in H2. destruct (exists_ (sub src (parts ++ ["interface.ac"]))); [discriminate|]. injection H2 as <-. auto.
Qed.
Print Assumptions module_determines_source.

(** ** Distinct modules have distinct certificate files *)
(** the descriptors a project makes (project.rs:397-437): valid names, and files outside the source directory *)
Definition from_project (src : path) (d : descriptor) : Prop :=
  match d with
  | Name parts => forallb valid_part parts = true
  | File p => strip_prefix src p = None
  | Anonymous => True
  end.
Lemma from_path_project exists_ src p d : descriptor_from_path exists_ src p = Some d -> from_project src d.
Proof.
  unfold descriptor_from_path. destruct (strip_prefix src p) as [rel|] eqn:E; [|intros H; injection H as <-; exact E].
  destruct (parts_from _ rel) as [parts|] eqn:Ep; [|discriminate]. intros H. injection H as <-. simpl. revert parts Ep. generalize (match package_root exists_ src p with Some r => path_eqb p (sub r ["interface.ac"]) | None => false end).
  clear E. intros b. induction rel as [|a rel IH]; intros parts H; [injection H as <-; auto|]. destruct rel as [|a' rel].
  - cbn [parts_from] in H. destruct (strip_ac a) as [s|]; [|discriminate]. destruct (String.eqb a "interface.ac" && b); [injection H as <-; auto|].
    destruct (valid_part s) eqn:Es; [|discriminate]. injection H as <-. simpl. rewrite Es. auto.
  - change (parts_from b (a :: a' :: rel)) with (if valid_part a then option_map (cons a) (parts_from b (a' :: rel)) else None) in H.
    destruct (valid_part a) eqn:Ea; [|discriminate]. destruct (parts_from b (a' :: rel)) as [q|]; [|discriminate]. injection H as <-. simpl. rewrite Ea. apply (IH q eq_refl).
Qed.
Lemma cert_path_file exists_ src p q : cert_path exists_ src (File p) = Some q -> exists d s, p = sub d [s ++ ".ac"] /\ s <> "" /\ q = sub d [s ++ ".jsonl"].
Proof.
  cbn [cert_path]. destruct (opt_eqb (extension p) (Some "ac")) eqn:E; [|discriminate]. apply opt_eqb_eq in E. intros H. injection H as <-.
  unfold extension, with_extension, file_stem, file_name in *. destruct p as [|a p]; [discriminate|]. set (n := last (a :: p) "") in *. exists (removelast (a :: p)).
  cbn [option_map] in *. unfold split_name in *. destruct (rdot n) as [[s t]|] eqn:Er; [|discriminate]. destruct s as [|c s]; [discriminate|]. cbn [fst snd] in *. injection E as ->.
  exists (String c s). assert (X : n = String c s ++ ".ac").
  { revert Er. clear. generalize (String c s). induction n as [|d n IH]; intros u H; [discriminate|]. cbn [rdot] in H. destruct (rdot n) as [[x y]|] eqn:E.
    - injection H as <- ->. simpl. rewrite <- (IH x eq_refl). auto.
    - destruct (Ascii.eqb_spec d "."); [|discriminate]. injection H as <- ->. subst d. auto. }
  split; [|split; [discriminate|reflexivity]]. rewrite <- X. unfold sub. apply parts_split. discriminate.
Qed.
Theorem certificate_files_are_distinct : forall exists_ src d e p, from_project src d -> from_project src e ->
  cert_path exists_ src d = Some p -> cert_path exists_ src e = Some p -> d = e.
Proof.
  assert (NF : forall exists_ src parts q p, forallb valid_part parts = true -> strip_prefix src q = None -> cert_path exists_ src (Name parts) = Some p -> cert_path exists_ src (File q) = Some p -> False).
  { intros exists_ src parts q p V O H1 H2. destruct (cert_path_name _ _ _ _ V H1) as (N & -> & _). apply cert_path_file in H2. destruct H2 as (d & s & -> & _ & H).
    rewrite two_tail in H. unfold sub in H. rewrite !app_assoc in H. apply app_inj_tail in H. destruct H as [H _].
    subst d. unfold sub in O. rewrite <- !app_assoc in O. rewrite strip_sub in O. discriminate. }
  intros exists_ src [|pd|qd] [|pe|qe] p Fd Fe Hd He; try discriminate.
  - f_equal. destruct (cert_path_name _ _ _ _ Fd Hd) as (Nd & -> & _). destruct (cert_path_name _ _ _ _ Fe He) as (Ne & H & _). apply sub_inj in H.
    rewrite !two_tail in H. apply app_inj_tail in H. destruct H as [H1 H2]. apply app_inj_tail in H1. destruct H1 as [H1 _]. apply app_inj_r in H2.
    rewrite (parts_split pd Nd), (parts_split pe Ne). congruence.
  - exfalso. eapply NF; eauto.
  - exfalso. eapply (NF exists_ src pe qd); eauto.
  - f_equal. apply cert_path_file in Hd, He. destruct Hd as (d1 & s1 & -> & _ & ->). destruct He as (d2 & s2 & -> & _ & H). unfold sub in *. apply app_inj_tail in H. destruct H as [-> H].
    apply app_inj_r in H. subst. auto.
Qed.
Print Assumptions certificate_files_are_distinct.

(** ** The certificate file leads back to the module
    unless the name or the place of the project contains [certs], or the last part is [interface] *)
Theorem certificate_file_leads_back : forall exists_ src parts p, forallb valid_part parts = true ->
  cert_path exists_ src (Name parts) = Some p -> ~ In "certs" src -> ~ In "certs" parts -> last parts "" <> "interface" ->
  exists q, source_from_cert_path p = Some q /\ source_path exists_ src (Name parts) = Some q /\ descriptor_for_source_path src q = Some (Name parts).
Proof.
  intros exists_ src parts p V H N1 N2 Ni. destruct (cert_path_name _ _ _ _ V H) as (N & -> & Hs & _). exists (sub src (removelast parts ++ [last parts "" ++ ".ac"])).
  pose proof (forallb_last _ N V) as Vl. pose proof (valid_nonempty _ Vl) as Ve. split; [|split; auto].
  - rewrite two_tail. unfold source_from_cert_path, file_stem. rewrite !parent_sub, !name_sub. cbn [opt_eqb option_map].
    rewrite String.eqb_refl. rewrite split_name_ext by (auto; exact jsonl_free). cbn [fst]. rewrite sub_sub. auto.
  - unfold descriptor_for_source_path. rewrite strip_sub. unfold extension. rewrite name_sub.
    rewrite split_name_ext by (auto; exact ac_free). cbn [snd opt_eqb]. rewrite String.eqb_refl.
    assert (X : existsb (String.eqb "certs") (sub src (removelast parts ++ [last parts "" ++ ".ac"])) = false).
    { apply not_true_iff_false. rewrite existsb_exists. intros (x & Hx & Ex). apply String.eqb_eq in Ex. subst x. unfold sub in Hx. rewrite !in_app_iff in Hx. destruct Hx as [Hx|[Hx|[Hx|[]]]]; auto.
      - apply N2. rewrite (parts_split parts N), in_app_iff. auto.
      - pose proof (rdot_app (last parts "") "ac" ac_free) as R. change (String "." "ac") with ".ac" in R. rewrite Hx in R. discriminate. }
    rewrite X. set (x := last parts "" ++ ".ac") in *. destruct (removelast parts ++ [x])%list as [|a0 r0] eqn:E; [destruct (removelast parts); discriminate|]. rewrite <- E, removelast_last, last_last. subst x.
    destruct (String.eqb_spec (last parts "" ++ ".ac") "interface.ac") as [Ei|_]; [destruct (Ni (interface_ac _ Ei))|]. rewrite strip_ac_app. cbn [option_map]. unfold sub.
    rewrite <- (parts_split parts N). destruct parts; [congruence|auto].
Qed.
Print Assumptions certificate_file_leads_back.
(** Certificates are written where loading does not look for them. *)
Theorem certificate_file_leads_back_refuted :
  (exists exists_ src parts p q, forallb valid_part parts = true /\ cert_path exists_ src (Name parts) = Some p /\ ~ In "certs" src /\
     source_from_cert_path p = Some q /\ exists_ q = true /\ descriptor_for_source_path src q = None) /\
  (exists exists_ src parts p q, forallb valid_part parts = true /\ cert_path exists_ src (Name parts) = Some p /\ ~ In "certs" parts /\
     source_from_cert_path p = Some q /\ exists_ q = true /\ descriptor_for_source_path src q = None).
Proof.
  split.
  - exists (mn_files [["src"; "certs"; "tls.ac"]]), ["src"], ["certs"; "tls"], ["src"; "certs"; "certs"; "tls.jsonl"], ["src"; "certs"; "tls.ac"].
    split; [reflexivity|]. split; [reflexivity|]. split; [simpl; intuition discriminate|]. repeat split; reflexivity.
  - exists (mn_files [["certs"; "src"; "nat.ac"]]), ["certs"; "src"], ["nat"], ["certs"; "src"; "certs"; "nat.jsonl"], ["certs"; "src"; "nat.ac"].
    split; [reflexivity|]. split; [reflexivity|]. split; [simpl; intuition discriminate|]. repeat split; reflexivity.
Qed.
Print Assumptions certificate_file_leads_back_refuted.

(** ** Concrete case *)
Definition mn_fs := mn_files [["src"; "nat.ac"]; ["src"; "ring"; "interface.ac"]; ["src"; "ring"; "ideal"; "prime.ac"]].
Example module_names_case :
  path_from_descriptor mn_fs ["src"] (name "ring.ideal.prime") = Some ["src"; "ring"; "ideal"; "prime.ac"] /\
  descriptor_from_path mn_fs ["src"] ["src"; "ring"; "ideal"; "prime.ac"] = Some (Name ["ring"; "ideal"; "prime"]) /\
  descriptor_from_path mn_fs ["src"] ["src"; "ring"; "interface.ac"] = Some (Name ["ring"]) /\
  cert_path mn_fs ["src"] (name "ring.ideal.prime") = Some ["src"; "ring"; "ideal"; "certs"; "prime.jsonl"] /\
  cert_path mn_fs ["src"] (name "ring") = None /\
  cert_path mn_fs ["src"] (File ["tmp"; "x.ac"]) = Some ["tmp"; "x.jsonl"].
Proof. repeat split; reflexivity. Qed.
