(** C30: the server's lines are the lines of the text in the editor. *)
From Coq Require Import List NArith ZArith Bool Arith Lia.
Import ListNotations.
From Verif Require Import LiveDocument.

(** The rules of the protocol.  A line ends at a newline, a carriage return or both; a column counts UTF-16 units and stops at the end of the line. *)
Definition width (c : N) : nat := if N.ltb c 65536 then 1 else 2.
Fixpoint lsp_lines (t : text) : list text :=
  match t with
  | [] => [[]]
  | c :: r =>
    if N.eqb c 10 then [] :: lsp_lines r
    else if N.eqb c 13 then match r with d :: r' => if N.eqb d 10 then [] :: lsp_lines r' else [] :: lsp_lines r | [] => [] :: lsp_lines r end
    else match lsp_lines r with l :: ls => (c :: l) :: ls | [] => [[c]] end
  end.
Fixpoint at_column (c : nat) (t : text) : text * text :=
  match t with
  | [] => ([], [])
  | x :: r => if N.eqb x 10 || N.eqb x 13 then ([], t)
              else if Nat.leb (width x) c then let (p, s) := at_column (c - width x) r in (x :: p, s) else ([], t)
  end.
Definition before (x : N) (o : option (text * text)) : option (text * text) := match o with Some (p, s) => Some (x :: p, s) | None => None end.
Fixpoint at_position (l c : nat) (t : text) {struct t} : option (text * text) :=
  match l with
  | 0 => Some (at_column c t)
  | S l' =>
    match t with
    | [] => None
    | x :: r =>
      if N.eqb x 10 then before x (at_position l' c r)
      else if N.eqb x 13 then match r with y :: r' => if N.eqb y 10 then before x (before y (at_position l' c r')) else before x (at_position l' c r) | [] => before x (at_position l' c r) end
      else before x (at_position l c r)
    end
  end.
Definition replaced (r : range) (t e : text) : option text :=
  match at_position (start_line r) (start_char r) e, at_position (end_line r) (end_char r) e with
  | Some (p, _), Some (_, s) => Some (p ++ t ++ s)
  | _, _ => None
  end.
(** What is assumed of the text and of an edit *)
Definition no_lone_cr (t : text) : Prop := forall a b, t = a ++ 13%N :: b -> exists b', b = 10%N :: b'.
Definition range_ok (r : range) : Prop := start_line r < end_line r \/ (start_line r = end_line r /\ start_char r <= end_char r).
Definition basic (t : text) : Prop := forall c, In c t -> (c < 65536)%N.
Definition columns_basic (r : range) (e : text) : Prop :=
  basic (firstn (start_char r) (nth (start_line r) (lsp_lines e) [])) /\ basic (firstn (end_char r) (nth (end_line r) (lsp_lines e) [])).
(** The server's document and the text in the editor, over the life of the document *)
Inductive session : doc -> text -> Prop :=
| session_open t v : no_lone_cr t -> session (new t v) t
| session_replace d e t v : session d e -> no_lone_cr t -> session (fst (change d None t v)) t
| session_edit d e r t v e' : session d e -> no_lone_cr t -> range_ok r -> columns_basic r e -> replaced r t e = Some e' -> session (fst (change d (Some r) t v)) e'
| session_save d e : session d e -> session (save d e) e.

Inductive wf : text -> Prop :=
| wf_nil : wf []
| wf_crlf t : wf t -> wf (13%N :: 10%N :: t)
| wf_char c t : c <> 13%N -> wf t -> wf (c :: t).
Lemma no_lone_cr_wf t : no_lone_cr t <-> wf t.
Proof.
  split.
  - assert (G : forall n t, length t <= n -> no_lone_cr t -> wf t).
    { clear t. induction n as [|n IH]; intros [|c t] L H; try apply wf_nil; cbn in L; try lia. destruct (N.eq_dec c 13) as [->|Hc].
      - destruct (H [] t eq_refl) as (b & ->). cbn in L. apply wf_crlf. apply IH; [lia|]. intros a b' E. apply (H (13%N :: 10%N :: a) b'). rewrite E. reflexivity.
      - apply wf_char; auto. apply IH; [lia|]. intros a b' E. apply (H (c :: a) b'). rewrite E. reflexivity. }
    apply (G (length t)). auto.
  - induction 1 as [|t H IH|c t Hc H IH]; intros a b E.
    + destruct a; discriminate.
    + destruct a as [|x a]; [injection E as <-; eauto|]. destruct a as [|y a]; [discriminate|]. injection E as _ _ ->. eauto.
    + destruct a as [|x a]; [injection E as -> _; congruence|]. injection E as _ ->. eauto.
Qed.
Lemma wf_app a b : wf a -> wf b -> wf (a ++ b).
Proof. induction 1; cbn; auto; constructor; auto. Qed.
Lemma split_cons_char c t : c <> 10%N -> c <> 13%N -> split_lines (c :: t) = push c (split_lines t).
Proof. intros H1 H2. cbn. apply N.eqb_neq in H1, H2. rewrite H1, H2. auto. Qed.
Lemma split_ne t : exists l r, split_lines t = l :: r.
Proof.
  destruct t as [|c t]; [cbn; eauto|]. cbn. destruct (N.eqb c 10); eauto. destruct (N.eqb c 13); [|unfold push; destruct (split_lines t); eauto].
  destruct t as [|d t]; [cbn; eauto|]. destruct (N.eqb d 10); eauto. unfold push. destruct (split_lines (d :: t)); eauto.
Qed.
Lemma lsp_split t : wf t -> lsp_lines t = split_lines t.
Proof.
  induction 1 as [|t H IH|c t Hc H IH]; auto.
  - cbn. rewrite IH. auto.
  - cbn. apply N.eqb_neq in Hc. rewrite Hc. destruct (N.eqb c 10); [rewrite IH; auto|]. rewrite IH. reflexivity.
Qed.
(** glueing the last line of one text to the first of the next *)
Definition glue (x y : list text) : list text := removelast x ++ (last x [] ++ hd [] y) :: tl y.
Lemma glue_cons l x y : x <> [] -> glue (l :: x) y = l :: glue x y.
Proof. intros H. unfold glue. destruct x as [|m x]; [congruence|]. reflexivity. Qed.
Lemma glue_app x p y : glue (x ++ [p]) y = x ++ glue [p] y.
Proof. unfold glue. rewrite removelast_last, last_last. reflexivity. Qed.
Lemma glue_tail x q r : glue x (q :: r) = glue x [q] ++ r.
Proof. unfold glue. cbn [hd tl]. rewrite <- app_assoc. reflexivity. Qed.
Lemma glue_push c x y : x <> [] -> glue (push c x) y = push c (glue x y).
Proof. intros H. destruct x as [|l x]; [congruence|]. cbn [push]. destruct x as [|m x]; [reflexivity|]. rewrite !glue_cons by discriminate. reflexivity. Qed.
Lemma glue_nil y : y <> [] -> glue [[]] y = y.
Proof. destruct y; [congruence|reflexivity]. Qed.
Lemma split_app a b : wf a -> split_lines (a ++ b) = glue (split_lines a) (split_lines b).
Proof.
  assert (NE : forall t, split_lines t <> []) by (intros t; destruct (split_ne t) as (l & r & ->); discriminate).
  induction 1 as [|t H IH|c t Hc H IH]; cbn [app].
  - cbn [split_lines]. rewrite glue_nil; auto.
  - cbn. rewrite IH. symmetry. apply glue_cons. auto.
  - destruct (N.eq_dec c 10) as [->|Hn].
    + cbn. rewrite IH. symmetry. apply glue_cons; auto.
    + rewrite !split_cons_char by auto. rewrite IH, glue_push; auto.
Qed.
Definition plain (t : text) : Prop := forall c, In c t -> c <> 10%N /\ c <> 13%N.
Lemma plain_wf t : plain t -> wf t.
Proof. induction t as [|c t IH]; intros H; constructor; [apply H; left; auto|apply IH; intros x Hx; apply H; right; auto]. Qed.
Lemma plain_split t : plain t -> split_lines t = [t].
Proof.
  induction t as [|c t IH]; intros H; auto. rewrite split_cons_char by (apply H; left; auto). rewrite IH; auto. intros x Hx. apply H. right; auto.
Qed.
Lemma at_column_spec c t p s : wf t -> at_column c t = (p, s) ->
  exists l r, split_lines t = (p ++ l) :: r /\ split_lines s = l :: r /\ plain p /\ wf s /\ t = p ++ s /\ (basic (firstn c (p ++ l)) -> p = firstn c (p ++ l)).
Proof.
  intros H. revert c p s. induction H as [|t H IH|x t Hx H IH]; intros c p s.
  - cbn. intros E. injection E as <- <-. exists [], []. repeat split; auto; try constructor; try (intros ? []). intros _. destruct c; auto.
  - cbn. intros E. injection E as <- <-. exists [], (split_lines t). repeat split; auto; try (intros ? []); [constructor; auto|]. intros _. destruct c; auto.
  - cbn [at_column]. apply N.eqb_neq in Hx. rewrite Hx, orb_false_r. apply N.eqb_neq in Hx. destruct (N.eqb_spec x 10) as [->|Hn].
    + intros E. injection E as <- <-. exists [], (split_lines t). repeat split; auto; try (intros ? []); [constructor; auto; discriminate|]. intros _. destruct c; auto.
    + destruct (Nat.leb_spec (width x) c) as [Lw|Lw].
      * destruct (at_column (c - width x) t) as [p1 s1] eqn:Ec. intros E. injection E as <- <-. destruct (IH _ _ _ Ec) as (l & r & E1 & E2 & E3 & E4 & E5 & E6). exists l, r.
        rewrite split_cons_char, E1 by auto. split; [reflexivity|]. split; auto. split; [intros y [<-|Hy]; [split; auto|apply E3; auto]|]. split; auto. split; [cbn; congruence|].
        cbn [app]. destruct c as [|c]; [unfold width in Lw; destruct (N.ltb x 65536); lia|]. cbn [firstn]. intros B. assert (Hb : (x < 65536)%N) by (apply B; left; auto).
        unfold width in *. apply N.ltb_lt in Hb. rewrite Hb in *. replace (S c - 1) with c in * by lia. f_equal. apply E6. intros y Hy. apply B. right. auto.
      * intros E. injection E as <- <-. destruct (split_ne t) as (l & r & Es). exists (x :: l), r. rewrite split_cons_char, Es by auto. cbn [app push]. repeat split; auto; try (intros ? []); [constructor; auto|].
        intros B. destruct c as [|c]; auto. exfalso. assert (Hb : (x < 65536)%N) by (apply B; left; auto). unfold width in Lw. apply N.ltb_lt in Hb. rewrite Hb in Lw. lia.
Qed.
Lemma at_position_spec t : wf t -> forall l c p s, at_position l c t = Some (p, s) ->
  exists x y, nth_error (split_lines t) l = Some (x ++ y) /\ split_lines p = firstn l (split_lines t) ++ [x] /\ split_lines s = y :: skipn (S l) (split_lines t) /\ wf p /\ wf s /\ plain x /\
    (basic (firstn c (x ++ y)) -> x = firstn c (x ++ y)).
Proof.
  assert (Z0 : forall t, wf t -> forall c p s, Some (at_column c t) = Some (p, s) -> exists x y, nth_error (split_lines t) 0 = Some (x ++ y) /\ split_lines p = firstn 0 (split_lines t) ++ [x] /\ split_lines s = y :: skipn 1 (split_lines t) /\ wf p /\ wf s /\ plain x /\
    (basic (firstn c (x ++ y)) -> x = firstn c (x ++ y))).
  { clear t. intros t H c p s E. injection E as E. destruct (at_column_spec c t p s H E) as (l & r & E1 & E2 & E3 & E4 & E5 & E6). exists p, l. rewrite E1, E2. cbn [nth_error firstn app skipn].
    repeat split; auto; try (apply E3; auto); [apply plain_split; auto|apply plain_wf; auto]. }
  induction 1 as [|t H IH|c0 t Hc H IH]; intros l c p s E.
  - destruct l; [apply (Z0 [] wf_nil); auto|discriminate].
  - destruct l as [|l]; [apply (Z0 _ (wf_crlf _ H)); auto|]. cbn in E. destruct (at_position l c t) as [[p1 s1]|] eqn:E1; [|discriminate]. cbn in E. injection E as <- <-.
    destruct (IH _ _ _ _ E1) as (x & y & A1 & A2 & A3 & A4 & A5 & A6 & A7). exists x, y. cbn. rewrite A2. repeat split; auto; try (apply A6; auto). constructor; auto.
  - destruct l as [|l]; [apply (Z0 _ (wf_char _ _ Hc H)); auto|]. cbn [at_position] in E. destruct (N.eqb_spec c0 10) as [->|Hn].
    + destruct (at_position l c t) as [[p1 s1]|] eqn:E1; [|discriminate]. cbn in E. injection E as <- <-.
      destruct (IH _ _ _ _ E1) as (x & y & A1 & A2 & A3 & A4 & A5 & A6 & A7). exists x, y. cbn. rewrite A2. repeat split; auto; try (apply A6; auto). constructor; auto.
    + pose proof Hc as Hc'. apply N.eqb_neq in Hc'. rewrite Hc' in E. destruct (at_position (S l) c t) as [[p1 s1]|] eqn:E1; [|discriminate]. cbn in E. injection E as <- <-.
      destruct (IH _ _ _ _ E1) as (x & y & A1 & A2 & A3 & A4 & A5 & A6 & A7). exists x, y. rewrite !split_cons_char by auto. rewrite A2. destruct (split_lines t) as [|l0 r0]; [discriminate|]. cbn [push nth_error firstn app] in *.
      repeat split; auto; try (apply A6; auto). constructor; auto.
Qed.
Lemma numbered_text t : map fst (numbered_lines t) = split_lines t.
Proof. unfold numbered_lines. generalize 0. induction (split_lines t) as [|l r IH]; intros n; cbn; auto. rewrite IH. auto. Qed.
Lemma nonnumbered_text t : map fst (nonnumbered_lines t) = split_lines t.
Proof. unfold nonnumbered_lines. rewrite map_map. apply map_id. Qed.
Lemma skipn_app_len {A} (a b : list A) : skipn (length a) (a ++ b) = b.
Proof. rewrite skipn_app, skipn_all, Nat.sub_diag. reflexivity. Qed.
Lemma lines_plain t : wf t -> forall i l, nth_error (split_lines t) i = Some l -> plain l.
Proof.
  induction 1 as [|t H IH|c t Hc H IH]; intros i l E.
  - destruct i as [|[|]]; try discriminate. injection E as <-. intros ? [].
  - cbn in E. destruct i; [injection E as <-; intros ? []|eauto].
  - destruct (N.eq_dec c 10) as [->|Hn]; [cbn in E; destruct i; [injection E as <-; intros ? []|eauto]|]. rewrite split_cons_char in E by auto.
    destruct (split_lines t) as [|l0 r0] eqn:Es; [destruct (split_ne t) as (? & ? & X); congruence|]. cbn [push] in E. destruct i as [|i].
    + injection E as <-. intros x [<-|Hx]; [auto|apply (IH 0 l0 eq_refl x Hx)].
    + apply (IH (S i) l). auto.
Qed.

Lemma line_text_nth d i x : nth_error (map fst (lines d)) i = Some x -> line_text d i = x.
Proof.
  unfold line_text. destruct d as [ls v w]. cbn [lines]. revert i. induction ls as [|[l o] ls IH]; intros [|i] H; try discriminate.
  - cbn in *. congruence.
  - apply IH. exact H.
Qed.
Lemma edit_step d e r t v e' : wf e -> map fst (lines d) = split_lines e -> wf t -> range_ok r -> columns_basic r e -> replaced r t e = Some e' ->
  snd (change d (Some r) t v) = true /\ wf e' /\ map fst (lines (fst (change d (Some r) t v))) = split_lines e'.
Proof.
  intros We Hl Wt Ro Bs Re. unfold replaced in Re. destruct (at_position (start_line r) (start_char r) e) as [[p s1]|] eqn:E1; [|discriminate]. destruct (at_position (end_line r) (end_char r) e) as [[p2 s]|] eqn:E2; [|discriminate].
  injection Re as <-. destruct (at_position_spec e We _ _ _ _ E1) as (x & y1 & A1 & A2 & A3 & A4 & A5 & A6 & A7). destruct (at_position_spec e We _ _ _ _ E2) as (x2 & y & B1 & B2 & B3 & B4 & B5 & B6 & B7).
  unfold columns_basic in Bs. rewrite lsp_split in Bs by auto. rewrite (nth_error_nth _ _ ([] : text) A1), (nth_error_nth _ _ ([] : text) B1) in Bs. destruct Bs as [S1 S2]. specialize (A7 S1). specialize (B7 S2).
  assert (Len : length (lines d) = length (split_lines e)) by (rewrite <- Hl, map_length; auto).
  assert (Lt : end_line r < length (split_lines e)) by (apply nth_error_Some; congruence).
  assert (LT1 : line_text d (start_line r) = x ++ y1).
  { apply line_text_nth. rewrite Hl. exact A1. }
  assert (LT2 : line_text d (end_line r) = x2 ++ y).
  { apply line_text_nth. rewrite Hl. exact B1. }
  cbn [change]. rewrite (proj2 (Nat.ltb_ge (end_line r) (start_line r))) by (destruct Ro; lia). rewrite (proj2 (Nat.leb_gt (length (lines d)) (end_line r))) by lia. cbn [orb fst snd lines].
  split; auto. split; [repeat apply wf_app; auto|]. rewrite !map_app, nonnumbered_text, <- firstn_map, <- skipn_map, Hl. rewrite LT1, LT2, <- A7.
  assert (Sk : skipn (end_char r) (x2 ++ y) = y).
  { apply (app_inv_head x2). rewrite <- (firstn_skipn (end_char r) (x2 ++ y)) at 2. congruence. }
  rewrite Sk. rewrite !split_app, A2, B3 by (auto; apply plain_wf; auto). rewrite (plain_split x) by auto.
  assert (Py : plain y).
  { intros c Hc. apply (lines_plain e We _ _ B1). apply in_or_app; auto. }
  rewrite (plain_split y Py). rewrite (glue_tail (split_lines t) y (skipn (S (end_line r)) (split_lines e))), glue_app. f_equal.
  destruct (glue (split_lines t) [y]) as [|q qs] eqn:G; [unfold glue in G; destruct (removelast (split_lines t)); discriminate|]. cbn [app]. rewrite (glue_tail [x] q qs), (glue_tail [x] q (qs ++ _)). rewrite <- app_assoc. reflexivity.
Qed.
Lemma session_wf d e : session d e -> wf e /\ map fst (lines d) = split_lines e.
Proof.
  induction 1 as [t v H|d e t v H IH Ht|d e r t v e' H [W L] Ht Ro Bs Re|d e H [W L]].
  - apply no_lone_cr_wf in H. split; auto. apply numbered_text.
  - apply no_lone_cr_wf in Ht. split; auto. apply nonnumbered_text.
  - apply no_lone_cr_wf in Ht. apply (edit_step d e r t v e'); auto.
  - split; auto. apply numbered_text.
Qed.
(** For every history of edits in which carriage returns come before newlines and the columns counted hold no character outside the basic
    plane: the server's lines are the editor's lines, and the next edit is accepted. *)
Theorem server_follows_editor_partial : forall d e, session d e ->
  map fst (lines d) = lsp_lines e /\
  forall r t v e', no_lone_cr t -> range_ok r -> columns_basic r e -> replaced r t e = Some e' ->
    snd (change d (Some r) t v) = true /\ map fst (lines (fst (change d (Some r) t v))) = lsp_lines e'.
Proof.
  intros d e H. apply session_wf in H. destruct H as [W L]. rewrite lsp_split by auto. split; auto. intros r t v e' Ht Ro Bs Re. apply no_lone_cr_wf in Ht. destruct (edit_step d e r t v e' W L Ht Ro Bs Re) as (R1 & R2 & R3).
  rewrite lsp_split; auto.
Qed.
Print Assumptions server_follows_editor_partial.
(** With one character outside the basic plane the copies drift apart: columns are counted in characters, not in UTF-16 units. *)
Theorem columns_utf16_refuted : exists e r t v e', no_lone_cr e /\ no_lone_cr t /\ range_ok r /\ replaced r t e = Some e' /\
  snd (change (new e v) (Some r) t v) = true /\ map fst (lines (fst (change (new e v) (Some r) t v))) <> lsp_lines e'.
Proof.
  exists [128512; 97; 98]%N, (Range 0 2 0 3), [120]%N, 1%Z, [128512; 120; 98]%N. split; [|split; [|split; [|split; [reflexivity|split; [reflexivity|discriminate]]]]]; [apply no_lone_cr_wf; repeat (constructor; [discriminate|]); constructor|apply no_lone_cr_wf; repeat (constructor; [discriminate|]); constructor|right; cbn; lia].
Qed.
Print Assumptions columns_utf16_refuted.
(** A carriage return on its own ends a line for the editor and not for the server. *)
Theorem lone_cr_refuted : exists e r t v e', range_ok r /\ basic e /\ basic t /\ replaced r t e = Some e' /\ snd (change (new e v) (Some r) t v) = false /\ map fst (lines (new e v)) <> lsp_lines e.
Proof.
  exists [97; 13; 98]%N, (Range 1 0 1 1), [99]%N, 1%Z, [97; 13; 99]%N. split; [right; cbn; lia|]. split; [intros c [<-|[<-|[<-|[]]]]; lia|]. split; [intros c [<-|[]]; lia|]. split; [reflexivity|]. split; [reflexivity|discriminate].
Qed.
Print Assumptions lone_cr_refuted.
Definition ld_text : text := [97; 13; 10; 98; 99; 10; 100]%N.
Definition ld_range := Range 0 1 1 1.
Example session_case : exists d, session d [97; 120; 10; 121; 99; 10; 100]%N /\ map fst (lines d) = [[97; 120]; [121; 99]; [100]]%N /\ map snd (lines d) = [None; None; Some 2].
Proof.
  exists (fst (change (new ld_text 1) (Some ld_range) [120; 10; 121]%N 2)). split; [|split; reflexivity].
  assert (B : forall t, forallb (fun c => N.ltb c 65536) t = true -> basic t) by (intros t H c Hc; rewrite forallb_forall in H; apply N.ltb_lt; auto).
  apply (session_edit _ ld_text); [apply session_open| | | |reflexivity].
  - apply no_lone_cr_wf. apply wf_char; [discriminate|]. apply wf_crlf. repeat (apply wf_char; [discriminate|]). apply wf_nil.
  - apply no_lone_cr_wf. repeat (apply wf_char; [discriminate|]). apply wf_nil.
  - left. cbn. lia.
  - split; apply B; reflexivity.
Qed.
