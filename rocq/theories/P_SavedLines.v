(** C31: mapping edited lines back to saved lines. *)
From Coq Require Import List NArith ZArith Bool Arith Lia.
Import ListNotations.
From Verif Require Import LiveDocument.

(** An edit replaces lines [a..b] by [k] lines, or everything. *)
Inductive edit := Lines (a b k : nat) | Everything.
(** Where line [j] was at the last save, if no edit touched it; the latest edit comes first. *)
Fixpoint origin (es : list edit) (j : nat) : option nat :=
  match es with
  | [] => Some j
  | Everything :: _ => None
  | Lines a b k :: es => if Nat.ltb j a then origin es j else if Nat.ltb j (a + k) then None else origin es (j - k + S (b - a))
  end.
Definition newlines (t : text) : nat := length (filter (N.eqb 10) t).
Definition edit_of (d : doc) (r : option range) (t : text) : list edit :=
  match r with
  | None => [Everything]
  | Some r => if Nat.leb (start_line r) (end_line r) && Nat.ltb (end_line r) (length (lines d)) then [Lines (start_line r) (end_line r) (S (newlines t))] else []
  end.
(** [since t d es]: the document was last saved (or opened) with text [t], and the edits [es] followed *)
Inductive since (t : text) : doc -> list edit -> Prop :=
| since_open v : since t (new t v) []
| since_save d : since t (save d t) []
| since_change d es r t' v : since t d es -> since t (fst (change d r t' v)) (edit_of d r t' ++ es).

Lemma split_len t : length (split_lines t) = S (newlines t).
Proof.
  assert (P : forall c ls, ls <> [] -> length (push c ls) = length ls) by (intros c [|l r] H; [congruence|reflexivity]).
  assert (NE : forall t, split_lines t <> []).
  { intros [|c u]; [discriminate|]. cbn. destruct (N.eqb c 10); [discriminate|]. assert (Q : forall c ls, push c ls <> []) by (intros ? [|? ?]; discriminate). destruct (N.eqb c 13); auto. destruct u as [|x u]; auto. destruct (N.eqb x 10); [discriminate|auto]. }
  assert (G : forall n t, length t <= n -> length (split_lines t) = S (newlines t)).
  { clear t. induction n as [|n IH]; intros [|c t] L; auto; cbn in L; try lia. cbn [split_lines]. unfold newlines. cbn [filter]. fold (newlines t). rewrite (N.eqb_sym 10 c). destruct (N.eqb c 10).
    - cbn [length]. rewrite IH by lia. auto.
    - destruct (N.eqb c 13); [|rewrite P by auto; rewrite IH by lia; auto]. destruct t as [|x t]; [cbn; auto|]. destruct (N.eqb_spec x 10) as [->|Hx].
      + cbn [length filter]. cbn. rewrite IH by (cbn in L; lia). auto.
      + rewrite P by auto. rewrite IH by (cbn in L |- *; lia). auto. }
  apply (G (length t)). auto.
Qed.
Lemma newlines_app a b : newlines (a ++ b) = newlines a + newlines b.
Proof. unfold newlines. rewrite filter_app, app_length. auto. Qed.
Lemma split_no_newline t l : In l (split_lines t) -> newlines l = 0.
Proof.
  assert (P : forall c ls l, c <> 10%N -> (forall l, In l ls -> newlines l = 0) -> In l (push c ls) -> newlines l = 0).
  { intros c ls x Hc H Hx. apply N.neq_sym, N.eqb_neq in Hc. destruct ls as [|l0 r]; cbn [push In] in Hx; destruct Hx as [<-|Hx]; [unfold newlines; cbn [filter]; rewrite Hc; auto|destruct Hx| |apply H; right; auto].
    unfold newlines. cbn [filter]. rewrite Hc. apply (H l0). left; auto. }
  assert (G : forall n t, length t <= n -> forall l, In l (split_lines t) -> newlines l = 0).
  { clear t l. induction n as [|n IH]; intros [|c t] L l; cbn in L; try lia; [intros [<-|[]]; auto|intros [<-|[]]; auto|]. cbn [split_lines]. destruct (N.eqb_spec c 10) as [->|Hc]; [intros [<-|H]; [auto|apply (IH t); auto; lia]|].
    assert (Q : In l (push c (split_lines t)) -> newlines l = 0) by (intros H; eapply P; eauto; intros l0 H0; apply (IH t); auto; lia).
    destruct (N.eqb c 13); auto. destruct t as [|x t]; auto. destruct (N.eqb x 10); auto. intros [<-|H]; auto. apply (IH t); auto. cbn in L; lia. }
  apply (G (length t)). auto.
Qed.
Lemma newlines_firstn n t : newlines t = 0 -> newlines (firstn n t) = 0.
Proof. intros H. rewrite <- (firstn_skipn n t), newlines_app in H. lia. Qed.
Lemma newlines_skipn n t : newlines t = 0 -> newlines (skipn n t) = 0.
Proof. intros H. rewrite <- (firstn_skipn n t), newlines_app in H. lia. Qed.
Lemma nth_numbered t j : j < length (split_lines t) -> nth_error (numbered_lines t) j = Some (nth j (split_lines t) [], Some j).
Proof.
  unfold numbered_lines. assert (G : forall ls n j, j < length ls -> nth_error (combine ls (map Some (seq n (length ls)))) j = Some (nth j ls ([] : text), Some (n + j))).
  { clear. induction ls as [|l ls IH]; intros n j H; [cbn in H; lia|]. destruct j as [|j]; cbn; [do 3 f_equal; lia|]. cbn in H. rewrite IH by lia. do 3 f_equal. lia. }
  intros H. rewrite G by auto. auto.
Qed.
Lemma numbered_len t : length (numbered_lines t) = length (split_lines t).
Proof. unfold numbered_lines. cbv zeta. rewrite combine_length, map_length, seq_length. lia. Qed.
Lemma nonnumbered_len t : length (nonnumbered_lines t) = S (newlines t).
Proof. unfold nonnumbered_lines. rewrite map_length. apply split_len. Qed.

Definition tracked (t : text) (d : doc) (es : list edit) : Prop :=
  (forall j l s, nth_error (lines d) j = Some (l, s) -> newlines l = 0 /\ s = origin es j /\ forall i, s = Some i -> nth_error (split_lines t) i = Some l) /\
  forall j1 j2 i1 i2, j1 < j2 -> j2 < length (lines d) -> origin es j1 = Some i1 -> origin es j2 = Some i2 -> i1 < i2.
Lemma tracked_numbered t v w : tracked t (Doc (numbered_lines t) v w) [].
Proof.
  split; cbn [lines origin]; [|intros; congruence]. intros j l s H. assert (Hj : j < length (split_lines t)) by (rewrite <- numbered_len; apply nth_error_Some; congruence). rewrite nth_numbered in H by auto. injection H as <- <-.
  split; [apply (split_no_newline t); apply nth_In; auto|]. split; auto. intros i E. injection E as <-. apply nth_error_nth'. auto.
Qed.
Lemma tracked_change t d es r t' v : tracked t d es -> tracked t (fst (change d r t' v)) (edit_of d r t' ++ es).
Proof.
  intros [T1 T2]. destruct r as [r|]; cbn [change edit_of].
  2:{ cbn [fst app]. split; cbn [lines origin]; [|discriminate]. intros j l s H. unfold nonnumbered_lines in H. rewrite nth_error_map in H. destruct (nth_error (split_lines t') j) as [l0|] eqn:E; [|discriminate]. cbn in H. injection H as <- <-.
      split; [apply nth_error_In in E; apply (split_no_newline t'); auto|]. split; auto. discriminate. }
  replace (Nat.ltb (end_line r) (start_line r) || Nat.leb (length (lines d)) (end_line r)) with (negb (Nat.leb (start_line r) (end_line r) && Nat.ltb (end_line r) (length (lines d)))) by (rewrite negb_andb, !Nat.ltb_antisym, !negb_involutive; auto).
  destruct (Nat.leb (start_line r) (end_line r) && Nat.ltb (end_line r) (length (lines d))) eqn:C; cbn [negb app]; [|split; auto].
  apply andb_true_iff in C. destruct C as [C1 C2]. apply Nat.leb_le in C1. apply Nat.ltb_lt in C2. cbn [fst].
  set (mid := firstn (start_char r) (line_text d (start_line r)) ++ t' ++ skipn (end_char r) (line_text d (end_line r))).
  assert (Nl : forall i, newlines (line_text d i) = 0).
  { intros i. unfold line_text. destruct (nth_error (lines d) i) as [[l s]|] eqn:E; [apply (T1 _ _ _ E)|auto]. }
  assert (Lm : length (nonnumbered_lines mid) = S (newlines t')).
  { rewrite nonnumbered_len. unfold mid. rewrite !newlines_app, newlines_firstn, newlines_skipn by auto. lia. }
  assert (Lf : length (firstn (start_line r) (lines d)) = start_line r) by (rewrite firstn_length; lia).
  split; cbn [lines].
  - intros j l s H. destruct (Nat.lt_ge_cases j (start_line r)) as [Hj|Hj].
    + rewrite nth_error_app1 in H by lia. assert (H' : nth_error (lines d) j = Some (l, s)).
      { rewrite <- (firstn_skipn (start_line r) (lines d)), nth_error_app1 by lia. auto. }
      destruct (T1 _ _ _ H') as (A1 & A2 & A3). split; auto. split; auto. cbn [origin]. rewrite (proj2 (Nat.ltb_lt _ _) Hj). auto.
    + rewrite nth_error_app2 in H by lia. rewrite Lf in H. destruct (Nat.lt_ge_cases (j - start_line r) (S (newlines t'))) as [Hk|Hk].
      * rewrite nth_error_app1 in H by lia. unfold nonnumbered_lines in H. rewrite nth_error_map in H. destruct (nth_error (split_lines mid) (j - start_line r)) as [l0|] eqn:E; [|discriminate]. cbn in H. injection H as <- <-.
        split; [apply nth_error_In in E; apply (split_no_newline mid); auto|]. split; [|discriminate]. cbn [origin]. rewrite (proj2 (Nat.ltb_ge _ _)) by auto. rewrite (proj2 (Nat.ltb_lt _ _)) by lia. auto.
      * rewrite nth_error_app2 in H by lia. rewrite Lm in H.
        assert (H' : nth_error (lines d) (j - S (newlines t') + S (end_line r - start_line r)) = Some (l, s)).
        { rewrite <- (firstn_skipn (S (end_line r)) (lines d)), nth_error_app2; rewrite firstn_length, min_l by lia; [|lia]. rewrite <- H. f_equal. lia. }
        destruct (T1 _ _ _ H') as (A1 & A2 & A3). split; auto. split; auto. cbn [origin]. rewrite (proj2 (Nat.ltb_ge _ _)) by auto. rewrite (proj2 (Nat.ltb_ge _ _)) by lia. auto.
  - intros j1 j2 i1 i2 Hj Hl. rewrite !app_length, Lf, Lm, skipn_length in Hl. cbn [origin].
    destruct (Nat.ltb_spec j1 (start_line r)), (Nat.ltb_spec j2 (start_line r)); try lia; try (apply T2; lia);
      destruct (Nat.ltb_spec j1 (start_line r + S (newlines t'))), (Nat.ltb_spec j2 (start_line r + S (newlines t'))); try discriminate; try lia; apply T2; lia.
Qed.
Lemma since_tracked t d es : since t d es -> tracked t d es.
Proof. induction 1; [apply tracked_numbered|apply tracked_numbered|apply tracked_change; auto]. Qed.
Lemma first_saved_spec ls : (exists j i l, nth_error ls j = Some (l, Some i) /\ first_saved ls = i /\ forall j' l' s, j' < j -> nth_error ls j' = Some (l', s) -> s = None) \/
  (first_saved ls = 0 /\ forall j l s, nth_error ls j = Some (l, s) -> s = None).
Proof.
  induction ls as [|[l [i|]] ls IH]; cbn [first_saved].
  - right. split; auto. intros [|j] l s H; discriminate.
  - left. exists 0, i, l. repeat split; auto. intros; lia.
  - destruct IH as [(j & i & l0 & A1 & A2 & A3)|[A1 A2]].
    + left. exists (S j), i, l0. repeat split; auto. intros [|j'] l' s Hj H; [cbn in H; congruence|]. apply (A3 j' l'); [lia|auto].
    + right. split; auto. intros [|j] l0 s H; [cbn in H; congruence|]. eauto.
Qed.
Lemma nth_rev_first (ls : list line) cur j : cur < length ls -> j <= cur -> nth_error (rev (firstn (S cur) ls)) j = nth_error ls (cur - j).
Proof.
  intros Hc Hj. assert (L : length (firstn (S cur) ls) = S cur) by (rewrite firstn_length; lia).
  assert (E : nth_error ls (cur - j) = nth_error (firstn (S cur) ls) (cur - j)) by (rewrite <- (firstn_skipn (S cur) ls) at 1; rewrite nth_error_app1 by lia; auto).
  rewrite E. destruct (nth_error (firstn (S cur) ls) (cur - j)) as [x|] eqn:X; [|apply nth_error_None in X; lia].
  rewrite (nth_error_nth' _ x) by (rewrite rev_length; lia). rewrite rev_nth by lia. rewrite L. replace (S cur - S j) with (cur - j) by lia. f_equal. apply nth_error_nth. auto.
Qed.
(** For every history of edits: a line carries the index it had at the last save exactly when no edit touched it, with the text it had then;
    the indexes are increasing; and the line reported is that of the nearest untouched line at or above, or 0 if there is none. *)
Theorem saved_lines : forall t d es, since t d es ->
  (forall j l s, nth_error (lines d) j = Some (l, s) -> s = origin es j /\ forall i, s = Some i -> nth_error (split_lines t) i = Some l) /\
  (forall j1 j2 i1 i2, j1 < j2 -> j2 < length (lines d) -> origin es j1 = Some i1 -> origin es j2 = Some i2 -> i1 < i2) /\
  forall cur, cur < length (lines d) -> exists i, get_env_line d cur = Some i /\
    ((exists j, j <= cur /\ origin es j = Some i /\ forall j', j < j' -> j' <= cur -> origin es j' = None) \/ (i = 0 /\ forall j, j <= cur -> origin es j = None)).
Proof.
  intros t d es H. apply since_tracked in H. destruct H as [T1 T2]. split; [intros j l s H; apply T1 in H; tauto|]. split; auto. intros cur Hc. unfold get_env_line. rewrite (proj2 (Nat.leb_le _ _)) by lia. eexists; split; [reflexivity|].
  assert (Og : forall j, j < length (lines d) -> exists l, nth_error (lines d) j = Some (l, origin es j)).
  { intros j Hj. destruct (nth_error (lines d) j) as [[l s]|] eqn:E; [|apply nth_error_None in E; lia]. exists l. destruct (T1 _ _ _ E) as (_ & -> & _). auto. }
  destruct (first_saved_spec (rev (firstn (S cur) (lines d)))) as [(j & i & l & A1 & A2 & A3)|[A1 A2]].
  - left. rewrite A2. assert (Hj : j <= cur).
    { assert (j < length (rev (firstn (S cur) (lines d)))) by (apply nth_error_Some; intros X; discriminate (eq_trans (eq_sym A1) X)). rewrite rev_length, firstn_length in H. lia. }
    exists (cur - j). split; [lia|]. rewrite nth_rev_first in A1 by auto. split; [destruct (T1 _ _ _ A1) as (_ & E & _); auto|].
    intros j' H1 H2. destruct (Og j' ltac:(lia)) as (l' & E'). apply (A3 (cur - j') l'); [lia|]. rewrite nth_rev_first by lia. replace (cur - (cur - j')) with j' by lia. auto.
  - right. split; auto. intros j Hj. destruct (Og j ltac:(lia)) as (l' & E'). apply (A2 (cur - j) l'). rewrite nth_rev_first by lia. replace (cur - (cur - j)) with j by lia. auto.
Qed.
Print Assumptions saved_lines.
(** Asking about a line below the last one panics. *)
Theorem env_line_panics : forall d cur, get_env_line d cur = None <-> length (lines d) <= cur.
Proof. intros d cur. unfold get_env_line. destruct (Nat.leb_spec (S cur) (length (lines d))); split; try discriminate; try lia; auto. Qed.
Print Assumptions env_line_panics.
(** An edit that reaches past the end is refused, but the version moves on: saving then reports a version whose text was not applied. *)
Theorem version_of_refused_edit : exists d r t v, snd (change d (Some r) t v) = false /\ lines (fst (change d (Some r) t v)) = lines d /\ live_version (fst (change d (Some r) t v)) = v /\ v <> live_version d.
Proof. exists (new [97]%N 1), (Range 0 0 1 0), [98]%N, 2%Z. repeat split; try reflexivity. discriminate. Qed.
Print Assumptions version_of_refused_edit.
(** four lines; line 1 becomes two lines, then lines 0 and 1 are joined *)
Definition sl_text : text := [97; 10; 98; 10; 99; 10; 100]%N.
Definition sl_doc : doc := fst (change (fst (change (new sl_text 1) (Some (Range 1 0 1 1)) [120; 10]%N 2)) (Some (Range 0 1 1 0)) [] 3).
Example saved_lines_case : since sl_text sl_doc [Lines 0 1 1; Lines 1 1 2] /\ map snd (lines sl_doc) = [None; None; Some 2; Some 3] /\ get_env_line sl_doc 3 = Some 3 /\ get_env_line sl_doc 1 = Some 0.
Proof.
  split; [|repeat split; reflexivity]. exact (since_change sl_text _ [Lines 1 1 2] (Some (Range 0 1 1 0)) [] 3 (since_change sl_text _ [] (Some (Range 1 0 1 1)) [120; 10]%N 2 (since_open sl_text 1))).
Qed.
