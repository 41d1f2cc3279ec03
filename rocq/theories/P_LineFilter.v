(** C70: which goals are verified when lines are selected. *)
From Coq Require Import List Arith Bool Lia.
Import ListNotations.
From Verif Require Import LoweredModule LoweredModuleProofs P_LoweredModule BuildModule BuildModuleProofs P_BuildModule LineFilter.

(** How many of the first [n] goals begin on the line *)
Definition on_line (line : nat) (lines : list nat) (n : nat) : nat := count_occ Nat.eq_dec (firstn n lines) line.

Lemma decide_spec f eval : forall lines count ds c, decide f eval count lines = (ds, c) ->
  length ds = length lines /\
  (forall g l, nth_error lines g = Some l -> nth g ds false =
    match f with
    | SingleLine line i => if l <? line then negb eval else if line <? l then false else match i with Some i => count + on_line line lines (S g) <=? i | None => true end
    | LineRange s e => (l <=? e) && (negb eval || (s <=? l))
    end) /\
  c = match f with SingleLine line _ => count + count_occ Nat.eq_dec lines line | _ => count end.
Proof.
  induction lines as [|x lines IH]; intros count ds c H; simpl in H.
  - injection H as <- <-. split; [auto|]. split; [intros [|g] l; discriminate|]. destruct f; simpl; lia.
  - destruct (should_verify f eval count x) as [d c1] eqn:E. destruct (decide f eval c1 lines) as [ds1 c2] eqn:E2. injection H as <- <-. destruct (IH _ _ _ E2) as (A & B & C). split; [simpl; auto|].
    unfold should_verify in E. destruct f as [line i|s e].
    + assert (X : c1 = count + if Nat.eq_dec x line then 1 else 0).
      { destruct (x <? line) eqn:E3; [apply Nat.ltb_lt in E3; injection E as _ <-; destruct (Nat.eq_dec x line); lia|]. destruct (line <? x) eqn:E4; [apply Nat.ltb_lt in E4; injection E as _ <-; destruct (Nat.eq_dec x line); lia|].
        apply Nat.ltb_ge in E3, E4. injection E as _ <-. destruct (Nat.eq_dec x line); lia. }
      split.
      * intros [|g] l H; simpl in H.
        -- injection H as <-. simpl nth. destruct (x <? line) eqn:E3; [injection E as <- _; auto|]. destruct (line <? x) eqn:E4; [injection E as <- _; auto|]. injection E as <- _.
           apply Nat.ltb_ge in E3, E4. unfold on_line. cbn [firstn count_occ]. destruct (Nat.eq_dec x line); [|lia]. destruct i; auto. rewrite Nat.add_1_r. auto.
        -- simpl nth. rewrite (B g l H). destruct (l <? line); auto. destruct (line <? l); auto. destruct i as [i|]; auto. f_equal. unfold on_line. rewrite X.
           change (firstn (S (S g)) (x :: lines)) with (x :: firstn (S g) lines). cbn [count_occ]. destruct (Nat.eq_dec x line); lia.
      * rewrite C, X. cbn [count_occ]. destruct (Nat.eq_dec x line); lia.
    + injection E as <- <-. split; [|auto]. intros [|g] l H; simpl in H; [injection H as <-; auto|simpl nth; apply (B g l H)].
Qed.

(** The counter makes no difference between runs: a goal is selected depending only on the goals up to it.  Outside of evaluations everything before the line is selected and nothing behind it,
    and of the goals on the line all or the given number. *)
Theorem line_filter_exact (external : nat) i f lines g l :
  set_single_goal external i = Some f -> nth_error lines g = Some l ->
  selects f false lines g = true <-> S l < external \/ S l = external /\ match i with Some i => on_line l lines (S g) <= i | None => True end.
Proof.
  destruct external as [|line]; [discriminate|]. intros [= <-] Hl. unfold selects, decisions. destruct (decide (SingleLine line i) false 0 lines) as [ds c] eqn:E.
  destruct (decide_spec _ _ _ _ _ _ E) as (_ & A & _). simpl fst. rewrite (A g l Hl). clear A E.
  destruct (l <? line) eqn:E1; [apply Nat.ltb_lt in E1; simpl; split; [lia|auto]|]. destruct (line <? l) eqn:E2; [apply Nat.ltb_lt in E2; split; [discriminate|lia]|].
  apply Nat.ltb_ge in E1, E2. assert (l = line) as -> by lia. destruct i as [i|]; simpl.
  - rewrite Nat.leb_le. split; [auto|intros [H|[_ H]]; [lia|auto]].
  - split; auto.
Qed.
Theorem range_filter_exact start stop f lines g l eval :
  set_goal_range start stop = Some f -> nth_error lines g = Some l ->
  selects f eval lines g = true <-> S l <= stop /\ (eval = true -> start <= S l).
Proof.
  destruct start as [|s]; [discriminate|]. destruct stop as [|e]; [discriminate|]. intros [= <-] Hl. unfold selects, decisions. destruct (decide (LineRange s e) eval 0 lines) as [ds c] eqn:E.
  destruct (decide_spec _ _ _ _ _ _ E) as (_ & A & _). simpl fst. rewrite (A g l Hl), andb_true_iff, orb_true_iff, !Nat.leb_le. destruct eval; simpl; split; intros [H1 H2]; split; try lia; auto; try discriminate.
Qed.

(** If a goal on the line is asked for by its number and the run does not complain, there is this goal and it is selected; those behind it on the line are not. *)
Theorem validated_goal_selected external i f lines eval :
  set_single_goal external (Some i) = Some f -> 1 <= i -> validate f eval lines = true ->
  exists g l, nth_error lines g = Some l /\ S l = external /\ on_line l lines (S g) = i /\ selects f eval lines g = true /\
    forall g', g < g' -> nth_error lines g' = Some l -> selects f eval lines g' = false.
Proof.
  destruct external as [|line]; [discriminate|]. intros [= <-] Hi. unfold validate, selects, decisions. destruct (decide (SingleLine line (Some i)) eval 0 lines) as [ds c] eqn:E.
  destruct (decide_spec _ _ _ _ _ _ E) as (_ & A & ->). simpl. intros H. apply Nat.leb_le in H.
  assert (X : exists g, nth_error lines g = Some line /\ on_line line lines (S g) = i).
  { clear - Hi H. unfold on_line. revert i Hi H. induction lines as [|x lines IH]; intros i Hi H; [simpl in H; lia|]. cbn [count_occ] in H. destruct (Nat.eq_dec x line) as [->|N].
    - destruct i as [|[|i]]; [lia| |].
      + exists 0. split; [auto|]. simpl. destruct (Nat.eq_dec line line); [auto|lia].
      + destruct (IH (S i)) as (g & A & B); [lia|lia|]. exists (S g). split; [auto|]. change (firstn (S (S g)) (line :: lines)) with (line :: firstn (S g) lines). cbn [count_occ]. rewrite B. destruct (Nat.eq_dec line line); lia.
    - destruct (IH i Hi H) as (g & A & B). exists (S g). split; [auto|]. change (firstn (S (S g)) (x :: lines)) with (x :: firstn (S g) lines). cbn [count_occ]. rewrite B. destruct (Nat.eq_dec x line); [congruence|auto]. }
  destruct X as (g & X1 & X2). exists g, line. split; [auto|]. split; [auto|]. split; [auto|]. split.
  - rewrite (A g line X1), Nat.ltb_irrefl. apply Nat.leb_le. simpl. lia.
  - intros g' Hg X3. rewrite (A g' line X3), Nat.ltb_irrefl. apply Nat.leb_gt. simpl. rewrite <- X2. clear - Hg X3. unfold on_line. revert g g' Hg X3.
    induction lines as [|x lines IH]; intros g g' Hg X3; [destruct g'; discriminate|]. destruct g' as [|g']; [lia|]. simpl in X3.
    change (firstn (S (S g')) (x :: lines)) with (x :: firstn (S g') lines). change (firstn (S g) (x :: lines)) with (x :: firstn g lines). cbn [count_occ].
    assert (Y : count_occ Nat.eq_dec (firstn g lines) line < count_occ Nat.eq_dec (firstn (S g') lines) line).
    { destruct g as [|g]; [|apply IH; auto; lia]. change (count_occ Nat.eq_dec (firstn 0 lines) line) with 0. clear - X3. revert lines X3. induction g' as [|g' IH]; intros [|y lines] H; simpl in H; try discriminate.
      - injection H as ->. simpl. destruct (Nat.eq_dec line line); [lia|congruence].
      - specialize (IH lines H). change (firstn (S (S g')) (y :: lines)) with (y :: firstn (S g') lines). cbn [count_occ]. destruct (Nat.eq_dec y line); lia. }
    destruct (Nat.eq_dec x line); lia.
Qed.

(** The comments say that earlier goals are verified as prerequisites.  They are if no earlier goal begins on a later line: then a run that ends with a good status has verified the
    selected goal and every one before it. *)
Theorem prerequisites_verified {Cert} (cert_goal : Cert -> nat) goal_name check trim search make cancelled (set : settings Cert) {F G} (ns : list (lnode F G)) items m s0 store st rec external i f lines g l :
  lower_nodes true ns empty_module = (items, m) -> set_single_goal external i = Some f -> length lines = length (l_goals m) -> b_filter set = Some (selects f false lines) ->
  verify_module cert_goal goal_name check trim search make cancelled set s0 store items = Some (st, rec) -> st_status st = Good ->
  nth_error lines g = Some l -> selects f false lines g = true -> (forall g' l', g' < g -> nth_error lines g' = Some l' -> l' <= l) ->
  forall g', g' <= g -> exists V e, visible_fact_ids_for g' items = Some V /\ evidence cert_goal goal_name check trim search make set g' V e.
Proof.
  intros Hl Hf Hn Hb Hv Hs Hg Hsel Hle g' Hg'. destruct (good_status_verified _ _ _ _ _ _ _ _ ns items m s0 store st rec Hl Hv Hs) as [A _].
  assert (Hlt : g < length lines) by (apply nth_error_Some; congruence). apply A; [lia|]. unfold wanted. rewrite Hb.
  destruct (Nat.eq_dec g' g) as [->|N]; [auto|]. destruct (nth_error lines g') as [l'|] eqn:E; [|apply nth_error_None in E; lia].
  apply (line_filter_exact external i f lines g' l' Hf E). apply (line_filter_exact external i f lines g l Hf Hg) in Hsel. specialize (Hle g' l' ltac:(lia) E).
  destruct Hsel as [H|[H1 H2]]; [left; lia|]. destruct (Nat.eq_dec l' l) as [->|N2]; [|left; lia]. right. split; [auto|]. destruct i as [i|]; [|auto].
  assert (X : on_line l lines (S g') <= on_line l lines (S g)).
  { unfold on_line. replace (S g) with (S g' + (g - g')) by lia. generalize (g - g') as d. generalize (S g') as n. clear. intros n d. revert lines. induction n as [|n IH]; intros lines; simpl; [lia|].
    destruct lines as [|x lines]; simpl; [lia|]. specialize (IH lines). destruct (Nat.eq_dec x l); lia. }
  lia.
Qed.

(** In general they are not: the goal of a theorem has the line of the theorem and comes behind the claims of its proof, which have later lines.  Selecting the line of the theorem proves the goal from
    a fact that nothing proves, and the run is good. *)
Definition theorem_nodes : list (lnode nat nat) := [NBlock [NClaim 10 10 false; NClaim 11 11 false] (Some (12, true))].
Definition theorem_items : list litem := [IBlock [IClaim 0 0; IClaim 1 1] (Some 2)].
Definition theorem_run (f : goal_filter) :=
  verify_module (fun c : nat => c) (fun g => g) (fun _ _ _ => false) (fun c _ _ => c) (fun g V => if (g =? 1) && existsb (Nat.eqb 0) V then Success else NotFound) (fun g _ => Some g) (fun _ => false)
    (SET false false None (Some (selects f false [2; 1])) false) Good [] theorem_items.
Theorem prerequisites_refuted :
  ~ (forall (cert_goal : nat -> nat) goal_name check trim search make cancelled set (ns : list (lnode nat nat)) items m s0 store st rec external i f lines g,
      lower_nodes true ns empty_module = (items, m) -> set_single_goal external i = Some f -> length lines = length (l_goals m) -> b_filter set = Some (selects f false lines) ->
      verify_module cert_goal goal_name check trim search make cancelled set s0 store items = Some (st, rec) -> st_status st = Good ->
      g < length lines -> selects f false lines g = true ->
      forall g', g' <= g -> exists V e, visible_fact_ids_for g' items = Some V /\ evidence cert_goal goal_name check trim search make set g' V e).
Proof.
  intros H. destruct (theorem_run (SingleLine 1 None)) as [[st rec]|] eqn:E; [|discriminate E].
  assert (Hs : st_status st = Good) by (vm_compute in E; injection E as <- _; auto).
  destruct (H _ _ _ _ _ _ _ (SET false false None (Some (selects (SingleLine 1 None) false [2; 1])) false) theorem_nodes theorem_items (LMOD [10; 11; 12] [10; 11] [2]) Good [] st rec 2 None (SingleLine 1 None) [2; 1] 1 eq_refl eq_refl eq_refl eq_refl E Hs ltac:(simpl; lia) eq_refl 0 ltac:(lia))
    as (V & e & _ & He). destruct e as [c|]; simpl in He.
  - destruct He as [_ [(d & _ & X & _)|(_ & X & _)]]; discriminate.
  - destruct He as (d & X & _). discriminate.
Qed.

Print Assumptions line_filter_exact.
Print Assumptions range_filter_exact.
Print Assumptions validated_goal_selected.
Print Assumptions prerequisites_verified.
Print Assumptions prerequisites_refuted.

Example prerequisites_refuted_case :
  theorem_run (SingleLine 1 None) = Some (BST Good true [1] [], None) /\ theorem_run (SingleLine 2 None) = Some (BST Warning false [1] [], None) /\ visible_fact_ids_for 1 theorem_items = Some [0].
Proof. repeat split; reflexivity. Qed.
(** Goals on lines 1, 4, 4, 4 and 6, numbered from 0; the second on line 5 as the user counts. *)
Example line_filter_exact_case : decisions (SingleLine 4 (Some 2)) false [1; 4; 4; 4; 6] = [true; true; true; false; false] /\ decisions (SingleLine 4 None) true [1; 4; 4; 4; 6] = [false; true; true; true; false].
Proof. split; reflexivity. Qed.
Example range_filter_exact_case : set_goal_range 3 5 = Some (LineRange 2 4) /\ decisions (LineRange 2 4) false [1; 4; 6] = [true; true; false] /\ decisions (LineRange 2 4) true [1; 4; 6] = [false; true; false].
Proof. repeat split; reflexivity. Qed.
Example validated_goal_selected_case : set_single_goal 5 (Some 2) = Some (SingleLine 4 (Some 2)) /\ validate (SingleLine 4 (Some 2)) false [1; 4; 4; 4; 6] = true /\ validate (SingleLine 4 (Some 4)) false [1; 4; 4; 4; 6] = false.
Proof. repeat split; reflexivity. Qed.
(** Two claims in the order of their lines; both are verified if the second is selected. *)
Example prerequisites_verified_case :
  verify_module (fun c : nat => c) (fun g => g) (fun c g _ => c =? g) (fun c _ _ => c) (fun _ _ => Success) (fun g _ => Some g) (fun _ => false)
    (SET false false None (Some (selects (SingleLine 2 None) false [1; 2; 3])) false) Good [] [IClaim 0 0; IClaim 1 1; IClaim 2 2] = Some (BST Good true [0; 1] [], None).
Proof. reflexivity. Qed.
