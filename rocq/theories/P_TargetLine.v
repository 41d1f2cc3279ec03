(** C72: the command line selects the lines that it names. *)
From Coq Require Import List NArith Bool Lia.
Import ListNotations.
From Verif Require Import GoalPartition TargetLine LineFilter.
Open Scope N_scope.

(** Numerals as the user writes them *)
Definition is_digit (c : char) : Prop := 48 <= c <= 57.
Definition digits_value (s : str) : N := fold_left (fun v c => v * 10 + (c - 48)) s 0.
Definition numeral (s : str) (n : N) : Prop :=
  exists ds, (s = ds \/ s = plus :: ds) /\ ds <> [] /\ Forall is_digit ds /\ digits_value ds = n /\ n < 2 ^ 32.

Lemma fold_mono ds : forall v, v <= fold_left (fun v c => v * 10 + (c - 48)) ds v.
Proof. induction ds as [|c ds IH]; intros v; simpl; [lia|]. specialize (IH (v * 10 + (c - 48))). lia. Qed.
Lemma digit_spec c d : digit c = Some d <-> is_digit c /\ d = c - 48.
Proof.
  unfold digit, is_digit. destruct ((48 <=? c) && (c <=? 57)) eqn:E; [apply andb_true_iff in E; rewrite !N.leb_le in E|apply andb_false_iff in E; rewrite !N.leb_gt in E]; split.
  - intros [= <-]. auto.
  - intros [_ ->]. auto.
  - discriminate.
  - intros [H _]. lia.
Qed.
Lemma parse_digits32_spec s : forall acc n, acc <= max_u32 -> parse_digits32 acc s = Some n <-> Forall is_digit s /\ n = fold_left (fun v c => v * 10 + (c - 48)) s acc /\ n <= max_u32.
Proof.
  induction s as [|c s IH]; intros acc n Ha; cbn [parse_digits32 fold_left].
  - split; [intros [= <-]; auto|intros (_ & -> & _); auto].
  - destruct (digit c) as [d|] eqn:E.
    + apply digit_spec in E. destruct E as [E ->]. destruct (max_u32 <? acc * 10 + (c - 48)) eqn:E1.
      * apply N.ltb_lt in E1. split; [discriminate|]. intros (_ & H1 & H2). pose proof (fold_mono s (acc * 10 + (c - 48))). lia.
      * apply N.ltb_ge in E1. rewrite IH by auto. split; [intros (A & B); split; [constructor; auto|auto]|intros (A & B); split; [inversion A; auto|auto]].
    + split; [discriminate|]. intros (A & _). inversion A; subst. assert (X : digit c = Some (c - 48)) by (apply digit_spec; auto). congruence.
Qed.
Lemma parse_u32_spec s n : parse_u32 s = Some n <-> numeral s n.
Proof.
  assert (M : forall x, x <= max_u32 <-> x < 2 ^ 32) by (intros x; unfold max_u32; change (2 ^ 32) with 4294967296; lia).
  unfold parse_u32, numeral. destruct s as [|c r]; [split; [discriminate|intros (ds & [<-|H] & N & _); [congruence|discriminate]]|].
  destruct (c =? plus) eqn:E.
  - apply N.eqb_eq in E. subst c. destruct r as [|c r].
    + split; [discriminate|]. intros (ds & [<-|H] & N & F & _); [inversion F as [|? ? X _]; unfold is_digit, plus in X; lia|injection H as <-; congruence].
    + rewrite parse_digits32_spec by (unfold max_u32; lia). split.
      * intros (A & B & C). exists (c :: r). split; [auto|]. split; [discriminate|]. split; [auto|]. split; [symmetry; exact B|apply M; auto].
      * intros (ds & [<-|H] & N & F & V & L); [inversion F as [|? ? X _]; unfold is_digit, plus in X; lia|]. injection H as <-. split; [auto|]. split; [symmetry; exact V|apply M; auto].
  - apply N.eqb_neq in E. rewrite parse_digits32_spec by (unfold max_u32; lia). split.
    + intros (A & B & C). exists (c :: r). split; [auto|]. split; [discriminate|]. split; [auto|]. split; [symmetry; exact B|apply M; auto].
    + intros (ds & [<-|H] & N & F & V & L); [|injection H as H _; congruence]. split; [auto|]. split; [symmetry; exact V|apply M; auto].
Qed.
Lemma numeral_no_sep s n c : numeral s n -> c = colon \/ c = dash -> ~ In c s.
Proof.
  intros (ds & H & _ & F & _) Hc Hi. rewrite Forall_forall in F. assert (X : In c ds -> False) by (intros Hd; specialize (F _ Hd); unfold is_digit, colon, dash in *; destruct Hc; lia).
  destruct H as [ -> | -> ]; [auto|]. destruct Hi as [<-|Hi]; [|auto]. unfold plus, colon, dash in Hc. destruct Hc; discriminate.
Qed.
Lemma split_last_none s c : split_last c s = None <-> ~ In c s.
Proof.
  induction s as [|x s IH]; simpl; [split; auto|]. destruct (split_last c s) as [[a b]|].
  - split; [discriminate|]. intros H. exfalso. assert (X : ~ In c s) by auto. apply IH in X. discriminate.
  - destruct (x =? c) eqn:E; [apply N.eqb_eq in E; split; [discriminate|intros H; exfalso; auto]|]. apply N.eqb_neq in E. split; auto. intros _ [H|H]; [auto|]. apply IH; auto.
Qed.
Lemma split_last_spec s c a b : split_last c s = Some (a, b) <-> s = a ++ c :: b /\ ~ In c b.
Proof.
  revert a. induction s as [|x s IH]; intros a; simpl; [split; [discriminate|intros [H _]; destruct a; discriminate]|]. destruct (split_last c s) as [[a0 b0]|] eqn:E.
  - split.
    + intros [= <- <-]. destruct (proj1 (IH a0) eq_refl) as [-> H]. auto.
    + intros [H N]. destruct a as [|y a]; simpl in H; injection H as -> H; [subst; apply split_last_none in N; congruence|].
      assert (X : Some (a0, b0) = Some (a, b)) by (apply IH; auto). injection X as -> ->. auto.
  - apply split_last_none in E. destruct (x =? c) eqn:Ex; [apply N.eqb_eq in Ex; subst x|apply N.eqb_neq in Ex]; split; try discriminate.
    + intros [= <- <-]. auto.
    + intros [H N]. destruct a as [|y a]; simpl in H; [injection H as H2; subst; auto|injection H as H1 H2]. exfalso. apply E. rewrite H2. apply in_or_app. right. left. auto.
    + intros [H N]. exfalso. destruct a as [|y a]; simpl in H; injection H as H1 H2; [congruence|]. apply E. rewrite H2. apply in_or_app. right. left. auto.
Qed.
Lemma split_once_spec s c a b : split_once c s = Some (a, b) <-> s = a ++ c :: b /\ ~ In c a.
Proof.
  revert a. induction s as [|x s IH]; intros a; simpl; [split; [discriminate|intros [H _]; destruct a; discriminate]|]. destruct (x =? c) eqn:Ex; [apply N.eqb_eq in Ex; subst x|apply N.eqb_neq in Ex].
  - split; [intros [= <- <-]; auto|]. intros [H N]. destruct a as [|y a]; simpl in H; [injection H as H2; subst; auto|injection H as H1 H2]. exfalso. apply N. left. auto.
  - destruct (split_once c s) as [[a0 b0]|] eqn:E.
    + split.
      * intros [= <- <-]. destruct (proj1 (IH a0) eq_refl) as [-> H]. split; [auto|]. intros [X|X]; auto.
      * intros [H N]. destruct a as [|y a]; simpl in H; injection H as H1 H2; [congruence|]. assert (X : Some (a0, b0) = Some (a, b)) by (apply IH; split; [auto|intros X; apply N; right; auto]). injection X as -> ->. rewrite H1. reflexivity.
    + split; [discriminate|]. intros [H N]. destruct a as [|y a]; simpl in H; injection H as H1 H2; [congruence|]. assert (X : @None (str * str) = Some (a, b)) by (apply IH; split; [auto|intros X; apply N; right; auto]). discriminate.
Qed.

(** [MODULE:LINE] and [MODULE:START-END] select the lines, for any name of a module, and are refused together with another line or if the range is reversed. *)
Theorem named_lines_selected m s :
  (forall n, numeral s n -> parse_target_and_line (Some (m ++ colon :: s)) None None = Parsed (Some m) (Some (Single n)) /\
     forall pos flag, pos <> None \/ flag <> None -> parse_target_and_line (Some (m ++ colon :: s)) pos flag = Refused) /\
  (forall a b x y, s = a ++ dash :: b -> numeral a x -> numeral b y ->
     parse_target_and_line (Some (m ++ colon :: s)) None None = (if y <? x then Refused else Parsed (Some m) (Some (Range x y))) /\
     forall pos flag, pos <> None \/ flag <> None -> parse_target_and_line (Some (m ++ colon :: s)) pos flag = Refused).
Proof.
  assert (P : forall pos flag : option N, pos <> None \/ flag <> None -> has pos || has flag = true) by (intros [p|] [q|] [H|H]; simpl; auto; congruence).
  split.
  - intros n Hn. unfold parse_target_and_line. rewrite (proj2 (split_last_spec _ _ m s)) by (split; [auto|eapply numeral_no_sep; eauto]).
    pose proof (proj2 (parse_u32_spec s n) Hn) as Hu. split.
    + simpl has. simpl andb. cbv iota. destruct (split_once dash s) as [[a b]|] eqn:E; [apply split_once_spec in E; destruct E as [-> _]; exfalso; eapply (numeral_no_sep _ _ dash Hn); [auto|apply in_or_app; right; left; auto]|].
      unfold parse_single. rewrite Hu. auto.
    + intros pos flag H. rewrite (P _ _ H), Hu. auto.
  - intros a b x y -> Ha Hb. unfold parse_target_and_line.
    assert (Nc : ~ In colon (a ++ dash :: b)). { intros H. apply in_app_or in H. destruct H as [H|[H|H]]; [eapply (numeral_no_sep a x colon); eauto|discriminate|eapply (numeral_no_sep b y colon); eauto]. }
    rewrite (proj2 (split_last_spec _ _ m _)) by (split; auto). split.
    + simpl has. simpl andb. cbv iota. rewrite (proj2 (split_once_spec _ _ a b)) by (split; [auto|eapply numeral_no_sep; eauto]).
      rewrite (proj2 (parse_u32_spec a x) Ha), (proj2 (parse_u32_spec b y) Hb). auto.
    + intros pos flag H. rewrite (P _ _ H). assert (X : existsb (fun c => c =? dash) (a ++ dash :: b) = true) by (apply existsb_exists; exists dash; split; [apply in_or_app; right; left; auto|apply N.eqb_refl]).
      rewrite X, orb_true_r. auto.
Qed.

(** What is selected was written: the target is the given one with at most one other line, or it was followed by a colon and the lines, and there was no other line; ranges are in order. *)
Theorem selected_lines_named target pos flag m sel :
  parse_target_and_line target pos flag = Parsed m sel ->
  (m = target /\ (pos = None \/ flag = None) /\ sel = option_map Single (match pos with Some l => Some l | None => flag end)) \/
  (pos = None /\ flag = None /\ exists t s, m = Some t /\ target = Some (t ++ colon :: s) /\
    ((exists n, numeral s n /\ sel = Some (Single n)) \/ (exists a b x y, s = a ++ dash :: b /\ numeral a x /\ numeral b y /\ x <= y /\ sel = Some (Range x y)))).
Proof.
  assert (R : parse_rest target pos flag = Parsed m sel -> m = target /\ (pos = None \/ flag = None) /\ sel = option_map Single (match pos with Some l => Some l | None => flag end)).
  { unfold parse_rest. destruct (has pos && has flag) eqn:E; [discriminate|]. intros [= <- <-]. split; [auto|]. split; [|auto]. destruct pos, flag; simpl in E; auto; discriminate. }
  unfold parse_target_and_line. destruct target as [t|]; [|intros H; left; auto]. destruct (split_last colon t) as [[t0 s]|] eqn:E; [|intros H; left; auto].
  apply split_last_spec in E. destruct E as [-> Nc]. destruct ((has pos || has flag) && (has (parse_u32 s) || existsb (fun c => c =? dash) s)) eqn:Ec; [discriminate|].
  assert (N : has (parse_u32 s) || existsb (fun c => c =? dash) s = true -> pos = None /\ flag = None).
  { intros H. rewrite H, andb_true_r in Ec. destruct pos, flag; simpl in Ec; try discriminate. auto. }
  assert (S : parse_single (Some (t0 ++ colon :: s)) pos flag t0 s = Parsed m sel -> (m = Some (t0 ++ colon :: s) /\ (pos = None \/ flag = None) /\ sel = option_map Single (match pos with Some l => Some l | None => flag end)) \/
    (pos = None /\ flag = None /\ exists t s0, m = Some t /\ Some (t0 ++ colon :: s) = Some (t ++ colon :: s0) /\
    ((exists n, numeral s0 n /\ sel = Some (Single n)) \/ (exists a b x y, s0 = a ++ dash :: b /\ numeral a x /\ numeral b y /\ x <= y /\ sel = Some (Range x y))))).
  { unfold parse_single. destruct (parse_u32 s) as [n|] eqn:Eu; [|intros H; left; auto]. intros [= <- <-]. right. destruct (N eq_refl) as [-> ->]. split; [auto|]. split; [auto|].
    exists t0, s. split; [auto|]. split; [auto|]. left. exists n. split; [apply parse_u32_spec; auto|auto]. }
  destruct (split_once dash s) as [[a b]|] eqn:Ed; [|exact S]. destruct (parse_u32 a) as [x|] eqn:Ea; [|exact S]. destruct (parse_u32 b) as [y|] eqn:Eb; [|exact S].
  destruct (y <? x) eqn:Ey; [discriminate|]. intros [= <- <-]. apply N.ltb_ge in Ey. apply split_once_spec in Ed. destruct Ed as [-> _]. right.
  destruct N as [-> ->]. { apply orb_true_iff. right. apply existsb_exists. exists dash. split; [apply in_or_app; right; left; auto|apply N.eqb_refl]. }
  split; [auto|]. split; [auto|]. exists t0, (a ++ dash :: b). split; [auto|]. split; [auto|]. right. exists a, b, x, y. split; [auto|]. split; [apply parse_u32_spec; auto|]. split; [apply parse_u32_spec; auto|auto].
Qed.

(** All other targets are taken whole, if at most one line is given besides, and none if the part behind the last colon has a dash. *)
Theorem other_targets_whole target pos flag :
  (forall m s, target = Some (m ++ colon :: s) -> ~ In colon s ->
     (forall n, ~ numeral s n) /\ (forall a b x y, s = a ++ dash :: b -> numeral a x -> ~ numeral b y) /\ (In dash s -> pos = None /\ flag = None)) ->
  pos = None \/ flag = None ->
  parse_target_and_line target pos flag = Parsed target (option_map Single (match pos with Some l => Some l | None => flag end)).
Proof.
  intros H Hp. assert (R : parse_rest target pos flag = Parsed target (option_map Single (match pos with Some l => Some l | None => flag end))).
  { unfold parse_rest. destruct pos, flag; auto. destruct Hp; discriminate. }
  unfold parse_target_and_line. destruct target as [t|]; [|exact R]. destruct (split_last colon t) as [[m s]|] eqn:E; [|exact R].
  apply split_last_spec in E. destruct E as [-> Nc]. destruct (H m s eq_refl Nc) as (H1 & H2 & H3).
  assert (Eu : parse_u32 s = None) by (destruct (parse_u32 s) as [n|] eqn:X; [apply parse_u32_spec in X; exfalso; eapply H1; eauto|auto]).
  assert (S : parse_single (Some (m ++ colon :: s)) pos flag m s = Parsed (Some (m ++ colon :: s)) (option_map Single (match pos with Some l => Some l | None => flag end))) by (unfold parse_single; rewrite Eu; exact R).
  rewrite Eu. simpl orb at 2. destruct (existsb (fun c => c =? dash) s) eqn:Ed.
  - destruct H3 as [-> ->]; [apply existsb_exists in Ed; destruct Ed as (c & Hc & Ec); apply N.eqb_eq in Ec; subst; auto|]. cbn [has orb andb].
    destruct (split_once dash s) as [[a b]|] eqn:Es; [|exact S]. apply split_once_spec in Es. destruct Es as [Es _].
    destruct (parse_u32 a) as [x|] eqn:Ea; [|exact S]. destruct (parse_u32 b) as [y|] eqn:Eb; [|exact S]. exfalso.
    apply parse_u32_spec in Ea, Eb. eapply H2; eauto.
  - cbn [has orb]. rewrite andb_false_r. destruct (split_once dash s) as [[a b]|] eqn:Es; [|exact S]. apply split_once_spec in Es. destruct Es as [-> _].
    exfalso. apply (eq_true_false_abs _ (proj2 (existsb_exists (fun c => c =? dash) (a ++ dash :: b)) (ex_intro _ dash (conj (in_or_app _ _ _ (or_intror (in_eq _ _))) (N.eqb_refl _)))) Ed).
Qed.

(** Lines begin with 1, but line 0 is accepted, and then the filter for it overflows. *)
Theorem line_zero_refuted : ~ (forall target pos flag m n, parse_target_and_line target pos flag = Parsed m (Some (Single n)) -> set_single_goal (N.to_nat n) None <> None).
Proof. intros H. apply (H (Some [109; colon; 48]) None None (Some [109]) 0); reflexivity. Qed.

Print Assumptions named_lines_selected.
Print Assumptions selected_lines_named.
Print Assumptions other_targets_whole.
Print Assumptions line_zero_refuted.

(** [a:b:12], [m:3-+10], [m:7-2], [m:1-2-3] and [C:x] *)
Example named_lines_selected_case :
  numeral [49; 50] 12 /\
  parse_target_and_line (Some [97; 58; 98; 58; 49; 50]) None None = Parsed (Some [97; 58; 98]) (Some (Single 12)) /\
  parse_target_and_line (Some [109; 58; 51; 45; 43; 49; 48]) None None = Parsed (Some [109]) (Some (Range 3 10)) /\
  parse_target_and_line (Some [109; 58; 55; 45; 50]) None None = Refused /\
  parse_target_and_line (Some [109; 58; 55]) (Some 3) None = Refused.
Proof.
  split; [|repeat split; reflexivity]. exists [49; 50]. split; [auto|]. split; [discriminate|]. split; [repeat constructor; unfold is_digit; lia|]. split; [reflexivity|]. change (2 ^ 32) with 4294967296. lia.
Qed.
Example selected_lines_named_case :
  parse_target_and_line (Some [109; 58; 49; 45; 50; 45; 51]) None None = Parsed (Some [109; 58; 49; 45; 50; 45; 51]) None /\
  parse_target_and_line (Some [67; 58; 120]) None (Some 4) = Parsed (Some [67; 58; 120]) (Some (Single 4)) /\
  parse_target_and_line (Some [109]) (Some 3) (Some 4) = Refused.
Proof. repeat split; reflexivity. Qed.
(** [m], which has no colon *)
Example other_targets_whole_case :
  parse_target_and_line (Some [109]) (Some 3) None = Parsed (Some [109]) (Some (Single 3)).
Proof.
  apply (other_targets_whole (Some [109]) (Some 3) None); [|auto]. intros m s H _. exfalso. destruct m as [|c [|d m]]; discriminate.
Qed.
