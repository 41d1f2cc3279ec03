(** Lemmas on the expression parser. *)
From Coq Require Import List NArith ZArith Bool Lia.
Import ListNotations.
From Verif Require Import Scanner Expression.

(** ** Token types *)
Definition tt_of (n : N) : option token_type := find (fun t => N.eqb (tt_index t) n)
  [ Identifier; Invalid; LeftParen; RightParen; LeftBrace; RightBrace; LeftBracket; RightBracket; NewLine; Comma
  ; Colon; Dot; RightArrow; Not; Or; And; Iff; Equals; NotEquals; GreaterThan; LessThan; GreaterThanOrEquals
  ; LessThanOrEquals; Plus; Minus; Let; Axiom_; Define; Theorem_; Type_; ForAll; Exists; If_; By; Function_
  ; Structure_; Import_; True_; False_; Else_; Class_; Attributes; Asterisk; Percent; Slash; Numeral; Numerals
  ; From_; Solve; Satisfy; SelfToken; Inductive_; Match_; Choose; Constraint_; Implies; Local_; Lemma_
  ; Typeclass_; Instance_; Extends; DocComment; Lib; Transport; Union; Intersection; Backslash; ElemOf; NotElemOf
  ; Contains; NotContains; SubsetEq; SupersetEq; Subset; Superset; QuestionMark ].
Lemma tt_of_index t : tt_of (tt_index t) = Some t.
Proof. destruct t; vm_compute; reflexivity. Qed.
Lemma tt_eqb_eq a b : tt_eqb a b = true <-> a = b.
Proof.
  unfold tt_eqb. rewrite N.eqb_eq. split; [|congruence]. intros H. pose proof (tt_of_index a) as A. rewrite H, tt_of_index in A. congruence.
Qed.
Lemma tt_eqb_refl a : tt_eqb a a = true.
Proof. apply tt_eqb_eq; reflexivity. Qed.
Lemma tt_eqb_neq a b : tt_eqb a b = false <-> a <> b.
Proof. rewrite <- tt_eqb_eq. destruct (tt_eqb a b); split; congruence. Qed.

(** ** More fuel *)
Definition ple {A} (x y : pres A) : Prop := x = Fuel \/ y = x.
Lemma pbind_le {A B} (x y : pres A) (f g : A -> pres B) : ple x y -> (forall a, ple (f a) (g a)) -> ple (pbind x f) (pbind y g).
Proof. intros [->| ->] H; [left; reflexivity|]. destruct x; cbn; auto; right; reflexivity. Qed.
Lemma ple_refl {A} (x : pres A) : ple x x.
Proof. right; reflexivity. Qed.
Ltac ple_step :=
  repeat match goal with
  | |- ple (pbind _ _) (pbind _ _) => apply pbind_le; [|let a := fresh "a" in intros a; repeat (let b := fresh "b" in destruct a as [a b])]
  | |- ple ?x ?x => apply ple_refl
  | |- ple (match ?x with _ => _ end) _ => destruct x
  end.
Lemma more_fuel n : forall m, n <= m ->
  (forall ety tm ts, ple (parse n ety tm ts) (parse m ety tm ts)) /\
  (forall ety tm acc ts, ple (partials n ety tm acc ts) (partials m ety tm acc ts)) /\
  (forall ts, ple (declarations n ts) (declarations m ts)) /\
  (forall close ts, ple (type_params n close ts) (type_params m close ts)) /\
  (forall ts, ple (value_block n ts) (value_block m ts)) /\
  (forall ts, ple (match_cases n ts) (match_cases m ts)).
Proof.
  induction n as [|n IH]; intros m H.
  - repeat split; intros; left; reflexivity.
  - destruct m as [|m]; [lia|]. assert (Hm : n <= m) by lia. destruct (IH m Hm) as (I1 & I2 & I3 & I4 & I5 & I6). clear IH.
    repeat split; intros.
    + change (ple (parse_step (partials n) ety tm ts) (parse_step (partials m) ety tm ts)). unfold parse_step. ple_step. apply I2.
    + change (ple (partials_step (parse n) (partials n) (declarations n) (type_params n) (value_block n) (match_cases n) ety tm acc ts)
        (partials_step (parse m) (partials m) (declarations m) (type_params m) (value_block m) (match_cases m) ety tm acc ts)).
      unfold partials_step. destruct ts as [|t ts]; [apply ple_refl|].
      cbv zeta. destruct (matches tm (fst t)); [apply ple_refl|].
      destruct (tt_eqb (fst t) LeftBracket); [ple_step; first [apply I1|apply I2]|].
      destruct (tt_eqb (fst t) LessThan && negb (in_value ety)); [ple_step; first [apply I1|apply I2]|].
      destruct (is_binary (fst t)); [ple_step; apply I2|].
      destruct (is_unary (fst t)); [ple_step; apply I2|].
      destruct (is_postfix (fst t)); [ple_step; apply I2|].
      destruct (fst t); try apply ple_refl; ple_step; first [apply I1|apply I2|apply I3|apply I4|apply I5|apply I6].
    + change (ple (declarations_step (parse n) (declarations n) ts) (declarations_step (parse m) (declarations m) ts)).
      unfold declarations_step. ple_step; first [apply I1|apply I3].
    + change (ple (type_params_step (parse n) (type_params n) close ts) (type_params_step (parse m) (type_params m) close ts)).
      unfold type_params_step. cbv zeta. ple_step; first [apply I1|apply I4].
    + change (ple (value_block_step (parse n) ts) (value_block_step (parse m) ts)). unfold value_block_step. cbv zeta. ple_step; apply I1.
    + change (ple (match_cases_step (parse n) (value_block n) (match_cases n) ts) (match_cases_step (parse m) (value_block m) (match_cases m) ts)).
      unfold match_cases_step. ple_step; first [apply I1|apply I5|apply I6].
Qed.

(** ** Combining keeps the tokens *)
Definition pflat (p : partial) : list tok :=
  match p with PExpr e => flat e | PUnary t | PPostfix t | PBinary t => [t] | PImplicit _ => [] end.
Definition pok (p : partial) : Prop :=
  match p with PUnary t => is_postfix (fst t) = false | PPostfix t => is_postfix (fst t) = true | _ => True end.
Notation pflats := (flat_map pflat).

Lemma back_last {A} (l : list A) x : back l = Some x -> l = removelast l ++ [x].
Proof.
  unfold back. intros H. assert (E : l = rev (rev l)) by (symmetry; apply rev_involutive). destruct (rev l) as [|y r]; [discriminate|].
  injection H as ->. simpl in E. rewrite E, removelast_last. reflexivity.
Qed.
Lemma back_app {A} (l : list A) x : back (l ++ [x]) = Some x.
Proof. unfold back. rewrite rev_app_distr. reflexivity. Qed.
Lemma apply_groups_flat ps : forall a e, apply_groups a ps = Ok e -> flat e = flat a ++ pflats ps.
Proof.
  induction ps as [|p ps IH]; intros a e H; simpl in H; [injection H as <-; simpl; rewrite app_nil_r; reflexivity|].
  destruct p; try discriminate. destruct (is_grouping e0); [|discriminate]. rewrite (IH _ _ H). simpl. rewrite app_assoc. reflexivity.
Qed.
Lemma combine_flat n : forall ety ps e, combine n ety ps = Ok e -> Forall pok ps -> flat e = pflats ps.
Proof.
  induction n as [|n IH]; intros ety ps e H F; [discriminate|]. cbn [combine] in H.
  destruct ps as [|p [|q ps]]; [discriminate| |].
  - destruct p; try discriminate. injection H as <-. simpl. rewrite app_nil_r. reflexivity.
  - assert (H' : pbind (find_last_operator (p :: q :: ps)) (fun o => match o with
      | Some index =>
        if Nat.eqb index 0 then match p with PUnary t => pbind (combine n ety (q :: ps)) (fun e => Ok (Unary t e)) | _ => Err end
        else if Nat.eqb index (length (p :: q :: ps) - 1) then
          match back (p :: q :: ps) with Some (PPostfix t) => pbind (combine n ety (removelast (p :: q :: ps))) (fun e => Ok (Unary t e)) | _ => Err end
        else match skipn index (p :: q :: ps) with
          | PBinary t :: others =>
            if (match ety with Value => true | _ => false end) && tt_eqb (fst t) RightArrow then Err
            else pbind (combine n ety (firstn index (p :: q :: ps))) (fun l => pbind (combine n ety others) (fun r => Ok (Binary l t r)))
          | PImplicit _ :: others => pbind (combine n ety (firstn index (p :: q :: ps))) (fun l => pbind (combine n ety others) (fun r => Ok (Concatenation l r)))
          | _ => Err end
      | None => match p with PExpr e => apply_groups e (q :: ps) | _ => Err end end) = Ok e) by (destruct p; exact H).
    clear H. rename H' into H. remember (p :: q :: ps) as l eqn:El. destruct (find_last_operator l) as [o| | |]; try discriminate. cbn [pbind] in H.
    destruct o as [index|].
    + destruct (Nat.eqb index 0).
      * destruct p; try discriminate. destruct (combine n ety (q :: ps)) as [x| | |] eqn:E; try discriminate. injection H as <-. rewrite El in F |- *. inversion F; subst.
        cbn [flat]. cbn in H1. rewrite H1. rewrite (IH _ _ _ E H2). reflexivity.
      * destruct (Nat.eqb index (length l - 1)).
        -- destruct (back l) as [[]|] eqn:Eb; try discriminate. destruct (combine n ety (removelast l)) as [x| | |] eqn:E; try discriminate. injection H as <-.
           apply back_last in Eb. rewrite Eb in F |- *. apply Forall_app in F. destruct F as [F1 F2]. inversion F2; subst. cbn [flat]. cbn in H1. rewrite H1.
           rewrite (IH _ _ _ E F1), flat_map_app. reflexivity.
        -- pose proof (firstn_skipn index l) as S. rewrite <- S in F |- *. apply Forall_app in F. destruct F as [F1 F2].
           rewrite flat_map_app. destruct (skipn index l) as [|[] others]; try discriminate; inversion F2; subst.
           ++ destruct (_ && _); [discriminate|]. destruct (combine n ety (firstn index _)) as [x| | |] eqn:E1; try discriminate. cbn [pbind] in H.
              destruct (combine n ety others) as [y| | |] eqn:E2; try discriminate. injection H as <-. cbn [flat flat_map pflat]. rewrite (IH _ _ _ E1 F1), (IH _ _ _ E2 H3). reflexivity.
           ++ destruct (combine n ety (firstn index _)) as [x| | |] eqn:E1; try discriminate. cbn [pbind] in H.
              destruct (combine n ety others) as [y| | |] eqn:E2; try discriminate. injection H as <-. cbn [flat flat_map pflat]. rewrite (IH _ _ _ E1 F1), (IH _ _ _ E2 H3). reflexivity.
    + destruct p; try discriminate. apply apply_groups_flat in H. rewrite H, El. reflexivity.
Qed.

Lemma find_type_params_lt ps : forall i j, find_type_params ps = Some (i, j) -> i < j < length ps.
Proof.
  induction ps as [|p ps IH]; intros i j H; [discriminate|]. simpl in H.
  assert (Next : option_map (fun '(i, j) => (S i, S j)) (find_type_params ps) = Some (i, j) -> i < j < length (p :: ps)).
  { destruct (find_type_params ps) as [[i' j']|]; [|discriminate]. intros E. injection E as <- <-. specialize (IH _ _ eq_refl). simpl. lia. }
  destruct p; auto. destruct (tt_eqb (fst t) LessThan); auto. destruct (looks_like_type_params ps) as [k|] eqn:E; auto. injection H as <- <-.
  enough (k < length ps) by (simpl; lia). clear -E. revert k E. induction ps as [|p ps IH]; intros k E; [discriminate|]. simpl in E.
  assert (N : option_map S (looks_like_type_params ps) = Some k -> k < length (p :: ps)).
  { destruct (looks_like_type_params ps) as [k'|]; [|discriminate]. intros X. injection X as <-. specialize (IH _ eq_refl). simpl. lia. }
  destruct p; try discriminate; [destruct (could_be_part_of_type e); auto; discriminate|]. destruct (fst t); auto; try discriminate. injection E as <-. simpl. lia.
Qed.
Lemma two_positions {A} (l : list A) i j a b : i < j -> nth_error l i = Some a -> nth_error l j = Some b ->
  l = firstn i l ++ a :: skipn (S i) (firstn j l) ++ b :: skipn (S j) l.
Proof.
  intros Hij Ha Hb.
  assert (E : l = firstn j l ++ b :: skipn (S j) l).
  { clear -Hb. revert j Hb. induction l as [|x l IH]; intros [|j] H; try discriminate; simpl in *; [injection H as ->; reflexivity|]. f_equal. apply IH. exact H. }
  rewrite E at 1. assert (F : firstn j l = firstn i l ++ a :: skipn (S i) (firstn j l)).
  { clear -Hij Ha. revert i j Hij Ha. induction l as [|x l IH]; intros [|i] [|j] H Ha; try discriminate; try lia; simpl in *; [injection Ha as ->; reflexivity|]. f_equal. apply IH; [lia|exact Ha]. }
  rewrite F at 1. rewrite <- app_assoc. reflexivity.
Qed.
Lemma group_flat n : forall ps ps', group_type_parameters n ps = Ok ps' -> Forall pok ps -> pflats ps' = pflats ps /\ Forall pok ps'.
Proof.
  induction n as [|n IH]; intros ps ps' H F; [discriminate|]. cbn [group_type_parameters] in H.
  destruct (find_type_params ps) as [[i j]|] eqn:Ef; [|injection H as <-; auto].
  destruct (nth_error ps j) as [[| | |closing|]|] eqn:Ej; try discriminate. destruct (nth_error ps i) as [[| | |opening|]|] eqn:Ei; try discriminate.
  destruct (find_type_params_lt _ _ _ Ef) as [Hij _]. pose proof (two_positions _ _ _ _ _ Hij Ei Ej) as E.
  cbv zeta in H. destruct (combine_partials Typ _) as [params| | |] eqn:Ec; try discriminate. cbn [pbind] in H.
  rewrite E in F. apply Forall_app in F. destruct F as [F1 F]. inversion F as [|? ? _ F']; subst. apply Forall_app in F'. destruct F' as [F2 F']. inversion F' as [|? ? _ F3]; subst.
  apply (combine_flat _ _ _ _ Ec) in F2 as Fp. clear Ec.
  apply IH in H.
  - destruct H as [H1 H2]. split; [|exact H2]. rewrite H1.
    apply (f_equal pflats) in E. rewrite !flat_map_app in E. cbn [flat_map pflat] in E. rewrite !flat_map_app in E. cbn [flat_map pflat app] in E. rewrite E.
    rewrite !flat_map_app. cbn [flat_map pflat flat]. rewrite ?flat_map_app. cbn [flat_map pflat flat app]. rewrite Fp.
    assert (X : pflats (match skipn (S j) ps with p :: _ => if p_is_grouping p then [PImplicit closing] else [] | [] => [] end) = []).
    { destruct (skipn (S j) ps) as [|p r]; auto. destruct (p_is_grouping p); reflexivity. }
    rewrite X. rewrite <- !app_assoc. reflexivity.
  - apply Forall_app; split; auto. constructor; [exact Logic.I|]. constructor; [exact Logic.I|]. apply Forall_app. split; auto.
    destruct (skipn (S j) ps) as [|p r]; [constructor|]. destruct (p_is_grouping p); repeat constructor.
Qed.
