(** The expression parser ends: fuel proportional to the number of tokens is enough. *)
From Coq Require Import List NArith ZArith Bool Lia.
Import ListNotations.
From Verif Require Import Scanner Expression ExpressionProofs ExpressionTokens.

Lemma pbind_fuel {A B} (x : pres A) (f : A -> pres B) : x <> Fuel -> (forall a, x = Ok a -> f a <> Fuel) -> pbind x f <> Fuel.
Proof. destruct x; cbn; intros H1 H2; try congruence. apply H2. reflexivity. Qed.

(** ** What is left over is shorter *)
Lemma skip_length ts : length (skip_newlines ts) <= length ts.
Proof. induction ts as [|t ts IH]; [simpl; lia|]. cbn [skip_newlines]. destruct (tt_eqb (fst t) NewLine); cbn [length]; lia. Qed.
Lemma expect_length ty ts t r : expect ty ts = Ok (t, r) -> length ts = S (length r).
Proof. intros H. apply expect_ok in H. destruct H as [-> _]. reflexivity. Qed.

Section Lengths.
Context (n : nat).
Definition short := (forall ety tm ts e t rest, parse n ety tm ts = Ok (e, t, rest) -> length rest < length ts) /\
  (forall ety tm acc ts ps t rest, partials n ety tm acc ts = Ok (ps, t, rest) -> length rest < length ts) /\
  (forall ts l rest, declarations n ts = Ok (l, rest) -> length rest < length ts) /\
  (forall close ts l rest, type_params n close ts = Ok (l, rest) -> length rest < length ts) /\
  (forall ts e t rest, value_block n ts = Ok (e, t, rest) -> length rest < length ts) /\
  (forall ts l t rest, match_cases n ts = Ok (l, t, rest) -> length rest < length ts).
End Lengths.

Ltac pbs := repeat match goal with
  | H : pbind ?x _ = Ok _ |- _ => let a := fresh "a" in let E := fresh "E" in
      destruct x as [a| | |] eqn:E; try discriminate H; cbn [pbind] in H; repeat (let b := fresh "b" in destruct a as [a b])
  | H : expect _ _ = Ok _ |- _ => apply expect_length in H
  end.
Lemma tl_length {A} (l : list A) : length (tl l) <= length l.
Proof. destruct l; simpl; lia. Qed.

Lemma shorter n : short n.
Proof.
  induction n as [|n (I1 & I2 & I3 & I4 & I5 & I6)]; [repeat split; intros; discriminate|].
  split; [|split; [|split; [|split; [|split]]]].
  - intros ety tm ts e t rest H. rewrite parse_S in H. unfold parse_step in H. pb H. destruct a as [[ps t0] r]. pb H. destruct (_ && _); [|discriminate]. pb H.
    injection H as _ _ <-. exact (I2 _ _ _ _ _ _ _ E).
  - intros ety tm acc ts ps t rest H. rewrite partials_S in H. unfold partials_step in H. destruct ts as [|t0 ts]; [discriminate|]. cbv zeta in H. cbn [length].
    assert (G : forall ety' tm' l, (let* (e, rt, r) := parse n ety' tm' ts in partials n ety tm (l e rt) r) = Ok (ps, t, rest) -> length rest < S (length ts)).
    { intros ety' tm' l X. pb X. destruct a as [[e rt] r]. apply I1 in E. apply I2 in X. lia. }
    destruct (matches tm (fst t0)); [injection H as _ _ <-; lia|].
    destruct (tt_eqb (fst t0) LeftBracket); [exact (G _ _ (fun e rt => acc ++ [PImplicit t0; PExpr (Grouping t0 e rt)]) H)|].
    destruct (tt_eqb (fst t0) LessThan && negb (in_value ety)); [exact (G _ _ (fun e rt => acc ++ [PImplicit t0; PExpr (Grouping t0 e rt)]) H)|].
    destruct (is_binary (fst t0)).
    { destruct (negb _); [discriminate|]. destruct (_ && _); [apply I2 in H; lia|]. pose proof (skip_length ts). destruct (continues _); apply I2 in H; lia. }
    destruct (is_unary (fst t0)); [apply I2 in H; lia|]. destruct (is_postfix (fst t0)); [apply I2 in H; lia|].
    assert (B : (let* (params, ts) := params_part n (fst t0) ts in
        let* (args, ts) := args_part n params ts in
        let* (_, ts) := expect LeftBrace ts in
        let* (e, rb, ts) := value_block n ts in
        partials n ety tm (acc ++ [PExpr (match params with [] => Binder t0 args e rb | _ => GenericBinder t0 params args e rb end)]) ts) = Ok (ps, t, rest) -> length rest < S (length ts)).
    { intros X. pb X. destruct a as [params ts1]. pb X. destruct a as [args ts2]. pb X. destruct a as [lb ts3]. pb X. destruct a as [[e rb] ts4].
      apply expect_length in E1. apply I5 in E2. apply I2 in X.
      assert (L1 : length ts1 <= length ts).
      { unfold params_part in E. destruct (tt_eqb (fst t0) Function_); [|injection E as _ <-; lia]. destruct ts as [|d r]; [injection E as _ <-; lia|].
        destruct (tt_eqb (fst d) LeftBracket); [apply I4 in E; simpl; lia|]. destruct (tt_eqb (fst d) LessThan); [apply I4 in E; simpl; lia|injection E as _ <-; lia]. }
      assert (L2 : length ts2 <= length ts1).
      { unfold args_part in E0. destruct (_ && _); [injection E0 as _ <-; lia|]. pb E0. destruct a as [lp r]. apply expect_length in E3. cbv zeta in E0.
        pose proof (skip_length r). destruct (peeks RightParen _); [injection E0 as _ <-; pose proof (tl_length (skip_newlines r)); lia|apply I3 in E0; lia]. }
      lia. }
    destruct (fst t0) eqn:Et; try discriminate H; try (apply I2 in H; lia).
    all: try (destruct (in_type ety); [discriminate H|]; first [apply I2 in H; lia | apply B; exact H]).
    + cbv zeta in H. destruct (if in_value ety then _ else None) as [[[op rp] r]|] eqn:Eo.
      * destruct (in_value ety); [|discriminate]. destruct ts as [|op' [|rp' ts1]]; try discriminate. destruct (_ && _); [|discriminate]. injection Eo as -> -> ->.
        apply I2 in H. simpl. lia.
      * exact (G _ _ (fun e rt => acc ++ (if ends_with_expr acc then [PImplicit t0] else []) ++ [PExpr (Grouping t0 e rt)]) H).
    + destruct (in_type ety); [discriminate|]. pb H. destruct a as [[c lb] ts1]. pb H. destruct a as [[a rb] ts2]. apply I1 in E. apply I5 in E0.
      destruct (peeks Else_ ts2); [|apply I2 in H; lia]. pb H. destruct a0 as [lb' ts3]. pb H. destruct a0 as [[b rb'] ts4]. apply expect_length in E1. apply I5 in E2. apply I2 in H.
      pose proof (tl_length ts2). lia.
    + destruct (ends_with_dot acc); [apply I2 in H; lia|]. destruct (in_type ety); [discriminate|]. pb H. destruct a as [[c lb] ts1]. pb H. destruct a as [[cases rb] ts2].
      apply I1 in E. apply I6 in E0. destruct cases; [discriminate|]. apply I2 in H. lia.
  - intros ts l rest H. rewrite declarations_S in H. unfold declarations_step in H. destruct ts as [|name ts]; [discriminate|]. cbn [length]. destruct (negb _); [discriminate|].
    pb H. destruct a as [[d last] ts1].
    assert (L : length ts1 < length ts).
    { destruct (str_eqb _ _).
      - destruct ts as [|x ts]; [discriminate|]. destruct (matches _ _); [|discriminate]. injection E as _ _ <-. simpl. lia.
      - pb E. destruct a as [c ts2]. pb E. destruct a as [[e la] ts3]. apply expect_length in E0. apply I1 in E1. injection E as _ _ <-. lia. }
    destruct (tt_eqb (fst last) RightParen); [injection H as _ <-; lia|]. pb H. destruct a as [ds ts2]. apply I3 in E0. injection H as _ <-. pose proof (skip_length ts1). lia.
  - intros close ts l rest H. rewrite type_params_S in H. unfold type_params_step in H. pb H. destruct a as [name ts1]. apply expect_length in E. pb H. destruct a as [ty ts2].
    assert (L : length ts2 <= length ts1).
    { destruct (peeks LeftBracket ts1); [|injection E0 as _ <-; lia]. destruct ts1 as [|lb ts1]; [discriminate|]. pb E0. destruct a as [[e rb] ts3]. apply I1 in E1. injection E0 as _ <-. simpl; lia. }
    destruct ts2 as [|x ts2]; [discriminate|]. cbn [length] in L. pb H. destruct a as [[class last] ts3].
    assert (L2 : length ts3 <= length ts2).
    { destruct (tt_eqb (fst x) Colon); [|injection E1 as _ _ <-; lia]. pb E1. destruct a as [[e la] ts4]. apply I1 in E2. injection E1 as _ _ <-. lia. }
    destruct (tt_eqb (fst last) close); [injection H as _ <-; lia|]. destruct (tt_eqb (fst last) Comma); [|discriminate]. pb H. destruct a as [l' ts4]. apply I4 in E2. injection H as _ <-. lia.
  - intros ts e t rest H. rewrite value_block_S in H. unfold value_block_step in H. cbv zeta in H. destruct (peeks Let _); [discriminate|]. apply I1 in H. pose proof (skip_length ts). lia.
  - intros ts l t rest H. rewrite match_cases_S in H. unfold match_cases_step in H. pose proof (skip_length ts) as L. destruct (skip_newlines ts) as [|x r]; [discriminate|]. cbn [length] in L.
    destruct (tt_eqb (fst x) RightBrace); [injection H as _ _ <-; lia|]. pb H. destruct a as [[p lb] ts1]. pb H. destruct a as [[e rb] ts2]. pb H. destruct a as [[l' rb'] ts3].
    apply I1 in E. apply I5 in E0. apply I6 in E1. injection H as _ _ <-. cbn [length] in E. lia.
Qed.

(** ** Combining ends *)
Lemma apply_groups_fuel ps : forall a, apply_groups a ps <> Fuel.
Proof. induction ps as [|p ps IH]; intros a; [discriminate|]. simpl. destruct p; try discriminate. destruct (is_grouping e); [apply IH|discriminate]. Qed.
Lemma find_last_fuel ps : find_last_operator ps <> Fuel.
Proof. unfold find_last_operator. destruct (best_key _ _ _) as [[p i]|]; [destruct (Z.eqb p 0); discriminate|discriminate]. Qed.
Lemma removelast_length {A} (l : list A) : forall x, length (removelast (x :: l)) = length l.
Proof. induction l as [|y l IH]; intros x; [reflexivity|]. change (length (x :: removelast (y :: l)) = S (length l)). cbn [length]. rewrite IH. reflexivity. Qed.
Lemma combine_fuel n : forall ety ps, length ps < n -> combine n ety ps <> Fuel.
Proof.
  induction n as [|n IH]; intros ety ps L; [lia|]. cbn [combine]. destruct ps as [|p [|p' ps]]; [discriminate|destruct p; discriminate|].
  assert (X : (let* o := find_last_operator (p :: p' :: ps) in
    match o with
      | Some index =>
        if Nat.eqb index 0 then
          match p with
          | PUnary t => let* e := combine n ety (p' :: ps) in Ok (Unary t e)
          | _ => Err
          end
        else if Nat.eqb index (length (p :: p' :: ps) - 1) then
          match back (p :: p' :: ps) with
          | Some (PPostfix t) => let* e := combine n ety (removelast (p :: p' :: ps)) in Ok (Unary t e)
          | _ => Err
          end
        else
          match skipn index (p :: p' :: ps) with
          | PBinary t :: others =>
            if (match ety with Value => true | _ => false end) && tt_eqb (fst t) RightArrow then Err
            else
              let* l := combine n ety (firstn index (p :: p' :: ps)) in
              let* r := combine n ety others in
              Ok (Binary l t r)
          | PImplicit _ :: others =>
            let* l := combine n ety (firstn index (p :: p' :: ps)) in
            let* r := combine n ety others in
            Ok (Concatenation l r)
          | _ => Err
          end
      | None =>
        match p with
        | PExpr e => apply_groups e (p' :: ps)
        | _ => Err
        end
      end) <> Fuel).
  { set (l := p :: p' :: ps) in *. apply pbind_fuel; [apply find_last_fuel|]. intros o _. destruct o as [i|]; [|destruct p; try discriminate; apply apply_groups_fuel].
    destruct (Nat.eqb i 0) eqn:Ei.
    { destruct p; try discriminate. apply pbind_fuel; [apply IH; unfold l in L; simpl in *; lia|discriminate]. }
    destruct (Nat.eqb i (length l - 1)).
    { destruct (back l) as [[| |t| |]|]; try discriminate. apply pbind_fuel; [|discriminate]. apply IH.
      unfold l in *. rewrite removelast_length. simpl in L |- *. lia. }
    assert (S1 : forall q r, skipn i l = q :: r -> length r < n /\ length (firstn i l) < n).
    { intros q r E. assert (E' := f_equal (@length _) E). rewrite skipn_length in E'. cbn [length] in E'. rewrite firstn_length. lia. }
    destruct (skipn i l) as [|q r] eqn:Es; [discriminate|]. destruct (S1 q r eq_refl) as [L1 L2].
    destruct q; try discriminate.
    - destruct (_ && _); [discriminate|]. apply pbind_fuel; [apply IH; exact L2|]. intros a _. apply pbind_fuel; [apply IH; exact L1|discriminate].
    - apply pbind_fuel; [apply IH; exact L2|]. intros a _. apply pbind_fuel; [apply IH; exact L1|discriminate]. }
  destruct p; exact X.
Qed.
Lemma combine_partials_fuel ety ps : combine_partials ety ps <> Fuel.
Proof. apply combine_fuel. lia. Qed.

(** the number of [<] *)
Definition angles (ps : list partial) : nat := length (filter (fun p => match p with PBinary t => tt_eqb (fst t) LessThan | _ => false end) ps).
Lemma angles_app a b : angles (a ++ b) = angles a + angles b.
Proof. unfold angles. rewrite filter_app, app_length. reflexivity. Qed.
Lemma angles_skipn ps : forall a b, a <= b -> angles (skipn b ps) <= angles (skipn a ps).
Proof.
  induction ps as [|p ps IH]; intros a b L; [rewrite !skipn_nil; lia|]. destruct a as [|a]; [|destruct b as [|b]; [lia|]; cbn [skipn]; apply IH; lia].
  cbn [skipn]. rewrite <- (firstn_skipn b (p :: ps)) at 2. rewrite angles_app. lia.
Qed.
Lemma angles_length ps : angles ps <= length ps.
Proof. unfold angles. induction ps as [|p ps IH]; [simpl; lia|]. simpl. destruct p; simpl; try lia. destruct (tt_eqb (fst t) LessThan); simpl; lia. Qed.
Lemma find_opening ps : forall i j, find_type_params ps = Some (i, j) -> exists t, nth_error ps i = Some (PBinary t) /\ fst t = LessThan.
Proof.
  induction ps as [|p ps IH]; intros i j H; [discriminate|]. cbn [find_type_params] in H.
  assert (N : option_map (fun '(i, j) => (S i, S j)) (find_type_params ps) = Some (i, j) -> exists t, nth_error (p :: ps) i = Some (PBinary t) /\ fst t = LessThan).
  { intros X. destruct (find_type_params ps) as [[a b]|]; [|discriminate]. injection X as <- <-. cbn [nth_error]. eapply IH. reflexivity. }
  destruct p; auto. destruct (tt_eqb (fst t) LessThan) eqn:Et; auto. destruct (looks_like_type_params ps); auto. injection H as <- _. exists t. split; [reflexivity|].
  apply tt_eqb_eq. exact Et.
Qed.
Lemma group_fuel n : forall ps, angles ps < n -> group_type_parameters n ps <> Fuel.
Proof.
  induction n as [|n IH]; intros ps L; [lia|]. cbn [group_type_parameters]. destruct (find_type_params ps) as [[i j]|] eqn:Ef; [|discriminate].
  destruct (nth_error ps j) as [[| | |closing|]|]; try discriminate. destruct (find_opening _ _ _ Ef) as (t & Et & Ht). rewrite Et. cbv zeta.
  apply pbind_fuel; [apply combine_partials_fuel|]. intros params _. apply IH. pose proof (find_type_params_lt _ _ _ Ef) as Lij.
  assert (A : angles ps = angles (firstn i ps) + S (angles (skipn (S i) ps))).
  { rewrite <- (firstn_skipn i ps) at 1. rewrite angles_app. f_equal. apply nth_error_split in Et. destruct Et as (l1 & l2 & -> & <-).
    change (S (length l1)) with (1 + length l1). rewrite skipn_app, Nat.sub_diag, skipn_all. cbn [app skipn]. 
    assert (X : skipn (1 + length l1) (l1 ++ PBinary t :: l2) = l2).
    { rewrite skipn_app. rewrite skipn_all2 by lia. replace (1 + length l1 - length l1) with 1 by lia. reflexivity. }
    rewrite X. unfold angles. simpl. rewrite Ht. reflexivity. }
  assert (B : angles (skipn (S j) ps) <= angles (skipn (S i) ps)).
  { apply angles_skipn. lia. }
  rewrite !angles_app.
  assert (C : angles (match skipn (S j) ps with p :: _ => if p_is_grouping p then [PImplicit closing] else [] | [] => [] end) = 0).
  { destruct (skipn (S j) ps) as [|p r]; [reflexivity|]. destruct (p_is_grouping p); reflexivity. }
  rewrite C. change (angles [PImplicit t; PExpr (Grouping t params closing)]) with 0. lia.
Qed.

(** ** Parsing ends *)
Definition ended (n : nat) : Prop :=
  (forall ety tm ts, 4 * length ts + 2 <= n -> parse n ety tm ts <> Fuel) /\
  (forall ety tm acc ts, 4 * length ts + 1 <= n -> partials n ety tm acc ts <> Fuel) /\
  (forall ts, 4 * length ts + 1 <= n -> declarations n ts <> Fuel) /\
  (forall close ts, 4 * length ts + 1 <= n -> type_params n close ts <> Fuel) /\
  (forall ts, 4 * length ts + 3 <= n -> value_block n ts <> Fuel) /\
  (forall ts, 4 * length ts + 3 <= n -> match_cases n ts <> Fuel).
Lemma expect_fuel ty ts : expect ty ts <> Fuel.
Proof. destruct ts as [|t r]; [discriminate|]. simpl. destruct (tt_eqb _ _); discriminate. Qed.
Lemma enough n : ended n.
Proof.
  induction n as [|n (I1 & I2 & I3 & I4 & I5 & I6)]; [repeat split; intros; lia|].
  destruct (shorter n) as (S1 & S2 & S3 & S4 & S5 & S6).
  split; [|split; [|split; [|split; [|split]]]].
  - intros ety tm ts L. rewrite parse_S. unfold parse_step. apply pbind_fuel; [apply I2; lia|]. intros [[ps t] rest] _.
    apply pbind_fuel; [apply group_fuel; pose proof (angles_length ps); lia|]. intros ps' _. destruct (_ && _); [|discriminate].
    apply pbind_fuel; [apply combine_partials_fuel|discriminate].
  - intros ety tm acc ts L. rewrite partials_S. unfold partials_step. destruct ts as [|t0 ts]; [discriminate|]. cbv zeta. cbn [length] in L.
    assert (G : forall ety' tm' l, (let* (e, rt, r) := parse n ety' tm' ts in partials n ety tm (l e rt) r) <> Fuel).
    { intros ety' tm' l. apply pbind_fuel; [apply I1; lia|]. intros [[e rt] r] E. apply S1 in E. apply I2. lia. }
    destruct (matches tm (fst t0)); [discriminate|].
    destruct (tt_eqb (fst t0) LeftBracket); [exact (G _ _ (fun e rt => acc ++ [PImplicit t0; PExpr (Grouping t0 e rt)]))|].
    destruct (tt_eqb (fst t0) LessThan && negb (in_value ety)); [exact (G _ _ (fun e rt => acc ++ [PImplicit t0; PExpr (Grouping t0 e rt)]))|].
    destruct (is_binary (fst t0)).
    { destruct (negb _); [discriminate|]. destruct (_ && _); [apply I2; lia|]. pose proof (skip_length ts). destruct (continues _); apply I2; lia. }
    destruct (is_unary (fst t0)); [apply I2; lia|]. destruct (is_postfix (fst t0)); [apply I2; lia|].
    assert (B : (let* (params, ts) := params_part n (fst t0) ts in
        let* (args, ts) := args_part n params ts in
        let* (_, ts) := expect LeftBrace ts in
        let* (e, rb, ts) := value_block n ts in
        partials n ety tm (acc ++ [PExpr (match params with [] => Binder t0 args e rb | _ => GenericBinder t0 params args e rb end)]) ts) <> Fuel).
    { apply pbind_fuel.
      { unfold params_part. destruct (tt_eqb (fst t0) Function_); [|discriminate]. destruct ts as [|d r]; [discriminate|]. cbn [length] in L.
        destruct (tt_eqb (fst d) LeftBracket); [apply I4; lia|]. destruct (tt_eqb (fst d) LessThan); [apply I4; lia|discriminate]. }
      intros [params ts1] E.
      assert (L1 : length ts1 <= length ts).
      { unfold params_part in E. destruct (tt_eqb (fst t0) Function_); [|injection E as _ <-; lia]. destruct ts as [|d r]; [injection E as _ <-; lia|].
        destruct (tt_eqb (fst d) LeftBracket); [apply S4 in E; simpl; lia|]. destruct (tt_eqb (fst d) LessThan); [apply S4 in E; simpl; lia|injection E as _ <-; lia]. }
      apply pbind_fuel.
      { unfold args_part. destruct (_ && _); [discriminate|]. apply pbind_fuel; [apply expect_fuel|]. intros [lp r] E0. apply expect_length in E0. cbv zeta.
        pose proof (skip_length r). destruct (peeks RightParen _); [discriminate|apply I3; lia]. }
      intros [args ts2] E0.
      assert (L2 : length ts2 <= length ts1).
      { unfold args_part in E0. destruct (_ && _); [injection E0 as _ <-; lia|]. pb E0. destruct a as [lp r]. apply expect_length in E1. cbv zeta in E0.
        pose proof (skip_length r). destruct (peeks RightParen _); [injection E0 as _ <-; pose proof (tl_length (skip_newlines r)); lia|apply S3 in E0; lia]. }
      apply pbind_fuel; [apply expect_fuel|]. intros [lb ts3] E1. apply expect_length in E1.
      apply pbind_fuel; [apply I5; lia|]. intros [[e rb] ts4] E2. apply S5 in E2. apply I2. lia. }
    destruct (fst t0) eqn:Et; try discriminate; try (apply I2; lia).
    all: try (destruct (in_type ety); [discriminate|]; first [apply I2; lia | exact B]).
    + cbv zeta. destruct (if in_value ety then _ else None) as [[[op rp] r]|] eqn:Eo.
      * destruct (in_value ety); [|discriminate]. destruct ts as [|op' [|rp' ts1]]; try discriminate. destruct (_ && _); [|discriminate]. injection Eo as -> -> ->.
        apply I2. cbn [length] in L. lia.
      * exact (G _ _ (fun e rt => acc ++ (if ends_with_expr acc then [PImplicit t0] else []) ++ [PExpr (Grouping t0 e rt)])).
    + destruct (in_type ety); [discriminate|]. apply pbind_fuel; [apply I1; lia|]. intros [[c lb] ts1] E. apply S1 in E. apply pbind_fuel; [apply I5; lia|].
      intros [[a rb] ts2] E0. apply S5 in E0. destruct (peeks Else_ ts2); [|apply I2; lia]. pose proof (tl_length ts2).
      apply pbind_fuel; [apply expect_fuel|]. intros [lb' ts3] E1. apply expect_length in E1. apply pbind_fuel; [apply I5; lia|].
      intros [[b rb'] ts4] E2. apply S5 in E2. apply I2. lia.
    + destruct (ends_with_dot acc); [apply I2; lia|]. destruct (in_type ety); [discriminate|]. apply pbind_fuel; [apply I1; lia|]. intros [[c lb] ts1] E. apply S1 in E.
      apply pbind_fuel; [apply I6; lia|]. intros [[cases rb] ts2] E0. apply S6 in E0. destruct cases; [discriminate|]. apply I2. lia.
  - intros ts L. rewrite declarations_S. unfold declarations_step. destruct ts as [|name ts]; [discriminate|]. cbn [length] in L. destruct (negb _); [discriminate|].
    apply pbind_fuel.
    { destruct (str_eqb _ _).
      - destruct ts as [|x ts]; [discriminate|]. destruct (matches _ _); discriminate.
      - apply pbind_fuel; [apply expect_fuel|]. intros [c ts2] E. apply expect_length in E. apply pbind_fuel; [apply I1; lia|]. intros [[e la] ts3] _. discriminate. }
    intros [[d last] ts1] E.
    assert (L1 : length ts1 < length ts).
    { destruct (str_eqb _ _).
      - destruct ts as [|x ts]; [discriminate|]. destruct (matches _ _); [|discriminate]. injection E as _ _ <-. simpl. lia.
      - pb E. destruct a as [c ts2]. pb E. destruct a as [[e la] ts3]. apply expect_length in E0. apply S1 in E1. injection E as _ _ <-. lia. }
    destruct (tt_eqb (fst last) RightParen); [discriminate|]. pose proof (skip_length ts1). apply pbind_fuel; [apply I3; lia|]. intros [ds ts2] _. discriminate.
  - intros close ts L. rewrite type_params_S. unfold type_params_step. apply pbind_fuel; [apply expect_fuel|]. intros [name ts1] E. apply expect_length in E.
    apply pbind_fuel.
    { destruct (peeks LeftBracket ts1); [|discriminate]. destruct ts1 as [|lb ts1]; [discriminate|]. cbn [length] in E. apply pbind_fuel; [apply I1; lia|]. intros [[e rb] ts3] _. discriminate. }
    intros [ty ts2] E0.
    assert (L1 : length ts2 <= length ts1).
    { destruct (peeks LeftBracket ts1); [|injection E0 as _ <-; lia]. destruct ts1 as [|lb ts1]; [discriminate|]. pb E0. destruct a as [[e rb] ts3]. apply S1 in E1. injection E0 as _ <-. simpl; lia. }
    destruct ts2 as [|x ts2]; [discriminate|]. cbn [length] in L1. apply pbind_fuel.
    { destruct (tt_eqb (fst x) Colon); [|discriminate]. apply pbind_fuel; [apply I1; lia|]. intros [[e la] ts4] _. discriminate. }
    intros [[class last] ts3] E1.
    assert (L2 : length ts3 <= length ts2).
    { destruct (tt_eqb (fst x) Colon); [|injection E1 as _ _ <-; lia]. pb E1. destruct a as [[e la] ts4]. apply S1 in E2. injection E1 as _ _ <-. lia. }
    destruct (tt_eqb (fst last) close); [discriminate|]. destruct (tt_eqb (fst last) Comma); [|discriminate]. apply pbind_fuel; [apply I4; lia|]. intros [l' ts4] _. discriminate.
  - intros ts L. rewrite value_block_S. unfold value_block_step. cbv zeta. destruct (peeks Let _); [discriminate|]. apply I1. pose proof (skip_length ts). lia.
  - intros ts L. rewrite match_cases_S. unfold match_cases_step. pose proof (skip_length ts) as L1. destruct (skip_newlines ts) as [|x r]; [discriminate|]. cbn [length] in L1.
    destruct (tt_eqb (fst x) RightBrace); [discriminate|]. apply pbind_fuel; [apply I1; cbn [length]; lia|]. intros [[p lb] ts1] E. apply S1 in E. cbn [length] in E.
    apply pbind_fuel; [apply I5; lia|]. intros [[e rb] ts2] E0. apply S5 in E0. apply pbind_fuel; [apply I6; lia|]. intros [[l' rb'] ts3] _. discriminate.
Qed.
