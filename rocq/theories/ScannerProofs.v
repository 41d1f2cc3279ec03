(** Lemmas about the scanner: byte positions, the words of a line, and the lexicon. *)
From Coq Require Import List NArith Bool String Lia.
Import ListNotations.
From Verif Require Import Scanner.
Local Open Scope N_scope.

Lemma utf8_pos c : 1 <= utf8 c.
Proof. unfold utf8. repeat (destruct (_ <? _); [lia|]). lia. Qed.
Lemma bytes_app a b : bytes (a ++ b) = bytes a + bytes b.
Proof. induction a; simpl; lia. Qed.
Lemma bytes_zero a : bytes a = 0 -> a = [].
Proof. destruct a as [|c a]; auto. simpl. pose proof (utf8_pos c). lia. Qed.

Lemma drop_app a b : drop_bytes (bytes a) (a ++ b) = Some b.
Proof.
  induction a as [|c a IH]; simpl.
  - destruct b; reflexivity.
  - pose proof (utf8_pos c). replace (utf8 c + bytes a =? 0) with false by (symmetry; apply N.eqb_neq; lia).
    replace (utf8 c + bytes a <? utf8 c) with false by (symmetry; apply N.ltb_ge; lia).
    replace (utf8 c + bytes a - utf8 c) with (bytes a) by lia. exact IH.
Qed.
Lemma take_app a b : take_bytes (bytes a) (a ++ b) = Some a.
Proof.
  induction a as [|c a IH]; simpl.
  - destruct b; reflexivity.
  - pose proof (utf8_pos c). replace (utf8 c + bytes a =? 0) with false by (symmetry; apply N.eqb_neq; lia).
    replace (utf8 c + bytes a <? utf8 c) with false by (symmetry; apply N.ltb_ge; lia).
    replace (utf8 c + bytes a - utf8 c) with (bytes a) by lia. rewrite IH. reflexivity.
Qed.
Lemma slice_app a b d : slice (a ++ b ++ d) (bytes a) (bytes a + bytes b) = Some b.
Proof.
  unfold slice. replace (bytes a + bytes b <? bytes a) with false by (symmetry; apply N.ltb_ge; lia).
  rewrite drop_app. replace (bytes a + bytes b - bytes a) with (bytes b) by lia. apply take_app.
Qed.

Lemma str_eqb_eq a b : str_eqb a b = true <-> a = b.
Proof.
  revert b. induction a as [|x a IH]; intros [|y b]; simpl; split; intros H; try discriminate; auto.
  - apply andb_true_iff in H. destruct H as [H1 H2]. apply N.eqb_eq in H1. apply IH in H2. subst. auto.
  - inversion H; subst. rewrite N.eqb_refl. apply IH. auto.
Qed.

(** ** lines *)
Lemma split_spells s : flat_map (fun p : str * bool => fst p ++ (if snd p then [10] else [])) (split_lines s) = s.
Proof.
  induction s as [|c r IH]; simpl; auto. destruct (N.eqb_spec c 10) as [->|Nc]; simpl; [rewrite IH; auto|].
  destruct (split_lines r) as [|[l e] ls]; simpl in *; subst; auto.
Qed.
Lemma split_no_newline s l e : In (l, e) (split_lines s) -> ~ In 10 l.
Proof.
  revert l e. induction s as [|c r IH]; simpl; intros l e I; [contradiction|]. destruct (N.eqb_spec c 10) as [->|Nc].
  - destruct I as [E|I]; [inversion E; auto|eauto].
  - destruct (split_lines r) as [|[l0 e0] ls].
    + destruct I as [E|[]]. inversion E. intros [?|[]]; congruence.
    + destruct I as [E|I]; [inversion E; subst|eapply IH; right; eauto]. intros [?|J]; [congruence|]. eapply IH; [left|]; eauto.
Qed.
(** Only the last piece can lack its newline, and then it is not empty. *)
Lemma split_last s a l b : split_lines s = a ++ (l, false) :: b -> b = [] /\ l <> [].
Proof.
  revert a l b. induction s as [|c r IH]; simpl; intros a l b E; [destruct a; discriminate|].
  destruct (N.eqb_spec c 10) as [->|Nc].
  - destruct a as [|x a]; inversion E; subst. eauto.
  - destruct (split_lines r) as [|[l0 e0] ls].
    + destruct a as [|x a]; inversion E; subst; [split; auto; discriminate|destruct a; discriminate].
    + destruct a as [|x a]; inversion E; subst.
      * destruct (IH [] l0 b eq_refl). split; auto. discriminate.
      * apply (IH ((l0, e0) :: a) l b). simpl. reflexivity.
Qed.
Lemma strip_spec s : strip_return s = s /\ (forall a, s <> a ++ [13]) \/ s = strip_return s ++ [13].
Proof.
  induction s as [|c r IH]; [left; split; auto; intros [|]; discriminate|]. simpl. destruct r as [|d r].
  - destruct (N.eqb_spec c 13) as [->|N]; [right; auto|left; split; auto].
    intros [|x [|y a]] E; inversion E; congruence.
  - destruct IH as [[E N]|E].
    + left. rewrite E. split; auto. intros [|x a] C; [inversion C|]. inversion C. eapply N; eauto.
    + right. change (c :: d :: r = c :: (strip_return (d :: r) ++ [13])). f_equal. exact E.
Qed.

(** ** one line *)
Fixpoint take_while (f : N -> bool) (s : str) : str := match s with c :: r => if f c then c :: take_while f r else [] | [] => [] end.
Fixpoint drop_while (f : N -> bool) (s : str) : str := match s with c :: r => if f c then drop_while f r else s | [] => [] end.
Lemma take_drop f s : s = take_while f s ++ drop_while f s.
Proof. induction s as [|c r IH]; simpl; auto. destruct (f c); simpl; [f_equal|]; auto. Qed.
Lemma take_while_all f s : forallb f (take_while f s) = true.
Proof. induction s as [|c r IH]; simpl; auto. destruct (f c) eqn:E; simpl; auto. rewrite E. auto. Qed.
Lemma drop_while_head f s c r : drop_while f s = c :: r -> f c = false.
Proof. induction s as [|d s IH]; simpl; [discriminate|]. destruct (f d) eqn:E; auto. intros H. inversion H. subst. auto. Qed.

Lemma skip_while_indices f s : forall p, skip_while f (char_indices p s) = char_indices (p + bytes (take_while f s)) (drop_while f s).
Proof.
  induction s as [|c r IH]; intros p; simpl; auto. destruct (f c); simpl; [rewrite IH; f_equal; lia|]. rewrite N.add_0_r. reflexivity.
Qed.
Lemma skip_line_indices s : ~ In 10 s -> forall p, skip_line (char_indices p s) = [].
Proof.
  induction s as [|c r IH]; intros N p; simpl; auto. destruct (N.eqb_spec c 10) as [->|]; [exfalso; apply N; left; auto|].
  apply IH. intros I. apply N. right. auto.
Qed.
Lemma position_indices line p s : p + bytes s = bytes line -> position_of line (char_indices p s) = p.
Proof. destruct s; simpl; intros; [lia|auto]. Qed.
Lemma next_indices p d s : next_if_eq (p, d) (char_indices p s) =
  match s with c :: r => if c =? d then Some (char_indices (p + utf8 c) r) else None | [] => None end.
Proof. destruct s as [|c r]; simpl; auto. rewrite N.eqb_refl. reflexivity. Qed.
Lemma indices_length p s : List.length (char_indices p s) = List.length s.
Proof. revert p. induction s; simpl; auto. Qed.

(** ** the lexicon, written down without the scanner *)
Definition blank (c : N) : Prop := c = 32 \/ c = 9.
Definition symbols : list (str * token_type) :=
  [ (chars "(", LeftParen); (chars ")", RightParen); (chars "{", LeftBrace); (chars "}", RightBrace); (chars "[", LeftBracket);
    (chars "]", RightBracket); (chars ",", Comma); (chars ":", Colon); (chars ".", Dot); (chars "!=", NotEquals); (chars "=", Equals);
    (chars "+", Plus); (chars "*", Asterisk); (chars "%", Percent); ([8746], Union); ([8745], Intersection); ([8726], Backslash);
    ([8712], ElemOf); ([8713], NotElemOf); ([8715], Contains); ([8716], NotContains); ([8838], SubsetEq); ([8839], SupersetEq);
    ([8834], Subset); ([8835], Superset); (chars "?", QuestionMark); (chars "->", RightArrow); (chars "-", Minus);
    (chars "<=", LessThanOrEquals); (chars "<", LessThan); (chars ">=", GreaterThanOrEquals); (chars ">", GreaterThan);
    (chars "/", Slash) ]%string.
(** The characters that are not part of words. *)
Definition specials : str :=
  [32; 9; 40; 41; 123; 125; 91; 93; 10; 44; 58; 46; 33; 61; 43; 42; 37; 8746; 8745; 8726; 8712; 8713; 8715; 8716; 8838; 8839;
   8834; 8835; 63; 45; 60; 62; 47].
Definition digit (c : N) : Prop := 48 <= c <= 57.

Section Lexicon.
Context (alnum : N -> bool).
Definition word_char (c : N) : Prop := alnum c = true \/ c = 95.
(** [lexeme first s t]: [s] is a token of type [t]; [first] says that nothing but blanks precedes it on its line. *)
Inductive lexeme (first : bool) : str -> token_type -> Prop :=
| lex_symbol s t : In (s, t) symbols -> lexeme first s t
| lex_numeral s : s <> [] -> Forall digit s -> lexeme first s Numeral
| lex_keyword c s t : ~ digit c -> Forall word_char (c :: s) -> In (c :: s, t) keywords -> lexeme first (c :: s) t
| lex_word c s : ~ digit c -> Forall word_char (c :: s) -> (forall t, ~ In (c :: s, t) keywords) -> lexeme first (c :: s) Identifier
| lex_doc s : first = true -> lexeme first (47 :: 47 :: 47 :: s) DocComment
| lex_comment s : first = false \/ (forall r, s <> 47 :: r) -> lexeme first (47 :: 47 :: s) NewLine.
(** The longest token at the start of a string, or an invalid character if there is none. *)
Definition longest (first : bool) (s : str) (t : token_type) (rest : str) : Prop :=
  (lexeme first s t /\ forall more rest' t', rest = more ++ rest' -> more <> [] -> ~ lexeme first (s ++ more) t') \/
  (t = Invalid /\ exists c, s = [c] /\ forall s' rest' t', c :: rest = s' ++ rest' -> ~ lexeme first s' t').

Definition plain_specials : Prop := forall c, In c specials -> alnum c = false.
Context (Hp : plain_specials).

Lemma keyword_in s t : keyword s = Some t -> In (s, t) keywords.
Proof.
  unfold keyword. destruct (find _ keywords) as [[k u]|] eqn:F; [|discriminate]. intros E; inversion E; subst.
  apply find_some in F. destruct F as [I E']. apply str_eqb_eq in E'. simpl in E'. subst. auto.
Qed.
Lemma keyword_none s t : keyword s = None -> ~ In (s, t) keywords.
Proof.
  unfold keyword. destruct (find _ keywords) as [|] eqn:F; [discriminate|]. intros _ I.
  pose proof (find_none _ _ F _ I) as C. simpl in C. assert (str_eqb s s = true) by (apply str_eqb_eq; auto). congruence.
Qed.

Lemma digit_iff c : is_digit c = true <-> digit c.
Proof. unfold is_digit, digit. rewrite andb_true_iff, !N.leb_le. tauto. Qed.
Lemma word_iff c : identifierish alnum c = true <-> word_char c.
Proof. unfold identifierish, word_char. rewrite orb_true_iff, N.eqb_eq. tauto. Qed.

(** What a token starting with [c] looks like. *)
Lemma lexeme_cases first c s t : lexeme first (c :: s) t ->
  In (c :: s, t) symbols \/ (digit c /\ Forall digit s) \/ (~ digit c /\ Forall word_char (c :: s)) \/ (c = 47 /\ exists r, s = 47 :: r).
Proof.
  intros H. inversion H; subst; auto.
  - match goal with H : Forall digit _ |- _ => inversion H; subst end. auto.
  - right. right. right. split; eauto.
  - right. right. right. split; eauto.
Qed.
Lemma special_case first c s t : In c specials -> lexeme first (c :: s) t ->
  In (c :: s, t) symbols \/ (c = 47 /\ exists r, s = 47 :: r).
Proof.
  intros I H. apply lexeme_cases in H. destruct H as [H|[[H _]|[[_ H]|H]]]; auto; exfalso.
  - unfold digit in H. simpl in I. repeat (destruct I as [<-|I]; [lia|]). contradiction.
  - inversion H as [|? ? W _]; subst. destruct W as [W|W]; [rewrite (Hp c I) in W; discriminate|].
    subst. simpl in I. repeat (destruct I as [I|I]; [discriminate|]). contradiction.
Qed.

(** The branch for characters that are not special. *)
Lemma scan_other line white i c it : ~ In c specials -> scan_char alnum line white i c it =
    if is_digit c then Some (Some (Numeral, skip_while is_digit it))
    else if identifierish alnum c then
      let rest := skip_while (identifierish alnum) it in
      match slice line i (position_of line rest) with
      | None => None
      | Some word => Some (Some (match keyword word with Some t => t | None => Identifier end, rest))
      end
    else Some (Some (Invalid, it)).
Proof.
  intros N. unfold scan_char. destruct c as [|p]; [reflexivity|].
  do 14 (try (destruct p as [p|p|]; try reflexivity; try (exfalso; apply N; simpl; tauto))).
Qed.

Lemma symbol_maximal first c s0 rest : In c specials -> c <> 47 ->
  forallb (fun p => negb (str_eqb (firstn (S (List.length s0)) (fst p)) (c :: s0)) || (Nat.eqb (List.length (fst p)) (S (List.length s0)))) symbols = true ->
  forall more rest' t', rest = more ++ rest' -> more <> [] -> ~ lexeme first ((c :: s0) ++ more) t'.
Proof.
  intros I N F more rest' t' _ Nm L. apply special_case in L; auto. destruct L as [L|[C _]]; [|contradiction].
  rewrite forallb_forall in F. specialize (F _ L). cbn [fst] in F. apply orb_true_iff in F. destruct F as [F|F].
  - apply negb_true_iff in F. assert (E : str_eqb (firstn (S (List.length s0)) ((c :: s0) ++ more)) (c :: s0) = true).
    { apply str_eqb_eq. change (S (List.length s0)) with (List.length (c :: s0)). rewrite firstn_app, firstn_all, PeanoNat.Nat.sub_diag. simpl. rewrite app_nil_r. auto. }
    exact (eq_true_false_abs _ E F).
  - apply PeanoNat.Nat.eqb_eq in F. cbn [List.length app] in F. rewrite app_length in F. destruct more; [congruence|]. simpl in F. lia.
Qed.

Lemma one_longest first c t rest : In c specials -> c <> 47 -> In ([c], t) symbols ->
  forallb (fun p => negb (str_eqb (firstn 1 (fst p)) [c]) || (Nat.eqb (List.length (fst p)) 1)) symbols = true ->
  longest first [c] t rest.
Proof. intros I N L F. left. split; [apply lex_symbol; auto|]. apply (symbol_maximal first c [] rest I N F). Qed.

(** a symbol that is longer with [d] after it *)
Lemma two_longest first c d t u s : In c specials -> c <> 47 -> In ([c; d], t) symbols -> (u = Invalid \/ In ([c], u) symbols) ->
  forallb (fun p => negb (str_eqb (firstn 1 (fst p)) [c]) || (str_eqb (fst p) [c; d] || (str_eqb (fst p) [c] && negb (match u with Invalid => true | _ => false end)))) symbols = true ->
  (forall r, s = d :: r -> longest first [c; d] t r) /\ ((forall r, s <> d :: r) -> longest first [c] u s).
Proof.
  intros I N L1 L2 F. rewrite forallb_forall in F.
  assert (G : forall s t, lexeme first (c :: s) t -> s = [d] \/ (s = [] /\ u <> Invalid)).
  { intros s0 t0 L. apply special_case in L; auto. destruct L as [L|[C _]]; [|contradiction]. specialize (F _ L). cbn [fst] in F.
    apply orb_true_iff in F. destruct F as [F|F].
    - cbn [firstn] in F. simpl in F. rewrite N.eqb_refl in F. discriminate.
    - apply orb_true_iff in F. destruct F as [F|F].
      + apply str_eqb_eq in F. inversion F. auto.
      + apply andb_true_iff in F. destruct F as [F1 F2]. apply str_eqb_eq in F1. inversion F1. right. split; auto. intros ->. discriminate. }
  split.
  - intros r ->. left. split; [apply lex_symbol; auto|]. intros more rest' t' _ Nm L. cbn [app] in L. apply G in L.
    destruct L as [L|[L _]]; [|discriminate]. inversion L. contradiction.
  - intros Nd. destruct L2 as [->|L2].
    + right. split; auto. exists c. split; auto. intros s' rest' t' E L. destruct s' as [|x s']; [inversion L; subst; try congruence; simpl in H; repeat (destruct H as [H|H]; [discriminate|]); contradiction|].
      inversion E; subst. apply G in L. destruct L as [->|[_ L]]; [|congruence]. eapply Nd. reflexivity.
    + left. split; [apply lex_symbol; auto|]. intros more rest' t' E Nm L. cbn [app] in L. apply G in L.
      destruct L as [->|[L _]]; [|contradiction]. eapply Nd. exact E.
Qed.

Lemma lexeme_nil first t : ~ lexeme first [] t.
Proof. intros L. inversion L; subst; try congruence. simpl in H. repeat (destruct H as [H|H]; [discriminate|]). contradiction. Qed.

Lemma scan_char_longest line white pre c s : line = pre ++ c :: s -> ~ In 10 (c :: s) -> ~ blank c ->
  exists t txt rest, c :: s = txt ++ rest /\ txt <> [] /\
    scan_char alnum line white (bytes pre) c (char_indices (bytes pre + utf8 c) s) = Some (Some (t, char_indices (bytes pre + bytes txt) rest)) /\
    longest white txt t rest.
Proof.
  intros El Nn Nb. destruct (in_dec N.eq_dec c specials) as [I|I].
  2:{ rewrite scan_other by auto. rewrite !skip_while_indices. destruct (is_digit c) eqn:Ed.
      - exists Numeral, (c :: take_while is_digit s), (drop_while is_digit s). split; [simpl; f_equal; apply take_drop|]. split; [discriminate|].
        split; [cbn [bytes]; rewrite ?N.add_0_r, ?N.add_assoc; reflexivity|]. apply digit_iff in Ed. left. split.
        + apply lex_numeral; [discriminate|]. constructor; auto. apply Forall_forall. intros x Ix. apply digit_iff.
          pose proof (take_while_all is_digit s) as T. rewrite forallb_forall in T. auto.
        + intros more rest' t' E Nm L. destruct more as [|m more]; [contradiction|]. cbn [app] in E. apply drop_while_head in E.
          cbn [app] in L. apply lexeme_cases in L. destruct L as [L|[[_ L]|[[L _]|[-> _]]]]; try contradiction.
          * assert (In c specials); [|contradiction]. simpl in L. repeat (destruct L as [L|L]; [inversion L; subst; simpl; tauto|]). contradiction.
          * apply Forall_app in L. destruct L as [_ L]. inversion L; subst. apply digit_iff in H1. congruence.
          * apply I. simpl. tauto.
      - assert (Nd : ~ digit c) by (rewrite <- digit_iff; congruence). destruct (identifierish alnum c) eqn:Ew.
        + set (f := identifierish alnum) in *. pose proof (take_drop f s) as Td.
          exists (match keyword (c :: take_while f s) with Some t => t | None => Identifier end), (c :: take_while f s), (drop_while f s).
          split; [simpl; f_equal; exact Td|]. split; [discriminate|].
          assert (B : bytes pre + utf8 c + bytes (take_while f s) + bytes (drop_while f s) = bytes line).
          { assert (bytes s = bytes (take_while f s) + bytes (drop_while f s)) by (rewrite <- bytes_app, <- Td; auto). rewrite El, bytes_app. cbn [bytes]. lia. }
          assert (W : Forall word_char (c :: take_while f s)).
          { constructor; [apply word_iff; auto|]. apply Forall_forall. intros x Ix. apply word_iff.
            pose proof (take_while_all f s) as T. rewrite forallb_forall in T. apply T. auto. }
          split.
          * cbv zeta. rewrite position_indices by exact B.
            assert (Sl : slice line (bytes pre) (bytes pre + utf8 c + bytes (take_while f s)) = Some (c :: take_while f s)).
            { replace line with (pre ++ (c :: take_while f s) ++ drop_while f s) by (rewrite El; simpl; rewrite <- Td; auto). rewrite <- N.add_assoc. apply (slice_app pre (c :: take_while f s) (drop_while f s)). }
            rewrite Sl. cbn [bytes]. rewrite N.add_assoc. reflexivity.
          * left. split.
            { destruct (keyword (c :: take_while f s)) as [t|] eqn:Ek.
              - apply lex_keyword; auto. apply keyword_in. auto.
              - apply lex_word; auto. intros t. apply keyword_none. auto. }
            intros more rest' t' E Nm L. destruct more as [|m more]; [contradiction|]. cbn [app] in E. apply drop_while_head in E.
            cbn [app] in L. apply lexeme_cases in L. destruct L as [L|[[L _]|[[_ L]|[-> _]]]]; try contradiction.
            -- assert (In c specials); [|contradiction]. simpl in L. repeat (destruct L as [L|L]; [inversion L; subst; simpl; tauto|]). contradiction.
            -- inversion L as [|? ? _ L']; subst. apply Forall_app in L'. destruct L' as [_ L']. inversion L' as [|? ? Wm _]; subst. apply word_iff in Wm. unfold f in E. congruence.
            -- apply I. simpl. tauto.
        + exists Invalid, [c], s. split; auto. split; [discriminate|]. split; [cbn [bytes]; rewrite ?N.add_0_r, ?N.add_assoc; reflexivity|]. right. split; auto. exists c. split; auto.
          intros s' rest' t' E L. destruct s' as [|x s']; [eapply lexeme_nil; eauto|]. inversion E; subst x.
          apply lexeme_cases in L. destruct L as [L|[[L _]|[[_ L]|[-> _]]]]; try contradiction.
          * assert (In c specials); [|contradiction]. simpl in L. repeat (destruct L as [L|L]; [inversion L; subst; simpl; tauto|]). contradiction.
          * inversion L as [|? ? Wm _]; subst. apply word_iff in Wm. congruence.
          * apply I. simpl. tauto. }
  assert (One : forall t, scan_char alnum line white (bytes pre) c (char_indices (bytes pre + utf8 c) s) = Some (Some (t, char_indices (bytes pre + utf8 c) s)) ->
     c <> 47 -> In ([c], t) symbols -> forallb (fun p => negb (str_eqb (firstn 1 (fst p)) [c]) || (Nat.eqb (List.length (fst p)) 1)) symbols = true ->
     exists t txt rest, c :: s = txt ++ rest /\ txt <> [] /\
       scan_char alnum line white (bytes pre) c (char_indices (bytes pre + utf8 c) s) = Some (Some (t, char_indices (bytes pre + bytes txt) rest)) /\ longest white txt t rest).
  { intros t E N L F. exists t, [c], s. split; auto. split; [discriminate|]. split; [rewrite E; cbn [bytes]; rewrite ?N.add_0_r, ?N.add_assoc; reflexivity|]. apply one_longest; auto. }
  assert (Two : forall d t u, utf8 c = 1 -> utf8 d = 1 -> (forall it, scan_char alnum line white (bytes pre) c it =
       match next_if_eq (bytes pre + 1, d) it with Some r => Some (Some (t, r)) | None => Some (Some (u, it)) end) ->
     c <> 47 -> In ([c; d], t) symbols -> (u = Invalid \/ In ([c], u) symbols) ->
     forallb (fun p => negb (str_eqb (firstn 1 (fst p)) [c]) || (str_eqb (fst p) [c; d] || (str_eqb (fst p) [c] && negb (match u with Invalid => true | _ => false end)))) symbols = true ->
     exists t txt rest, c :: s = txt ++ rest /\ txt <> [] /\
       scan_char alnum line white (bytes pre) c (char_indices (bytes pre + utf8 c) s) = Some (Some (t, char_indices (bytes pre + bytes txt) rest)) /\ longest white txt t rest).
  { intros d t u Uc Ud E N L1 L2 F. destruct (two_longest white c d t u s I N L1 L2 F) as [T1 T2]. rewrite E, Uc, next_indices.
    assert (Z : (exists r, s = d :: r) \/ (forall r, s <> d :: r)).
    { destruct s as [|x r]; [right; discriminate|]. destruct (N.eq_dec x d) as [->|Nx]; [eauto|right; intros ? C; inversion C; congruence]. }
    destruct Z as [[r ->]|Z].
    - rewrite N.eqb_refl. exists t, [c; d], r. split; auto. split; [discriminate|]. split; [cbn [bytes]; rewrite Uc, Ud, N.add_0_r, N.add_assoc; reflexivity|]. apply T1. auto.
    - exists u, [c], s. split; auto. split; [discriminate|]. split; [|apply T2; auto]. cbn [bytes]. rewrite Uc. replace (bytes pre + (1 + 0)) with (bytes pre + 1) by lia.
      destruct s as [|x r]; auto. destruct (N.eqb_spec x d) as [->|]; auto. exfalso. eapply Z. reflexivity. }
  destruct (N.eq_dec c 47) as [->|N47].
  { clear One Two. unfold scan_char. replace (utf8 47) with 1 by reflexivity. rewrite next_indices.
    assert (Z : (exists r, s = 47 :: r) \/ (forall r, s <> 47 :: r)).
    { destruct s as [|x r]; [right; discriminate|]. destruct (N.eq_dec x 47) as [->|Nx]; [eauto|right; intros ? C; inversion C; congruence]. }
    destruct Z as [[r ->]|Z].
    - rewrite N.eqb_refl. replace (bytes pre + 2) with (bytes pre + 1 + utf8 47) by (change (utf8 47) with 1; lia). rewrite next_indices.
      assert (Nr : ~ In 10 r) by (intros C; apply Nn; simpl; auto).
      assert (E : skip_line (char_indices (bytes pre + 1 + utf8 47) r) = [] /\ forall x r', r = x :: r' -> skip_line (char_indices (bytes pre + 1 + utf8 47 + utf8 x) r') = []).
      { split; [apply skip_line_indices; auto|]. intros x r' ->. apply skip_line_indices. intros C. apply Nr. right. auto. }
      destruct E as [E1 E2].
      exists (if (match r with x :: _ => x =? 47 | [] => false end) && white then DocComment else NewLine), (47 :: 47 :: r), [].
      rewrite app_nil_r. split; auto. split; [discriminate|]. split.
      + destruct r as [|x r']; [rewrite E1; reflexivity|]. destruct (x =? 47); [rewrite (E2 x r' eq_refl)|rewrite E1]; reflexivity.
      + left. split.
        * destruct r as [|x r']; [apply lex_comment; right; discriminate|]. destruct (N.eqb_spec x 47) as [->|Nx]; cbn [andb].
          -- destruct white; [apply lex_doc; auto|apply lex_comment; auto].
          -- apply lex_comment. right. intros ? C. inversion C. congruence.
        * intros more rest' t' E Nm. destruct more; [contradiction|discriminate].
    - exists Slash, [47], s. split; auto. split; [discriminate|]. split.
      + change (bytes [47]) with 1. destruct s as [|x r]; auto. destruct (N.eqb_spec x 47) as [->|]; auto. exfalso. eapply Z. reflexivity.
      + left. split; [apply lex_symbol; simpl; tauto|]. intros more rest' t' E Nm L. cbn [app] in L. apply special_case in L; auto.
        destruct L as [L|[_ [r ->]]]; [|eapply Z; exact E].
        simpl in L. repeat (destruct L as [L|L]; [inversion L; subst; try congruence|]). contradiction. }
  simpl in I. unfold blank in Nb.
  repeat (destruct I as [<-|I]; [try (exfalso; apply Nb; auto; fail); try (exfalso; apply Nn; simpl; auto; fail); try congruence|]); try contradiction;
  try (eapply One; [reflexivity|assumption|simpl; tauto|reflexivity]).
  - apply (Two 61 NotEquals Invalid); auto; try reflexivity. simpl. tauto.
  - apply (Two 62 RightArrow Minus); auto; try reflexivity; try (right; simpl; tauto); simpl; tauto.
  - apply (Two 61 LessThanOrEquals LessThan); auto; try reflexivity; try (right; simpl; tauto); simpl; tauto.
  - apply (Two 61 GreaterThanOrEquals GreaterThan); auto; try reflexivity; try (right; simpl; tauto); simpl; tauto.
Qed.
End Lexicon.
