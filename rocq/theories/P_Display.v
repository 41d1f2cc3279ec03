(** Property C55: the text of an expression, printed on one line, scans and parses back to the expression. *)
From Coq Require Import List NArith ZArith Bool String Lia.
Import ListNotations.
From Verif Require Import Scanner ScannerProofs P_Scanner Expression ExpressionProofs ExpressionTokens ExpressionFuel ExpressionRound ExpressionDisplay ExpressionTidy P_Expression.
Local Open Scope list_scope.

(** ** Neighbouring tokens *)
Definition fusing : list (token_type * N) := [(Minus, 62%N); (LessThan, 61%N); (GreaterThan, 61%N)].
Lemma symbols_fuse : forallb (fun p => forallb (fun q =>
    negb (str_eqb (firstn (List.length (fst p)) (fst q)) (fst p)) || Nat.leb (List.length (fst q)) (List.length (fst p)) ||
    existsb (fun f => tt_eqb (snd p) (fst f) && N.eqb (nth (List.length (fst p)) (fst q) 0%N) (snd f)) fusing) symbols) symbols = true.
Proof. vm_compute. reflexivity. Qed.
Lemma symbols_slash : forallb (fun p => match fst p with 47%N :: r => match r with [] => tt_eqb (snd p) Slash | _ => false end | _ => true end) symbols = true.
Proof. vm_compute. reflexivity. Qed.
Lemma symbols_greater : forallb (fun p => match fst p with 62%N :: _ => negb (apart Minus (snd p)) | 61%N :: _ => tt_eqb (snd p) Equals | _ => true end) symbols = true.
Proof. vm_compute. reflexivity. Qed.
Lemma keywords_are_words : forallb (fun p => negb (symbol_type (snd p))) keywords = true.
Proof. vm_compute. reflexivity. Qed.
Lemma nth_app_here (s : str) d r : nth (List.length s) (s ++ d :: r) 0%N = d.
Proof. induction s; [reflexivity|exact IHs]. Qed.

Section Glue.
Context (alnum : N -> bool) (Hp : plain_specials alnum).
Notation lexeme := (lexeme alnum).
Definition solidt (t : tok) : Prop := solid alnum (snd t, fst t).

Lemma symbol_text s t : solid alnum (s, t) -> symbol_type t = true -> In (s, t) symbols.
Proof.
  intros [L N] H. cbn in L, N. inversion L; subst; auto; try discriminate; try congruence.
  pose proof keywords_are_words as K. rewrite forallb_forall in K. specialize (K _ H2). cbn in K. rewrite H in K. discriminate.
Qed.
Lemma apart_longest s t s' t' rest first : solid alnum (s, t) -> solid alnum (s', t') -> apart t t' = true -> longest alnum first s t (s' ++ rest).
Proof.
  intros S S' A. left. split; [apply solid_first; assumption|]. intros more rest' u E Nm L.
  destruct (solid_shape alnum Hp _ _ S') as (d & r' & -> & _). destruct (solid_shape alnum Hp _ _ S) as (c & r & -> & _ & _ & _ & Nc).
  destruct more as [|m more]; [congruence|]. cbn in E. injection E as <- _.
  assert (Eq : forall x, In (x :: r', t') symbols -> In x specials) by (intros x X; exact (symbol_special x r' t' X)).
  assert (Wordy : symbol_type t = false -> In (d :: r', t') symbols).
  { intros X. apply symbol_text; [exact S'|]. destruct t; try discriminate X; exact A. }
  pose proof S as [Ls Ns]. cbn [fst snd] in Ls, Ns. inversion Ls as [s0 t0 I0| s0 N0 D0|c0 s0 t0 D0 W0 K0|c0 s0 D0 W0 K0|s0 F0|s0 F0]; subst; try congruence.
  - (* a symbol *)
    pose proof (symbol_special _ _ _ I0) as Ic. change ((c :: r) ++ d :: more) with (c :: (r ++ d :: more)) in L. apply (special_case alnum Hp) in L; [|exact Ic]. destruct L as [L|[-> [r0 L]]].
    + pose proof symbols_fuse as F. rewrite forallb_forall in F. specialize (F _ I0). rewrite forallb_forall in F. specialize (F _ L). cbn [fst snd] in F.
      change (c :: (r ++ d :: more)) with ((c :: r) ++ d :: more) in F. rewrite nth_app_here in F.
      assert (X1 : str_eqb (firstn (List.length (c :: r)) ((c :: r) ++ d :: more)) (c :: r) = true).
      { apply str_eqb_eq. rewrite firstn_app, Nat.sub_diag, firstn_all, firstn_O, app_nil_r. reflexivity. }
      rewrite X1 in F.
      assert (X2 : Nat.leb (List.length ((c :: r) ++ d :: more)) (List.length (c :: r)) = false) by (apply Nat.leb_gt; rewrite app_length; cbn [List.length]; lia).
      rewrite X2 in F. cbn [negb orb existsb fusing fst snd] in F. rewrite orb_false_r in F.
      assert (Y : In d specials -> In (d :: r', t') symbols \/ d = 47%N).
      { intros X. destruct S' as [L' _]. apply (special_case alnum Hp) in L'; [|exact X]. destruct L' as [L'|[-> _]]; auto. }
      pose proof symbols_greater as Gr. rewrite forallb_forall in Gr.
      apply orb_true_iff in F. destruct F as [F|F]; [|apply orb_true_iff in F; destruct F as [F|F]]; apply andb_true_iff in F; destruct F as [F1 F2]; apply tt_eqb_eq in F1; apply N.eqb_eq in F2; subst t d.
      * destruct Y as [Y|Y]; [cbn; tauto| |discriminate]. specialize (Gr _ Y). cbn [fst snd] in Gr. rewrite A in Gr. discriminate.
      * destruct Y as [Y|Y]; [cbn; tauto| |discriminate]. specialize (Gr _ Y). cbn [fst snd] in Gr. apply tt_eqb_eq in Gr. rewrite Gr in A. discriminate.
      * destruct Y as [Y|Y]; [cbn; tauto| |discriminate]. specialize (Gr _ Y). cbn [fst snd] in Gr. apply tt_eqb_eq in Gr. rewrite Gr in A. discriminate.
    + pose proof symbols_slash as F. rewrite forallb_forall in F. pose proof (F _ I0) as F0. cbn [fst snd] in F0. destruct r as [|y r]; [|discriminate]. apply tt_eqb_eq in F0. subst t.
      cbn [app] in L. injection L as -> _. destruct S' as [L' N']. cbn [fst snd] in L', N'. apply (special_case alnum Hp) in L' as L''; [|apply special_slash]. destruct L'' as [X|[_ [r1 ->]]].
      * specialize (F _ X). cbn [fst snd] in F. destruct r'; [|discriminate]. apply tt_eqb_eq in F. subst t'. discriminate.
      * inversion L' as [s1 t1 I1| s1 N1 D1|c1 s1 t1 D1 W1 K1|c1 s1 D1 W1 K1|s1 F1|s1 F1]; subst; try congruence.
        -- exact (slashes_no_symbol _ _ I1).
        -- inversion D1 as [|? ? D2 _]; subst. exact (digit_plain _ D2 special_slash).
        -- inversion W1 as [|? ? W2 _]; subst. exact (word_plain alnum Hp _ W2 special_slash).
        -- inversion W1 as [|? ? W2 _]; subst. exact (word_plain alnum Hp _ W2 special_slash).
  - (* a number *)
    specialize (Eq d (Wordy eq_refl)). inversion D0 as [|? ? Dc Dr]; subst. apply lexeme_cases in L. destruct L as [L|[[_ L]|[[L _]|[L _]]]].
    + exact (digit_plain _ Dc (symbol_special _ _ _ L)).
    + apply Forall_app in L. destruct L as [_ L]. inversion L; subst. exact (digit_plain d H1 Eq).
    + exact (L Dc).
    + subst c. exact (digit_plain _ Dc special_slash).
  - (* a keyword *)
    assert (X : symbol_type t = false) by (pose proof keywords_are_words as K; rewrite forallb_forall in K; specialize (K _ K0); cbn in K; destruct (symbol_type t); [discriminate|reflexivity]).
    specialize (Eq d (Wordy X)). inversion W0 as [|? ? Wc Wr]; subst. apply lexeme_cases in L. destruct L as [L|[[L _]|[[_ L]|[L _]]]].
    + exact (word_plain alnum Hp _ Wc (symbol_special _ _ _ L)).
    + exact (D0 L).
    + rewrite app_comm_cons in L. apply Forall_app in L. destruct L as [_ L]. inversion L; subst. exact (word_plain alnum Hp d H1 Eq).
    + subst c. exact (word_plain alnum Hp _ Wc special_slash).
  - (* a word *)
    specialize (Eq d (Wordy eq_refl)). inversion W0 as [|? ? Wc Wr]; subst. apply lexeme_cases in L. destruct L as [L|[[L _]|[[_ L]|[L _]]]].
    + exact (word_plain alnum Hp _ Wc (symbol_special _ _ _ L)).
    + exact (D0 L).
    + rewrite app_comm_cons in L. apply Forall_app in L. destruct L as [_ L]. inversion L; subst. exact (word_plain alnum Hp d H1 Eq).
    + subst c. exact (word_plain alnum Hp _ Wc special_slash).
Qed.
Local Open Scope N_scope.
Local Open Scope list_scope.
Lemma glued line : bytes line < 4294967296 -> forall ps pre first, joins ps = true -> Forall solidt (toks_of ps) -> line = pre ++ flat_map piece_text ps ->
  exists ts u, tokens_of alnum line 0 pre first (flat_map piece_text ps) (ts ++ [u]) /\
    map t_type ts = map fst (toks_of ps) /\ map text ts = map (fun t => Some (snd t)) (toks_of ps) /\ t_type u = NewLine /\ text u = Some [].
Proof.
  intros Hb. induction ps as [|p ps IH]; intros pre first J F E.
  - exists [], (Token NewLine line 0 (bytes pre) 0). cbn [flat_map app]. split; [constructor|]. repeat split.
    unfold text. cbn [t_start t_len t_line]. rewrite N.add_0_r. cbn [flat_map] in E. rewrite app_nil_r in E.
    replace (bytes pre <? 4294967296) with true by (symmetry; apply N.ltb_lt; rewrite <- E; auto). rewrite E.
    pose proof (slice_app pre [] []) as Sl. rewrite !app_nil_r, N.add_0_r in Sl. exact Sl.
  - destruct p as [t|].
    + rewrite toks_t in F |- *. pose proof (Forall_inv F) as S. pose proof (Forall_inv_tail F) as F'. unfold solidt in S. destruct t as [t s]. cbn [fst snd] in *.
      destruct (solid_shape alnum Hp _ _ S) as (c & r & Es & N32 & N9 & _). cbn [flat_map piece_text snd] in E |- *.
      assert (Jp : joins ps = true) by (cbn [joins] in J; destruct ps as [|[]]; auto; apply andb_true_iff in J; apply J).
      destruct (IH (pre ++ s) false Jp F') as (ts & u & T1 & E1 & E2 & E3 & E4); [rewrite <- app_assoc; exact E|].
      exists (Token t line 0 (bytes pre) (bytes s) :: ts), u. split; [|split; [cbn [map fst t_type]; rewrite E1; reflexivity|split; [|auto]]].
      * cbn [app]. apply one_token; [congruence|intros d r' E' [->| ->]; [apply N32|apply N9]; rewrite E'; left; auto| |exact T1].
        destruct ps as [|[[t' s']|] ps]; [apply solid_longest; auto| |apply solid_longest; [assumption|assumption|right; eexists; reflexivity]].
        cbn [flat_map piece_text snd]. cbn [joins fst] in J. apply andb_true_iff in J. rewrite toks_t in F'. apply apart_longest with (t' := t'); [exact S|exact (Forall_inv F')|apply J].
      * cbn [map snd]. rewrite E2. f_equal. unfold text. cbn [t_start t_len t_line]. rewrite E at 1. rewrite slice_app.
        replace (bytes pre + bytes s <? 4294967296) with true; auto. symmetry. apply N.ltb_lt. rewrite E, !bytes_app in Hb. lia.
    + rewrite toks_sp in F |- *. cbn [flat_map piece_text] in E |- *. destruct (IH (pre ++ [32]) first) as (ts & u & T1 & R); [exact J|exact F|rewrite <- app_assoc; exact E|].
      exists ts, u. split; [|exact R]. cbn [app]. apply skip_blank; [left; reflexivity|exact T1].
Qed.
End Glue.

(** ** Scanning a text into the tokens that the parser reads *)
Definition lex (alnum : N -> bool) (s : str) : option (list tok) :=
  match scan alnum 0 s with Some l => Some (map (fun t => (t_type t, match text t with Some x => x | None => [] end)) l) | None => None end.
(** a token that an expression may have, or one that it may not: a newline, a doc comment or an invalid character *)
Definition scannable (alnum : N -> bool) (t : tok) : Prop := real (fst t) = false \/ solidt alnum t.
Definition letters (alnum : N -> bool) : Prop := forall c, (97 <= c <= 122)%N -> alnum c = true.

Lemma scannable_gen alnum : letters alnum -> forall ty, match ty with Identifier | Invalid | Numeral | NewLine | DocComment => false | _ => true end = true -> scannable alnum (gen ty).
Proof. intros L ty H. right. apply printed_types_scan_back; [exact L|destruct ty; exact H]. Qed.
Lemma texts_of_types : forallb (fun p => str_eqb (fst p) (to_str (snd p))) (symbols ++ keywords) = true.
Proof. vm_compute. reflexivity. Qed.
Lemma solid_spelled alnum t : scannable alnum t -> spelled t.
Proof.
  intros [R|[L N]]; unfold spelled; [destruct t as [ty s]; cbn in *; destruct ty; auto; discriminate|].
  destruct t as [ty s]; cbn [fst snd] in *. pose proof texts_of_types as F. rewrite forallb_forall in F.
  assert (X : In (s, ty) (symbols ++ keywords) -> s = to_str ty) by (intros I; apply str_eqb_eq; exact (F _ I)).
  inversion L; subst; auto; try congruence.
  - specialize (X (in_or_app _ _ _ (or_introl H))). clear - X. destruct ty; auto.
  - specialize (X (in_or_app _ _ _ (or_intror H1))). clear - X. destruct ty; auto.
Qed.
Lemma all_real alnum l : Forall (Q (scannable alnum)) l -> Forall (solidt alnum) l.
Proof. intros F. eapply Forall_impl; [|exact F]. intros t [[R|S] R']; [congruence|exact S]. Qed.

Lemma lex_display alnum e : plain_specials alnum -> tidy (scannable alnum) e -> (bytes (display e) < 4294967296)%N ->
  lex alnum (display e) = Some (flat e ++ [(NewLine, [])]).
Proof.
  intros Hp (E1 & F & h & l & (J & (p' & Ep) & _) & _) Hb. apply all_real in F. rewrite <- E1 in F |- *.
  unfold display in *. set (line := flat_map piece_text (pieces e)) in *.
  assert (Nn : ~ In 10%N line).
  { unfold line. clear -F Hp. induction (pieces e) as [|p ps IH]; [auto|]. cbn [flat_map]. destruct p as [t|].
    - rewrite toks_t in F. destruct t as [t s]. destruct (solid_shape alnum Hp _ _ (Forall_inv F)) as (_ & _ & _ & _ & _ & N & _). intros I. apply in_app_or in I.
      destruct I as [I|I]; [exact (N I)|exact (IH (Forall_inv_tail F) I)].
    - rewrite toks_sp in F. intros [I|I]; [discriminate|exact (IH F I)]. }
  assert (Ni : line <> []).
  { unfold line. rewrite Ep in F |- *. rewrite toks_t in F. destruct h as [t s]. destruct (solid_shape alnum Hp _ _ (Forall_inv F)) as (c & r & E & _). cbn [fst snd] in E. cbn [flat_map piece_text snd]. rewrite E. discriminate. }
  unfold lex, scan. rewrite (single_line line Nn Ni). cbn [scan_lines]. change (u32 0) with 0%N.
  destruct (scan_line_spec alnum Hp line 0 Hb Nn (List.length line) [] true line eq_refl (le_n _)) as (ts & E & T). cbn [bytes] in E. rewrite E.
  destruct (glued alnum Hp line Hb (pieces e) [] true J F eq_refl) as (ts1 & u & T1 & X1 & X2 & X3 & X4).
  pose proof (tokens_are_determined alnum Hp line 0 _ _ T T1) as ->. rewrite app_nil_r, map_app. cbn [map]. rewrite X3, X4. do 2 f_equal. clear -X1 X2.
  revert X1 X2. generalize (toks_of (pieces e)). induction ts1 as [|t ts IH]; intros [|[ty s] l] A B; try discriminate; [reflexivity|]. cbn in A, B |- *. injection A as A1 A2. injection B as B1 B2.
  rewrite A1, B1, (IH l A2 B2). reflexivity.
Qed.

(** the tokens of a text *)
Lemma scanned_scannable alnum n parts ts : (bytes (flat_map (fun p => fst p ++ snd p) parts) < 4294967296)%N -> scanned alnum n parts ts ->
  Forall (fun t => scannable alnum (t_type t, match text t with Some x => x | None => [] end)) ts.
Proof.
  intros Hb Sc. induction Sc as [|n l e parts ts1 ts2 T Sc IH]; [constructor|]. cbn [flat_map fst snd] in Hb. rewrite !bytes_app in Hb.
  apply Forall_app. split; [|apply IH; lia]. assert (Hl : (bytes l < 4294967296)%N) by lia. clear -T Hl.
  assert (G : forall pre first rest, tokens_of alnum l n pre first rest ts1 -> l = pre ++ rest -> Forall (fun t => scannable alnum (t_type t, match text t with Some x => x | None => [] end)) ts1).
  { clear T. induction 1 as [pre first|pre first c r ts B T IH|pre first s t rest ts Ns Nb Lg T IH]; intros El.
    - repeat constructor.
    - apply IH. rewrite <- app_assoc. exact El.
    - constructor; [|apply IH; rewrite <- app_assoc; exact El].
      replace (text (Token t l n (bytes pre) (bytes s))) with (Some s).
      + cbn [t_type]. destruct Lg as [[L _]|[-> _]]; [|left; reflexivity]. destruct (real t) eqn:R; [right|left; exact R]. unfold solidt, solid. cbn [fst snd].
        split; [|intros ->; discriminate]. inversion L; subst; try discriminate; solve [constructor; auto].
      + unfold text. cbn [t_start t_len t_line]. rewrite El at 1. rewrite slice_app. replace (bytes pre + bytes s <? 4294967296)%N with true; auto. symmetry. apply N.ltb_lt. rewrite El, !bytes_app in Hl. lia. }
  exact (G [] true l T eq_refl).
Qed.
Lemma lex_scannable alnum s ts : plain_specials alnum -> (bytes s < 4294967296)%N -> lex alnum s = Some ts -> Forall (scannable alnum) ts.
Proof.
  intros Hp Hb E. destruct (scanning_covers_the_input alnum Hp 0 s Hb) as (parts & l & [C _] & E' & Sc); [lia|].
  unfold lex in E. rewrite E' in E. injection E as <-. rewrite C in Hb. apply Forall_map. eapply scanned_scannable; eauto.
Qed.

(** ** C55 *)
(** What is parsed from a text and printed on one line scans to the tokens of the expression and parses to the same expression. *)
Theorem parsed_expressions_print_and_read_back :
  forall alnum, plain_specials alnum -> letters alnum -> forall s ts n ety e t rest,
  (bytes s < 4294967296)%N -> lex alnum s = Some ts -> parse n ety [NewLine] ts = Ok (e, t, rest) -> (bytes (display e) < 4294967296)%N ->
  lex alnum (display e) = Some (flat e ++ [(NewLine, [])]) /\
  parse n ety [NewLine] (flat e ++ [(NewLine, [])]) = Ok (e, (NewLine, []), []).
Proof.
  intros alnum Hp La s ts n ety e t rest Hb Es H Hd. pose proof (lex_scannable _ _ _ Hp Hb Es) as F.
  destruct (tidying (scannable alnum) (scannable_gen alnum La) n) as (Td & _). destruct (Td _ _ _ _ _ _ H F) as (Te & M & _).
  split; [apply lex_display; assumption|].
  apply (printing_then_parsing_gives_the_same_expression _ _ _ _ _ _ _ H); auto.
  - eapply Forall_impl; [|exact F]. apply solid_spelled.
  - intros _. cbn in M. rewrite orb_false_r in M. apply tt_eqb_eq in M. auto.
Qed.
Print Assumptions parsed_expressions_print_and_read_back.

(** Expressions that are built, not parsed: a tree that respects the precedences and whose words are words, printed on one line, scans and parses back. *)
Theorem built_expressions_print_and_read_back :
  forall alnum, plain_specials alnum -> letters alnum -> forall ety e, wf ety e -> level_ok (spine e) ->
  Forall (fun t => solid alnum (snd t, fst t)) (flat e) -> (bytes (display e) < 4294967296)%N ->
  exists ts, lex alnum (display e) = Some ts /\
  forall n, 4 * List.length ts + 2 <= n -> parse n ety [NewLine] ts = Ok (e, (NewLine, []), []).
Proof.
  intros alnum Hp La ety e W L F Hb. exists (flat e ++ [(NewLine, [])]). split.
  - apply lex_display; auto.
    pose proof (wf_parses ety e [RightBrace] (gen RightBrace) [] _ W L (outer_one RightBrace eq_refl) eq_refl (le_n _)) as P1.
    destruct (tidying (scannable alnum) (scannable_gen alnum La) (4 * List.length (flat e ++ [gen RightBrace]) + 2)) as (Td & _). apply Td in P1; [apply P1|].
    apply Forall_app. split; [|constructor; [apply scannable_gen; auto|constructor]]. eapply Forall_impl; [|exact F]. intros x X. right. exact X.
  - intros n N. apply wf_parses; auto. intros ty M. right. cbn in M. rewrite orb_false_r in M. apply tt_eqb_eq in M. auto.
Qed.
Print Assumptions built_expressions_print_and_read_back.

(** So two such trees with the same text are the same. *)
Theorem texts_determine_the_tree :
  forall alnum, plain_specials alnum -> letters alnum -> forall ety e e', wf ety e -> level_ok (spine e) -> wf ety e' -> level_ok (spine e') ->
  Forall (fun t => solid alnum (snd t, fst t)) (flat e) -> Forall (fun t => solid alnum (snd t, fst t)) (flat e') -> (bytes (display e) < 4294967296)%N ->
  display e = display e' -> e = e'.
Proof.
  intros alnum Hp La ety e e' W L W' L' F F' Hb E.
  destruct (built_expressions_print_and_read_back alnum Hp La ety e W L F Hb) as (ts & A & B). rewrite E in Hb, A.
  destruct (built_expressions_print_and_read_back alnum Hp La ety e' W' L' F' Hb) as (ts' & A' & B'). rewrite A in A'. injection A' as <-.
  specialize (B _ (le_n _)). specialize (B' _ (le_n _)). congruence.
Qed.
Print Assumptions texts_determine_the_tree.

(** ** Cases *)
Example ascii_letters : letters ascii_alnum.
Proof. intros c [A B]. unfold ascii_alnum. rewrite (proj2 (N.leb_le 97 c) A), (proj2 (N.leb_le c 122) B), orb_true_r. reflexivity. Qed.
(** The strings that the tests of the repository expect to be printed as they are written (expression.rs 2064-2390, [expect_optimal]). *)
Definition same (ety : etype) (s : string) : bool := match read ety s with Ok (e, _, _) => str_eqb (display e) (chars s) | _ => false end.
Example printed_as_written : forallb (same Value)
  ["p implies (q implies p)"; "(p implies (q implies r)) implies ((p implies q) implies (p implies r))"; "(p iff q) = ((p implies q) and (q implies p))";
   "p and q iff q and p"; "(p and q) and r iff p and (q and r)"; "p or q iff q or p"; "f(x)"; "foo(x, y)"; "foo(x)(y)"; "foo(x, y + z, w)"; "(not)(x)"; "(and)(x, y)"; "(=)(x, y)";
   "forall(x: Nat) { (suc(x) = x + 1) }"; "exists(x: Nat) { (x = 0) }"; "exists(f: (Nat, Nat) -> Nat) { (f(0, 0) = 0) }"; "p != q"; "p <= q"; "p >= q";
   "p implies forall(x: Nat) { x = x }"; "f(forall(x: Nat) { x = x }, forall(y: Nat) { y = y })"; "NatPair.first(NatPair.new(a, b)) = a"; "foo(x).bar"; "foo(x).bar.baz"; "(foo).bar"; "(a + b).c";
   "a.b.c = Foo.bar(baz).qux"; "x.match"; "if p { q } else { r }"; "if a = 0 { 0 } else { 1 }"; "if (a = 0) { 0 } else { 1 }"; "if p { q }";
   "match a { Foo.bar(b) { b } Foo.qux(b) { b } }"; "-1"; "-a"; "-a - b"; "-(a - b)"; "a + -b"; "a - -b"; "-a * b"; "-(a * b)"; "a implies b"; "(a implies b) implies c"; "a implies (b implies c)";
   "foo(a implies b, c implies d)"; "foo[T]"; "List[T].new"; "map(add[Int], myList)"; "foo.bar[T]"; "maps_to[Bool, Bool](not2, false)"; "forall(f: (Bool, Bool) -> Bool) { f(true, false) }"; "Pair[Foo, Bar].new(foo, bar)";
   "a? + b?"; "foo?.bar"; "function[T](x: T) { x }"; "function[T, U](x: T, y: U) { x }"; "(=)"; "(not)"]%string = true.
Proof. vm_compute. reflexivity. Qed.
Example types_as_written : forallb (same Typ) ["(A, B, C) -> D"; "Bool -> Bool"; "A -> (B -> C)"; "List[Nat]"]%string = true.
Proof. vm_compute. reflexivity. Qed.
(** Other spellings are printed in this one. *)
Example respaced_case : exists e t rest, read Value "f( x,y )=- 1*( 2 ) //c" = Ok (e, t, rest) /\ display e = chars "f(x, y) = -1 * (2)" /\ (bytes (display e) < 4294967296)%N.
Proof. eexists _, _, _. split; [vm_compute; reflexivity|]. split; vm_compute; reflexivity. Qed.
Example formula_solid : Forall (fun t => solid ascii_alnum (snd t, fst t)) (flat formula) /\ display formula = chars "(a + b) * c < d implies not (p or q)" /\ (bytes (display formula) < 4294967296)%N.
Proof.
  split; [|split; vm_compute; reflexivity].
  assert (F : Forall (scannable ascii_alnum) (toks "(a + b) * c < d implies not (p or q)")).
  { apply (lex_scannable ascii_alnum (chars "(a + b) * c < d implies not (p or q)")); [exact plain_case|vm_compute; reflexivity|vm_compute; reflexivity]. }
  destruct formula_case as [_ E]. rewrite <- E in F. apply Forall_app in F. destruct F as [F _].
  assert (R : forallb (fun t : tok => real (fst t)) (flat formula) = true) by (vm_compute; reflexivity). rewrite forallb_forall in R.
  apply Forall_forall. intros t I. rewrite Forall_forall in F. destruct (F t I) as [X|X]; [rewrite (R t I) in X; discriminate|exact X].
Qed.
