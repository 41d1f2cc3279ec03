(** Property C43: scanning covers the input, and C50: what is printed scans back. *)
From Coq Require Import List NArith Bool String Lia.
Import ListNotations.
From Verif Require Import Scanner ScannerProofs.
Local Open Scope N_scope.

(** ** What the tokens of a text are, without the scanner *)
Section Spec.
Context (alnum : N -> bool).
Notation lexeme := (lexeme alnum).
Notation longest := (longest alnum).

(** The tokens of the rest of a line after [pre]; [first] says that [pre] is blank.  Blanks are skipped, every other
    piece is the longest token there is (or an invalid character), and the line ends in a newline token. *)
Inductive tokens_of (line : str) (number : N) : str -> bool -> str -> list token -> Prop :=
| end_of_line pre first : tokens_of line number pre first [] [Token NewLine line number (bytes pre) 0]
| skip_blank pre first c r ts : blank c -> tokens_of line number (pre ++ [c]) first r ts -> tokens_of line number pre first (c :: r) ts
| one_token pre first s t rest ts : s <> [] -> (forall c r, s = c :: r -> ~ blank c) -> longest first s t rest ->
    tokens_of line number (pre ++ s) false rest ts ->
    tokens_of line number pre first (s ++ rest) (Token t line number (bytes pre) (bytes s) :: ts).

(** A text cut into lines: newlines, or carriage return and newline, between them; the last may have neither. *)
Definition cut (input : str) (parts : list (str * str)) : Prop :=
  input = flat_map (fun p => fst p ++ snd p) parts /\
  forall a l e b, parts = a ++ (l, e) :: b -> ~ In 10 l /\
    ((e = [10] /\ forall s, l <> s ++ [13]) \/ e = [13; 10] \/ (e = [] /\ b = [] /\ l <> [])).
Inductive scanned : N -> list (str * str) -> list token -> Prop :=
| no_lines n : scanned n [] []
| next_line n l e parts ts ts' : tokens_of l n [] true l ts -> scanned (n + 1) parts ts' -> scanned n ((l, e) :: parts) (ts ++ ts').

Context (Hp : plain_specials alnum).

Lemma small_u32 n : n < 4294967296 -> u32 n = n.
Proof. intros. apply N.mod_small. auto. Qed.

Lemma scan_line_spec line number : bytes line < 4294967296 -> ~ In 10 line -> forall fuel pre first s,
  line = pre ++ s -> (List.length s <= fuel)%nat ->
  exists ts, scan_line alnum fuel line number first (char_indices (bytes pre) s) = Some ts /\ tokens_of line number pre first s ts.
Proof.
  intros Hb Hn fuel. induction fuel as [|fuel IH]; intros pre first s El L.
  - destruct s; [|simpl in L; lia]. simpl. rewrite app_nil_r in El. subst. rewrite small_u32 by auto. eexists. split; [reflexivity|constructor].
  - destruct s as [|c s].
    + simpl. rewrite app_nil_r in El. subst. rewrite small_u32 by auto. eexists. split; [reflexivity|constructor].
    + cbn [char_indices scan_line].
      assert (Nl : ~ In 10 (c :: s)) by (intros C; apply Hn; rewrite El; apply in_or_app; auto).
      assert (Bl : c = 32 \/ c = 9 \/ ~ blank c) by (unfold blank; destruct (N.eq_dec c 32), (N.eq_dec c 9); tauto).
      assert (Skip : blank c -> exists ts, scan_line alnum fuel line number first (char_indices (bytes pre + utf8 c) s) = Some ts /\ tokens_of line number pre first (c :: s) ts).
      { intros Bc. destruct (IH (pre ++ [c]) first s) as (ts & E & T); [rewrite <- app_assoc; auto|simpl in L; lia|].
        rewrite bytes_app in E. cbn [bytes] in E. rewrite N.add_0_r in E. exists ts. split; auto. apply skip_blank; auto. }
      destruct Bl as [->|[->|Bl]]; [cbn [scan_char]; apply Skip; left; auto|cbn [scan_char]; apply Skip; right; auto|].
      destruct (scan_char_longest alnum Hp line first pre c s El Nl Bl) as (t & txt & rest & E & Nt & Es & Lg). rewrite Es.
      assert (El' : line = (pre ++ txt) ++ rest) by (rewrite <- app_assoc, <- E; auto).
      assert (Lb : bytes pre + bytes txt + bytes rest = bytes line) by (rewrite El', !bytes_app; auto).
      destruct (IH (pre ++ txt) false rest El') as (ts & E1 & T).
      { assert (List.length (c :: s) = (List.length txt + List.length rest)%nat) by (rewrite E, app_length; auto).
        destruct txt; [congruence|]. simpl in *. lia. }
      rewrite bytes_app in E1. rewrite E1. cbn [option_map]. rewrite position_indices by exact Lb. rewrite !small_u32 by lia.
      replace (bytes pre + bytes txt - bytes pre) with (bytes txt) by lia.
      eexists. split; [reflexivity|]. rewrite E. apply one_token; auto.
      intros d r ->. inversion E; subst. auto.
Qed.

Definition ending (p : str * bool) : str * str :=
  if snd p then (strip_return (fst p), if str_eqb (strip_return (fst p)) (fst p) then [10] else [13; 10]) else (fst p, []).
Lemma strip_eq l : (if str_eqb (strip_return l) l then [10] else [13; 10]) = [10] /\ strip_return l = l /\ (forall s, l <> s ++ [13]) \/
  (if str_eqb (strip_return l) l then [10] else [13; 10]) = [13; 10] /\ l = strip_return l ++ [13].
Proof.
  destruct (strip_spec l) as [[E N]|E].
  - left. rewrite E. assert (R : str_eqb l l = true) by (apply str_eqb_eq; auto). rewrite R. auto.
  - right. split; auto. destruct (str_eqb (strip_return l) l) eqn:C; auto. apply str_eqb_eq in C. rewrite C in E.
    exfalso. apply (f_equal (@List.length N)) in E. rewrite app_length in E. simpl in E. lia.
Qed.
Lemma cut_lines input : cut input (map ending (split_lines input)).
Proof.
  split.
  - rewrite <- (split_spells input) at 1. induction (split_lines input) as [|[l e] ls IH]; simpl; auto. rewrite IH. f_equal.
    unfold ending. cbn [fst snd]. destruct e; auto. cbn [fst snd]. destruct (strip_eq l) as [(E1 & E2 & _)|(E1 & E2)]; rewrite E1.
    + rewrite E2. auto.
    + rewrite E2 at 1. rewrite <- app_assoc. auto.
  - intros a l e b E.
    assert (Z : exists a' p b', split_lines input = a' ++ p :: b' /\ map ending a' = a /\ ending p = (l, e) /\ map ending b' = b).
    { clear -E. revert a E. induction (split_lines input) as [|p ls IH]; intros a E; [destruct a; discriminate|]. destruct a as [|x a]; inversion E; subst.
      - exists [], p, ls. auto.
      - destruct (IH a H1) as (a' & q & b' & E1 & E2 & E3 & E4). exists (p :: a'), q, b'. simpl. rewrite E1, E2. auto. }
    destruct Z as (a' & [l0 e0] & b' & E1 & _ & E2 & E3).
    assert (N0 : ~ In 10 l0) by (eapply (split_no_newline input l0 e0); rewrite E1; apply in_or_app; right; left; auto).
    unfold ending in E2. cbn [fst snd] in E2. destruct e0.
    + injection E2 as <- E2. destruct (strip_eq l0) as [(F1 & F2 & F3)|(F1 & F2)].
      * rewrite F2 in *. split; auto. left. split; congruence || auto.
      * split; [intros C; apply N0; rewrite F2; apply in_or_app; auto|]. right. left. congruence.
    + injection E2 as <- <-. split; auto. right. right. destruct (split_last _ _ _ _ E1) as [-> Nl]. auto.
Qed.
Lemma lines_map input : lines input = map fst (map ending (split_lines input)).
Proof. unfold lines. rewrite map_map. apply map_ext. intros [l []]; reflexivity. Qed.

(** Every text is cut into lines, and the scanner returns the tokens of each line, numbered from [start]; it never panics. *)
Theorem scanning_covers_the_input_ start input : bytes input < 4294967296 -> start + bytes input <= 4294967296 ->
  exists parts ts, cut input parts /\ scan alnum start input = Some ts /\ scanned start parts ts.
Proof.
  intros Hb Hs. exists (map ending (split_lines input)). pose proof (cut_lines input) as C.
  assert (G : forall parts n, (forall l e, In (l, e) parts -> ~ In 10 l /\ bytes l < 4294967296 /\ 1 <= bytes (l ++ e)) ->
    n + bytes (flat_map (fun p => fst p ++ snd p) parts) <= 4294967296 ->
    exists ts, scan_lines alnum n (map fst parts) = Some ts /\ scanned n parts ts).
  { induction parts as [|[l e] parts IH]; intros n H B; [exists []; split; [reflexivity|constructor]|].
    cbn [map fst scan_lines]. destruct (H l e (or_introl eq_refl)) as (Nl & Bl & Ll).
    cbn [flat_map fst snd] in B. rewrite bytes_app in B.
    destruct (scan_line_spec l n Bl Nl (List.length l) [] true l eq_refl (le_n _)) as (ts & E & T). cbn [bytes] in E.
    rewrite small_u32 by lia. rewrite E.
    destruct (IH (n + 1)) as (ts' & E' & T'); [intros; eapply H; right; eauto|lia|]. rewrite E'. eexists. split; [reflexivity|]. constructor; auto. }
  unfold scan. rewrite lines_map. destruct C as [C1 C2]. set (parts := map ending (split_lines input)) in *. clearbody parts. subst input. destruct (G parts start) as (ts & E & T); [|exact Hs|].
  - intros l e I. apply in_split in I. destruct I as (a & b & E). destruct (C2 _ _ _ _ E) as (Nl & Ce). split; auto.
    rewrite E, flat_map_app, bytes_app in Hb. cbn [flat_map fst snd] in Hb. rewrite !bytes_app in Hb. split; [lia|]. rewrite bytes_app.
    destruct Ce as [[-> _]|[->|(-> & _ & Ne)]]; [simpl; change (utf8 10) with 1; lia|simpl; change (utf8 10) with 1; lia|].
    destruct l as [|c l]; [congruence|]. simpl. pose proof (utf8_pos c). lia.
  - exists ts. split; [split; [reflexivity|exact C2]|auto].
Qed.

(** *** positions *)
Lemma token_pieces line number pre first rest ts : tokens_of line number pre first rest ts -> line = pre ++ rest ->
  Forall (fun t => t_line t = line /\ t_number t = number /\ exists a s b, line = a ++ s ++ b /\ t_start t = bytes a /\ t_len t = bytes s /\ bytes pre <= bytes a /\
    (s = [] -> t_type t = NewLine /\ b = [])) ts.
Proof.
  induction 1 as [pre first|pre first c r ts B T IH|pre first s t rest ts Ns Nb Lg T IH]; intros El.
  - constructor; [|constructor]. cbn. split; auto. split; auto. exists pre, [], []. rewrite app_nil_r in *. repeat split; auto. lia.
  - rewrite <- app_assoc in IH. specialize (IH El). eapply Forall_impl; [|exact IH]. intros x (E1 & E2 & a & s & b & E3 & E4 & E5 & E6 & E7).
    rewrite bytes_app in E6. split; auto. split; auto. exists a, s, b. repeat split; auto; try (apply E7; auto). lia.
  - rewrite <- app_assoc in IH. specialize (IH El). constructor.
    + cbn. split; auto. split; auto. exists pre, s, rest. repeat split; auto; try lia; congruence.
    + eapply Forall_impl; [|exact IH]. intros x (E1 & E2 & a & s' & b & E3 & E4 & E5 & E6 & E7).
      rewrite bytes_app in E6. split; auto. split; auto. exists a, s', b. repeat split; auto; try (apply E7; auto). lia.
Qed.

(** *** order *)
Definition before (a b : token) : Prop := t_number a < t_number b \/ (t_number a = t_number b /\ t_start a + t_len a <= t_start b /\ t_start a < t_start b).
Inductive ordered : list token -> Prop :=
| ordered_nil : ordered []
| ordered_cons t ts : Forall (before t) ts -> ordered ts -> ordered (t :: ts).
Lemma line_ordered line number pre first rest ts : tokens_of line number pre first rest ts -> line = pre ++ rest -> ordered ts.
Proof.
  induction 1 as [pre first|pre first c r ts B T IH|pre first s t rest ts Ns Nb Lg T IH]; intros El.
  - constructor; constructor.
  - apply IH. rewrite <- app_assoc. auto.
  - assert (El' : line = (pre ++ s) ++ rest) by (rewrite <- app_assoc; auto). constructor; auto.
    pose proof (token_pieces _ _ _ _ _ _ T El') as F. eapply Forall_impl; [|exact F].
    intros x (E1 & E2 & a & s' & b & E3 & E4 & E5 & E6 & _). right. cbn. rewrite E2, E4. rewrite bytes_app in E6. split; auto. split; [lia|].
    assert (bytes s <> 0) by (intros C; apply bytes_zero in C; contradiction). lia.
Qed.
Lemma scanned_numbers n parts ts : scanned n parts ts -> Forall (fun t => n <= t_number t) ts.
Proof.
  induction 1 as [|n l e parts ts ts' T _ IH]; [constructor|]. apply Forall_app. split.
  - pose proof (token_pieces _ _ _ _ _ _ T eq_refl) as F. eapply Forall_impl; [|exact F]. intros x (_ & -> & _). lia.
  - eapply Forall_impl; [|exact IH]. simpl. intros. lia.
Qed.
Lemma ordered_app a b : ordered a -> ordered b -> (forall x y, In x a -> In y b -> before x y) -> ordered (a ++ b).
Proof.
  induction 1 as [|t ts F O IH]; intros Ob H; simpl; auto. constructor; [|apply IH; auto; intros; apply H; simpl; auto].
  apply Forall_app. split; auto. apply Forall_forall. intros y Iy. apply H; simpl; auto.
Qed.
Lemma scanned_ordered n parts ts : scanned n parts ts -> ordered ts.
Proof.
  induction 1 as [|n l e parts ts ts' T S IH]; [constructor|]. apply ordered_app; auto.
  - eapply line_ordered; eauto.
  - intros x y Ix Iy. left. pose proof (token_pieces _ _ _ _ _ _ T eq_refl) as F. rewrite Forall_forall in F. destruct (F x Ix) as (_ & -> & _).
    pose proof (scanned_numbers _ _ _ S) as G. rewrite Forall_forall in G. specialize (G y Iy). lia.
Qed.

(** *** the tokens of a line are determined *)
Definition key_nodup (l : list (str * token_type)) : bool :=
  (fix go l := match l with [] => true | p :: r => forallb (fun q => negb (str_eqb (fst p) (fst q))) r && go r end) l.
Lemma key_unique l s t u : key_nodup l = true -> In (s, t) l -> In (s, u) l -> t = u.
Proof.
  induction l as [|[k v] l IH]; intros H I J; [contradiction|]. simpl in H. apply andb_true_iff in H. destruct H as [H1 H2].
  rewrite forallb_forall in H1.
  assert (Z : forall w, k = s -> In (s, w) l -> False).
  { intros w -> K. specialize (H1 _ K). simpl in H1. assert (str_eqb s s = true) by (apply str_eqb_eq; auto). rewrite H in H1. discriminate. }
  destruct I as [I|I], J as [J|J]; try (inversion I; subst); try (inversion J; subst); auto; exfalso; eapply Z; eauto.
Qed.
Lemma symbol_special c s t : In (c :: s, t) symbols -> In c specials.
Proof. simpl. intros I. repeat (destruct I as [I|I]; [inversion I; subst; simpl; tauto|]). contradiction. Qed.
Lemma word_plain c : word_char alnum c -> ~ In c specials.
Proof.
  intros W I. destruct W as [W|W]; [rewrite (Hp c I) in W; discriminate|]. subst. simpl in I. repeat (destruct I as [I|I]; [discriminate|]). contradiction.
Qed.
Lemma digit_plain c : digit c -> ~ In c specials.
Proof. unfold digit. intros D I. simpl in I. repeat (destruct I as [<-|I]; [lia|]). contradiction. Qed.
Lemma special_slash : In 47 specials.
Proof. simpl. tauto. Qed.
Lemma slashes_no_symbol r t : ~ In (47 :: 47 :: r, t) symbols.
Proof. simpl. intros I. repeat (destruct I as [I|I]; [inversion I|]). contradiction. Qed.
Lemma lexeme_functional first s t u : lexeme first s t -> lexeme first s u -> t = u.
Proof.
  intros L M.
  assert (Sy : forall s t u, In (s, t) symbols -> lexeme first s u -> In (s, u) symbols).
  { clear L M s t u. intros s t u I M. destruct M as [| s N D|c s t' D W K|c s D W K|s F|s F]; auto; exfalso.
    - destruct s as [|c s]; [congruence|]. inversion D; subst. eapply digit_plain; eauto. eapply symbol_special; eauto.
    - inversion W; subst. eapply word_plain; eauto. eapply symbol_special; eauto.
    - inversion W; subst. eapply word_plain; eauto. eapply symbol_special; eauto.
    - eapply slashes_no_symbol; eauto.
    - eapply slashes_no_symbol; eauto. }
  assert (Sl : forall r, ~ Forall (word_char alnum) (47 :: r)) by (intros r F; inversion F; subst; eapply word_plain; eauto; apply special_slash).
  assert (Dl : forall r, ~ Forall digit (47 :: r)) by (intros r F; inversion F; subst; eapply digit_plain; eauto; apply special_slash).
  destruct L as [s t I|s N D|c s t D W K|c s D W K|s F|s F].
  - apply (key_unique symbols s); auto. eapply Sy; eauto.
  - inversion M; subst; auto; try (exfalso; eapply Dl; eauto; fail).
    + exfalso. apply (Sy s u Numeral) in H; [|apply lex_numeral; auto]. simpl in H. repeat (destruct H as [H|H]; [discriminate|]). contradiction.
    + inversion D; contradiction.
    + inversion D; contradiction.
  - inversion M; subst; try (exfalso; eapply Sl; eauto; fail).
    + exfalso. apply symbol_special in H. inversion W; subst. eapply word_plain; eauto.
    + inversion H0; contradiction.
    + apply (key_unique keywords (c :: s)); auto.
    + exfalso. eapply H4; eauto.
  - inversion M; subst; try (exfalso; eapply Sl; eauto; fail); auto.
    + exfalso. apply symbol_special in H. inversion W; subst. eapply word_plain; eauto.
    + inversion H0; contradiction.
    + exfalso. eapply K; eauto.
  - inversion M; subst; auto.
    + exfalso. eapply slashes_no_symbol; eauto.
    + exfalso. eapply Dl; eauto.
    + exfalso. eapply Sl; eauto.
    + exfalso. eapply Sl; eauto.
    + destruct H0 as [C|C]; [discriminate|]. exfalso. eapply C. reflexivity.
  - inversion M; subst; auto.
    + exfalso. eapply slashes_no_symbol; eauto.
    + exfalso. eapply Dl; eauto.
    + exfalso. eapply Sl; eauto.
    + exfalso. eapply Sl; eauto.
    + destruct F as [C|C]; [discriminate|]. exfalso. eapply C. reflexivity.
Qed.
Lemma prefixes {A} (a b c d : list A) : a ++ b = c ++ d -> (exists m, c = a ++ m /\ b = m ++ d) \/ (exists m, a = c ++ m /\ d = m ++ b).
Proof.
  revert c. induction a as [|x a IH]; intros c E; [left; exists c; auto|]. destruct c as [|y c]; [right; exists (x :: a); auto|].
  inversion E; subst. destruct (IH c H1) as [(m & -> & ->)|(m & -> & ->)]; [left|right]; exists m; auto.
Qed.
Lemma longest_unique first s t rest s' t' rest' : s ++ rest = s' ++ rest' -> s <> [] -> s' <> [] -> longest first s t rest -> longest first s' t' rest' ->
  s = s' /\ t = t' /\ rest = rest'.
Proof.
  assert (G : forall s t rest s' t' rest', s ++ rest = s' ++ rest' -> s' <> [] -> longest first s t rest -> longest first s' t' rest' ->
     (exists m, s' = s ++ m /\ rest = m ++ rest') -> s = s' /\ t = t').
  { clear s t rest s' t' rest'. intros s t rest s' t' rest' E N L L' (m & -> & ->).
    destruct L as [[L M]|[-> (c & -> & M)]].
    - destruct L' as [[L' _]|[-> (c & E' & M')]].
      + destruct m as [|x m]; [rewrite app_nil_r in *; split; auto; eapply lexeme_functional; eauto|]. exfalso. eapply M; eauto. discriminate.
      + exfalso. destruct s as [|x s]; [eapply lexeme_nil; eauto|]. inversion E'. destruct s; [|discriminate]. cbn in H1. subst.
        eapply (M' [c] rest' t); [reflexivity|exact L].
    - destruct L' as [[L' _]|[-> (d & E' & M')]].
      + exfalso. eapply (M ([c] ++ m) rest' t'); [simpl; auto|exact L'].
      + inversion E'. destruct m; [auto|discriminate]. }
  intros E N N' L L'. destruct (prefixes _ _ _ _ E) as [P|(m & E1 & E2)].
  - destruct (G _ _ _ _ _ _ E N' L L' P) as [-> ->]. apply app_inv_head in E. auto.
  - destruct (G _ _ _ _ _ _ (eq_sym E) N L' L (ex_intro _ m (conj E1 E2))) as [-> ->]. apply app_inv_head in E. auto.
Qed.
Theorem tokens_are_determined_ line number pre first rest ts : tokens_of line number pre first rest ts ->
  forall ts', tokens_of line number pre first rest ts' -> ts = ts'.
Proof.
  induction 1 as [pre first|pre first c r ts B T IH|pre first s t rest ts Ns Nb Lg T IH]; intros ts' T'.
  - inversion T'; subst; auto. destruct s; [congruence|discriminate].
  - inversion T'; subst; auto. exfalso. destruct s as [|d s]; [congruence|]. inversion H; subst. eapply H1; eauto.
  - remember (s ++ rest) as w eqn:Ew. destruct T' as [|pre first c r ts' B T'|pre first s' t' rest' ts' Ns' Nb' Lg' T'].
    + destruct s; [congruence|discriminate].
    + exfalso. destruct s as [|d s]; [congruence|]. inversion Ew; subst. eapply Nb; eauto.
    + destruct (longest_unique _ _ _ _ _ _ _ (eq_sym Ew) Ns Ns' Lg Lg') as (-> & -> & ->). f_equal. auto.
Qed.
End Spec.

(** ** C43 *)
(** Every text (below the range of [u32]) is scanned without panic into the tokens of its lines. *)
Theorem scanning_covers_the_input :
  forall alnum, plain_specials alnum -> forall start input, bytes input < 4294967296 -> start + bytes input <= 4294967296 ->
  exists parts ts, cut input parts /\ scan alnum start input = Some ts /\ scanned alnum start parts ts.
Proof. exact scanning_covers_the_input_. Qed.
Print Assumptions scanning_covers_the_input.
(** There is only one such list of tokens for a line. *)
Theorem tokens_are_determined :
  forall alnum, plain_specials alnum -> forall line number ts ts',
  tokens_of alnum line number [] true line ts -> tokens_of alnum line number [] true line ts' -> ts = ts'.
Proof. intros alnum Hp line number ts ts' T T'. eapply tokens_are_determined_; eauto. Qed.
Print Assumptions tokens_are_determined.
(** Tokens come in order and do not overlap. *)
Theorem tokens_are_ordered :
  forall alnum n parts ts, scanned alnum n parts ts -> ordered ts.
Proof. intros. eapply scanned_ordered; eauto. Qed.
Print Assumptions tokens_are_ordered.

(** Every token's text and positions can be computed; they are those of its piece of the line. *)
Theorem token_texts_and_positions :
  forall alnum, plain_specials alnum -> forall start input ts, bytes input < 4294967296 -> start + bytes input <= 4294967296 ->
  scan alnum start input = Some ts ->
  forall t, In t ts -> exists a s b, t_line t = a ++ s ++ b /\ text t = Some s /\
    start_pos t = Some (t_number t, units a) /\ end_pos t = Some (t_number t, units a + units s).
Proof.
  intros alnum Hp start input ts Hb Hs E t It.
  destruct (scanning_covers_the_input alnum Hp start input Hb Hs) as (parts & ts' & [C _] & E' & Sc). rewrite E in E'. inversion E'; subst ts'. clear E E' Hs.
  assert (Hb' : bytes (flat_map (fun p => fst p ++ snd p) parts) < 4294967296) by (rewrite <- C; auto). clear C Hb.
  assert (U : forall s, units s <= bytes s).
  { induction s as [|c s IH]; simpl; [lia|]. enough (utf16 c <= utf8 c) by lia. pose proof (utf8_pos c). unfold utf16.
    destruct (c <? 65536) eqn:E1; [lia|]. unfold utf8. rewrite E1. apply N.ltb_ge in E1. replace (c <? 128) with false by (symmetry; apply N.ltb_ge; lia).
    replace (c <? 2048) with false by (symmetry; apply N.ltb_ge; lia). lia. }
  assert (Ua : forall a b, units (a ++ b) = units a + units b) by (induction a; intros; simpl; rewrite ?IHa; lia).
  induction Sc as [|n l e parts ts1 ts2 T Sc IH]; [contradiction|]. cbn [flat_map fst snd] in Hb'. rewrite !bytes_app in Hb'.
  apply in_app_or in It. destruct It as [It|It]; [|apply IH; auto; lia].
  pose proof (token_pieces _ _ _ _ _ _ _ T eq_refl) as F. rewrite Forall_forall in F. destruct (F t It) as (El & _ & a & s & b & Ea & Es & En & _).
  assert (B : bytes l = bytes a + bytes s + bytes b) by (rewrite Ea, !bytes_app; lia).
  assert (L : (t_start t + t_len t <? 4294967296) = true) by (apply N.ltb_lt; rewrite Es, En; lia).
  exists a, s, b. split; [congruence|]. unfold text, start_pos, end_pos. rewrite L, El, Ea, Es, En. split; [apply slice_app|]. split.
  - rewrite take_app. cbn [option_map]. rewrite small_u32; auto. specialize (U a). lia.
  - rewrite app_assoc, <- bytes_app, take_app. cbn [option_map]. rewrite small_u32, Ua; auto. specialize (U (a ++ s)). rewrite bytes_app in U. lia.
Qed.
Print Assumptions token_texts_and_positions.

(** The texts of the tokens of a line, with blanks between them, spell the line; the last is an empty newline token. *)
Fixpoint woven (gaps texts : list str) : str :=
  match gaps, texts with g :: gs, t :: ts => g ++ t ++ woven gs ts | _, _ => [] end.
Theorem texts_spell_the_line :
  forall alnum line number ts, bytes line < 4294967296 -> tokens_of alnum line number [] true line ts ->
  exists gaps texts, Forall (Forall blank) gaps /\ map text ts = map Some texts /\ List.length gaps = List.length texts /\
    woven gaps texts = line /\ exists ts' t, ts = ts' ++ [t] /\ t_type t = NewLine /\ text t = Some [].
Proof.
  intros alnum line number ts Hb T.
  assert (G : forall pre first rest, tokens_of alnum line number pre first rest ts -> line = pre ++ rest ->
    exists gaps texts, Forall (Forall blank) gaps /\ map text ts = map Some texts /\ List.length gaps = List.length texts /\
    woven gaps texts = rest /\ exists ts' t, ts = ts' ++ [t] /\ t_type t = NewLine /\ text t = Some []).
  { clear T. induction 1 as [pre first|pre first c r ts B T IH|pre first s t rest ts Ns Nb Lg T IH]; intros El.
    - exists [[]], [[]].
      assert (X : text (Token NewLine line number (bytes pre) 0) = Some []).
      { unfold text. cbn [t_start t_len t_line]. rewrite N.add_0_r. rewrite app_nil_r in El.
        replace (bytes pre <? 4294967296) with true by (symmetry; apply N.ltb_lt; rewrite <- El; auto). rewrite El.
        pose proof (slice_app pre [] []) as S. rewrite !app_nil_r, N.add_0_r in S. exact S. }
      split; [repeat constructor|]. split; [cbn [map]; rewrite X; auto|]. split; auto. split; auto. exists [], (Token NewLine line number (bytes pre) 0). auto.
    - destruct IH as (gaps & texts & G1 & G2 & G3 & G4 & G5); [rewrite <- app_assoc; auto|].
      destruct gaps as [|g gaps]; destruct texts as [|x texts]; try discriminate G3.
      + destruct G5 as (ts' & t & -> & _). rewrite map_app in G2. destruct (map text ts'); discriminate.
      + exists ((c :: g) :: gaps), (x :: texts). inversion G1; subst. split; [constructor; auto|]. split; auto. 
    - destruct IH as (gaps & texts & G1 & G2 & G3 & G4 & ts' & u & G5 & G6); [rewrite <- app_assoc; auto|].
      exists ([] :: gaps), (s :: texts). split; [constructor; auto|]. split.
      + cbn [map]. rewrite G2. f_equal. unfold text. cbn [t_start t_len t_line]. rewrite El, slice_app.
        replace (bytes pre + bytes s <? 4294967296) with true; auto. symmetry. apply N.ltb_lt. rewrite El, !bytes_app in Hb. lia.
      + split; [simpl; auto|]. split; [simpl; rewrite G4; auto|]. exists (Token t line number (bytes pre) (bytes s) :: ts'), u. rewrite G5. auto. }
  exact (G [] true line T eq_refl).
Qed.
Print Assumptions texts_spell_the_line.

(** ** C50: printing and scanning *)
Fixpoint spaced (l : list str) : str :=
  match l with [] => [] | s :: r => match r with [] => s | _ => s ++ 32 :: spaced r end end.
(** A token, not a comment. *)
Definition solid (alnum : N -> bool) (p : str * token_type) : Prop :=
  lexeme alnum false (fst p) (snd p) /\ snd p <> NewLine.
Definition token_type_dec (a b : token_type) : {a = b} + {a <> b}.
Proof. decide equality. Defined.
Section Print.
Context (alnum : N -> bool) (Hp : plain_specials alnum).
Lemma solid_first s t : solid alnum (s, t) -> forall first, lexeme alnum first s t.
Proof. intros [L N] first. cbn in *. inversion L; subst; try (econstructor; eauto; fail); congruence. Qed.
Lemma solid_shape s t : solid alnum (s, t) -> exists c r, s = c :: r /\ ~ In 32 s /\ ~ In 9 s /\ ~ In 10 s /\ ~ (exists r', s = 47 :: 47 :: r').
Proof.
  intros [L N]. cbn in *. 
  assert (W : forall l, Forall (word_char alnum) l -> ~ In 32 l /\ ~ In 9 l /\ ~ In 10 l /\ ~ (exists r', l = 47 :: 47 :: r')).
  { intros l F. rewrite Forall_forall in F. repeat split; try (intros I; apply F in I; revert I; intros I; eapply (word_plain alnum Hp); eauto; simpl; tauto).
    intros (r' & ->). eapply (word_plain alnum Hp); [apply F; left; reflexivity|simpl; tauto]. }
  inversion L; subst.
  - simpl in H. repeat (destruct H as [H|H]; [inversion H; subst; eexists; eexists; (split; [reflexivity|]); repeat split; try (simpl; intuition discriminate); intros (? & C); discriminate|]). contradiction.
  - destruct s as [|c r]; [congruence|]. exists c, r. split; auto. rewrite Forall_forall in H0. 
    repeat split; try (intros I; apply H0 in I; unfold digit in I; lia). intros (r' & E). inversion E; subst. specialize (H0 47 (or_introl eq_refl)). unfold digit in H0. lia.
  - eexists. eexists. split; [reflexivity|]. apply W. auto.
  - eexists. eexists. split; [reflexivity|]. apply W. auto.
  - congruence.
  - congruence.
Qed.
Lemma solid_longest s t rest first : solid alnum (s, t) -> (rest = [] \/ exists r, rest = 32 :: r) -> longest alnum first s t rest.
Proof.
  intros S R. left. split; [apply solid_first; auto|]. intros more rest' t' E Nm L.
  destruct (solid_shape _ _ S) as (c & r & -> & _ & _ & _ & Nc).
  destruct R as [->|[r0 ->]]; [destruct more; [congruence|discriminate]|]. destruct more as [|m more]; [congruence|]. inversion E; subst m.
  assert (I : In 32 ((c :: r) ++ 32 :: more)) by (apply in_or_app; right; left; auto).
  assert (Sp : In 32 specials) by (simpl; tauto).
  remember ((c :: r) ++ 32 :: more) as w eqn:Ew. destruct L as [w t' J|w N D|x w t' D W K|x w D W K|w F|w F].
  - simpl in J. repeat (destruct J as [J|J]; [injection J as J1 J2; rewrite <- J1 in I; simpl in I; intuition discriminate|]). contradiction.
  - rewrite Forall_forall in D. apply D in I. unfold digit in I. lia.
  - rewrite Forall_forall in W. apply W in I. eapply (word_plain alnum Hp); eauto.
  - rewrite Forall_forall in W. apply W in I. eapply (word_plain alnum Hp); eauto.
  - destruct r as [|y r]; inversion Ew; subst. apply Nc. eauto.
  - destruct r as [|y r]; inversion Ew; subst. apply Nc. eauto.
Qed.
Lemma spaced_tokens l line : bytes line < 4294967296 -> l <> [] -> Forall (solid alnum) l -> forall pre first, line = pre ++ spaced (map fst l) -> exists ts u, tokens_of alnum line 0 pre first (spaced (map fst l)) (ts ++ [u]) /\
  map t_type ts = map snd l /\ map text ts = map (fun p => Some (fst p)) l /\ t_type u = NewLine.
Proof.
  intros Hb. induction l as [|[s t] l IH]; intros Nl F pre first El; [congruence|]. pose proof (Forall_inv F) as S. pose proof (Forall_inv_tail F) as F'.
  destruct (solid_shape _ _ S) as (c & r & Es & N32 & N9 & _).
  assert (Nb : forall c r, s = c :: r -> ~ blank c) by (intros d r' E [->| ->]; [apply N32|apply N9]; rewrite E; left; auto).
  assert (Tx : forall rest, line = pre ++ s ++ rest -> text (Token t line 0 (bytes pre) (bytes s)) = Some s).
  { intros rest E. unfold text. cbn [t_start t_len t_line]. rewrite E at 1. rewrite slice_app.
    replace (bytes pre + bytes s <? 4294967296) with true; auto. symmetry. apply N.ltb_lt. rewrite E, !bytes_app in Hb. lia. }
  cbn [map fst spaced] in *. destruct l as [|p l].
  - cbn [map]. exists [Token t line 0 (bytes pre) (bytes s)], (Token NewLine line 0 (bytes (pre ++ s)) 0).
    split; [|cbn [map fst] in *; rewrite (Tx []) by (rewrite app_nil_r; auto); auto]. rewrite <- (app_nil_r s) at 1. cbn [app]. apply (one_token alnum line 0 pre first s t []); auto; [congruence|apply solid_longest; auto|constructor].
  - change (match map fst (p :: l) with [] => s | _ :: _ => s ++ 32 :: spaced (map fst (p :: l)) end) with (s ++ 32 :: spaced (map fst (p :: l))) in *.
    destruct (IH ltac:(discriminate) F' ((pre ++ s) ++ [32]) false) as (ts & u & T & E1 & E2 & E3); [rewrite <- !app_assoc; auto|].
    exists (Token t line 0 (bytes pre) (bytes s) :: ts), u. split; [|cbn [map fst snd t_type]; rewrite (Tx _ El); cbn [map] in E1, E2; rewrite E1, E2; auto].
    cbn [app]. apply one_token; auto; [congruence|apply solid_longest; eauto|]. apply skip_blank; [left; auto|exact T].
Qed.
End Print.

Lemma single_line s : ~ In 10 s -> s <> [] -> lines s = [s].
Proof.
  intros N E. unfold lines. enough (split_lines s = [(s, false)]) as -> by reflexivity. revert N E.
  induction s as [|c s IH]; intros N E; [congruence|]. simpl. destruct (N.eqb_spec c 10) as [->|]; [exfalso; apply N; left; auto|].
  destruct s as [|d s]; [reflexivity|]. rewrite IH; auto; [|discriminate]. intros I. apply N. right. auto.
Qed.
(** Tokens printed with spaces between them scan back: the same types and texts, then one newline token. *)
Theorem printed_tokens_scan_back :
  forall alnum, plain_specials alnum -> forall l, l <> [] -> Forall (solid alnum) l -> bytes (spaced (map fst l)) < 4294967296 ->
  exists ts u, scan alnum 0 (spaced (map fst l)) = Some (ts ++ [u]) /\ map t_type ts = map snd l /\ map text ts = map (fun p => Some (fst p)) l /\ t_type u = NewLine.
Proof.
  intros alnum Hp l Nl F Hb. set (input := spaced (map fst l)) in *.
  assert (Nn : ~ In 10 input).
  { unfold input. clear -F Hp. induction F as [|[s t] l S F IH]; [auto|]. destruct (solid_shape alnum Hp _ _ S) as (_ & _ & _ & _ & _ & N & _).
    cbn [map fst spaced]. destruct (map fst l); auto. intros I. apply in_app_or in I. destruct I as [I|[I|I]]; [auto|discriminate|auto]. }
  assert (Ni : input <> []).
  { unfold input. destruct l as [|[s t] l]; [congruence|]. inversion F; subst. destruct (solid_shape alnum Hp _ _ H1) as (c & r & -> & _).
    cbn [map fst spaced]. destruct (map fst l); discriminate. }
  assert (El : lines input = [input]).
  { apply single_line; auto. }
  unfold scan. rewrite El. cbn [scan_lines]. change (u32 0) with 0.
  destruct (scan_line_spec alnum Hp input 0 Hb Nn (List.length input) [] true input eq_refl (le_n _)) as (ts & E & T). cbn [bytes] in E. rewrite E.
  destruct (spaced_tokens alnum Hp l input Hb Nl F [] true eq_refl) as (ts1 & u & T1 & E1 & E2 & E3).
  pose proof (tokens_are_determined alnum Hp input 0 _ _ T T1) as ->. exists ts1, u. rewrite app_nil_r. auto.
Qed.
Print Assumptions printed_tokens_scan_back.

(** Every token type that has a text of its own is printed as a token of that type. *)
Definition has_text (t : token_type) : bool :=
  match t with Identifier | Invalid | Numeral | NewLine | DocComment => false | _ => true end.
Theorem printed_types_scan_back :
  forall alnum t, (forall c, 97 <= c <= 122 -> alnum c = true) -> has_text t = true -> solid alnum (to_str t, t).
Proof.
  intros alnum t La Ht. split; [|destruct t; discriminate].
  assert (G : forall s, existsb (fun p => str_eqb (fst p) s && (if token_type_dec (snd p) t then true else false)) symbols = true -> lexeme alnum false s t).
  { intros s E. apply existsb_exists in E. destruct E as ([k u] & I & E). apply andb_true_iff in E. destruct E as [E1 E2]. apply str_eqb_eq in E1.
    cbn in E1, E2. destruct (token_type_dec u t); [|discriminate]. subst. apply lex_symbol. auto. }
  assert (W : forall c s, forallb (fun c => (97 <=? c) && (c <=? 122)) (c :: s) = true -> keyword (c :: s) = Some t -> lexeme alnum false (c :: s) t).
  { intros c s E K. assert (F : forall x, In x (c :: s) -> 97 <= x <= 122).
    { intros x I. rewrite forallb_forall in E. specialize (E x I). apply andb_true_iff in E. rewrite !N.leb_le in E. auto. }
    apply lex_keyword; [|apply Forall_forall; intros x I; left; apply La; auto|apply keyword_in; auto]. 
    specialize (F c (or_introl eq_refl)). unfold digit. lia. }
  cbn [fst snd]. destruct t; try discriminate Ht; first [apply G; reflexivity|apply W; reflexivity].
Qed.
Print Assumptions printed_types_scan_back.

(** ** a case *)
Definition ascii_alnum (c : N) : bool :=
  ((48 <=? c) && (c <=? 57)) || ((65 <=? c) && (c <=? 90)) || ((97 <=? c) && (c <=? 122)) || (c =? 955).
Example plain_case : plain_specials ascii_alnum.
Proof. intros c I. simpl in I. repeat (destruct I as [<-|I]; [reflexivity|]). contradiction. Qed.
(** ["let λ1: 12ab->x∈s !// c" CR LF "  /// d" LF "!="]; λ is 955, ∈ is 8712 *)
Definition sample : str :=
  chars "let " ++ [955] ++ chars "1: 12ab->x" ++ [8712] ++ chars "s !// c" ++ [13; 10] ++ chars "  /// d" ++ [10] ++ chars "!=".
Example sample_case :
  option_map (map (fun t => (t_type t, t_number t, t_start t, t_len t))) (scan ascii_alnum 7 sample) =
  Some [(Let, 7, 0, 3); (Identifier, 7, 4, 3); (Colon, 7, 7, 1); (Numeral, 7, 9, 2); (Identifier, 7, 11, 2); (RightArrow, 7, 13, 2);
        (Identifier, 7, 15, 1); (ElemOf, 7, 16, 3); (Identifier, 7, 19, 1); (Invalid, 7, 21, 1); (NewLine, 7, 22, 4); (NewLine, 7, 26, 0);
        (DocComment, 8, 2, 5); (NewLine, 8, 7, 0); (NotEquals, 9, 0, 2); (NewLine, 9, 2, 0)] /\
  bytes sample < 4294967296 /\ 7 + bytes sample <= 4294967296.
Proof. repeat split; vm_compute; congruence. Qed.
Example positions_case :
  option_map (map end_pos) (scan ascii_alnum 0 [955; 32; 8712; 128512; 33; 61]) =
  Some [Some (0, 1); Some (0, 3); Some (0, 5); Some (0, 7); Some (0, 7)].
Proof. reflexivity. Qed.
(** "Scanning always puts a NewLine token at the end of the input" (728-730): not for the empty text. *)
Theorem empty_text_has_no_newline_refuted : forall alnum start, scan alnum start [] = Some [].
Proof. reflexivity. Qed.
Print Assumptions empty_text_has_no_newline_refuted.
Example printed_case : Forall (solid ascii_alnum) [(to_str Let, Let); ([955; 49], Identifier); (to_str Colon, Colon); (chars "12", Numeral)].
Proof.
  assert (La : forall c, 97 <= c <= 122 -> ascii_alnum c = true).
  { intros c [H1 H2]. unfold ascii_alnum. apply orb_true_iff. left. apply orb_true_iff. right. apply andb_true_iff. rewrite !N.leb_le. auto. }
  repeat apply Forall_cons; [..|apply Forall_nil].
  - apply printed_types_scan_back; auto.
  - split; [|discriminate]. apply lex_word; [unfold digit; lia| |intros t I; simpl in I; repeat (destruct I as [I|I]; [discriminate|]); contradiction].
    repeat apply Forall_cons; [left; reflexivity|left; reflexivity|apply Forall_nil].
  - apply printed_types_scan_back; auto.
  - split; [|discriminate]. apply lex_numeral; [discriminate|]. repeat apply Forall_cons; [unfold digit; simpl; lia|unfold digit; simpl; lia|apply Forall_nil].
Qed.

(** Beyond the range of [u32] positions wrap around: in a line of 2^32 + 1 parentheses two tokens start at 0. *)
Lemma parens_line alnum line number n : forall p first fuel, (n <= fuel)%nat -> p + N.of_nat n = bytes line ->
  scan_line alnum fuel line number first (char_indices p (repeat 40 n)) =
  Some (map (fun k => Token LeftParen line number (u32 (p + N.of_nat k)) (u32 1)) (seq 0 n) ++ [Token NewLine line number (u32 (bytes line)) 0]).
Proof.
  induction n as [|n IH]; intros p first fuel L B; [destruct fuel; reflexivity|]. destruct fuel as [|fuel]; [lia|].
  cbn [repeat char_indices scan_line scan_char]. change (utf8 40) with 1. rewrite IH by lia. cbn [option_map seq map app].
  assert (P : position_of line (char_indices (p + 1) (repeat 40 n)) = p + 1).
  { apply position_indices. replace (bytes (repeat 40 n)) with (N.of_nat n); [lia|]. clear. induction n; auto. cbn [repeat bytes]. change (utf8 40) with 1. lia. }
  rewrite P. replace (p + 1 - p) with 1 by lia. rewrite N.add_0_r. rewrite <- seq_shift, map_map. do 3 f_equal. apply map_ext. intros k. f_equal. f_equal. lia.
Qed.
Theorem long_lines_wrap_refuted :
  forall alnum, exists input ts a b, scan alnum 0 input = Some (a :: ts ++ [b; Token NewLine input 0 1 0]) /\
    t_start a = 0 /\ t_start b = 0 /\ t_type a = LeftParen /\ t_type b = LeftParen.
Proof.
  intros alnum. assert (HM : exists M, N.of_nat M = 4294967295) by (exists (N.to_nat 4294967295); apply N2Nat.id). destruct HM as [M HM].
  assert (B : forall n, bytes (repeat 40 n) = N.of_nat n) by (induction n; auto; cbn [repeat bytes]; change (utf8 40) with 1; lia).
  set (line := repeat 40 (S (M + 1))). exists line.
  assert (El : lines line = [line]).
  { apply single_line; [|discriminate]. intros I. apply repeat_spec in I. discriminate. }
  unfold scan. rewrite El. cbn [scan_lines]. change (u32 0) with 0.
  assert (Lb : bytes line = N.of_nat (S (M + 1))) by apply B.
  unfold line at 3. rewrite (parens_line alnum line 0 (S (M + 1)) 0 true); [|unfold line; rewrite repeat_length; auto|rewrite Lb; lia].
  replace (u32 (bytes line)) with 1 by (rewrite Lb; replace (N.of_nat (S (M + 1))) with 4294967297 by lia; reflexivity).
  change (seq 0 (S (M + 1))) with (0%nat :: seq 1 (M + 1)). rewrite seq_app. cbn [seq map app]. rewrite map_app. cbn [map].
  eexists. eexists. eexists. split; [rewrite app_nil_r, <- app_assoc; cbn [app]; reflexivity|]. cbn [t_start t_type]. repeat split.
  replace (0 + N.of_nat (1 + M)) with 4294967296 by lia. reflexivity.
Qed.
Print Assumptions long_lines_wrap_refuted.
