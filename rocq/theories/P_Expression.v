(** Properties C53 and C54: the expression parser keeps its tokens, is stable under printing, and reads back trees that respect the precedences. *)
From Coq Require Import List NArith ZArith Bool String Lia.
Import ListNotations.
From Verif Require Import Scanner P_Scanner Expression ExpressionProofs ExpressionTokens ExpressionFuel ExpressionRound.

(** ** C53 *)
(** The parser ends: its result does not depend on the fuel once there is enough for the number of tokens. *)
Theorem expression_parsing_ends :
  forall n ety tm ts, 4 * List.length ts + 2 <= n ->
  parse n ety tm ts <> Fuel /\ parse n ety tm ts = parse (4 * List.length ts + 2) ety tm ts.
Proof.
  intros n ety tm ts H. destruct (enough n) as (A & _). destruct (enough (4 * List.length ts + 2)) as (B & _).
  split; [apply A; exact H|]. destruct (more_fuel _ _ H) as (M & _). destruct (M ety tm ts) as [X|X]; [|exact X]. exfalso. apply (B ety tm ts); [lia|exact X].
Qed.
Print Assumptions expression_parsing_ends.

(** What the parser reads is a prefix ending in the first terminator it accepts, and the tokens of the expression are those of the prefix, in order, without newlines. *)
Theorem parsing_keeps_the_tokens :
  forall n ety tm ts e t rest, parse n ety tm ts = Ok (e, t, rest) -> matches tm Else_ = false -> Forall spelled ts -> plain ts ->
  exists pre, ts = pre ++ t :: rest /\ matches tm (fst t) = true /\ filter (fun t => negb (tt_eqb (fst t) NewLine)) pre = flat e /\ flat e <> [].
Proof.
  intros n ety tm ts e t rest H He Hs Hp. destruct (reads n) as (R & _). destruct (R _ _ _ _ _ _ H He Hs) as (pre & A & B & C & _ & D & _).
  exists pre. split; [exact A|]. split; [exact B|]. split; [exact (C Hp)|exact D].
Qed.
Print Assumptions parsing_keeps_the_tokens.

(** A parsed expression, printed and parsed again, is the same expression, whatever follows it. *)
Theorem printing_then_parsing_gives_the_same_expression :
  forall n ety tm ts e t rest, parse n ety tm ts = Ok (e, t, rest) -> matches tm Else_ = false -> Forall spelled ts ->
  forall tm' t' rest', matches tm' (fst t') = true -> matches tm' Else_ = false ->
    (forall ty, matches tm' ty = true -> matches tm ty = true \/ closer ty = true) -> (fst t' = NewLine -> fst t = NewLine) ->
    parse n ety tm' (flat e ++ t' :: rest') = Ok (e, t', rest').
Proof.
  intros n ety tm ts e t rest H He Hs tm' t' rest' A B C D. destruct (reads n) as (R & _). destruct (R _ _ _ _ _ _ H He Hs) as (_ & _ & _ & _ & _ & _ & F).
  apply F. repeat split; auto. unfold nl. intros X. apply tt_eqb_eq in X. rewrite (D X). reflexivity.
Qed.
Print Assumptions printing_then_parsing_gives_the_same_expression.

(** ** the repository's own tests, on the model *)
Definition toks (s : string) : list tok :=
  match scan ascii_alnum 0 (chars s) with Some l => map (fun t => (t_type t, match text t with Some x => x | None => [] end)) l | None => [] end.
Definition tok_eqb (a b : tok) : bool := tt_eqb (fst a) (fst b) && str_eqb (snd a) (snd b).
Fixpoint toks_eqb (a b : list tok) : bool :=
  match a, b with [], [] => true | x :: a, y :: b => tok_eqb x y && toks_eqb a b | _, _ => false end.
Definition read (ety : etype) (s : string) : pres (expr * tok * list tok) := parse (4 * List.length (toks s) + 2) ety [NewLine] (toks s).
Definition good (ety : etype) (s : string) : bool := match read ety s with Ok (x, t, rest) => toks_eqb (flat x ++ [t]) (toks s) | _ => false end.
Definition bad (ety : etype) (s : string) : bool := match read ety s with Err => true | _ => false end.
Open Scope string_scope.
(** expression.rs 2127-2460: check_value *)
Example values_case : forallb (good Value)
  ["p implies (q implies p)"; "(p implies (q implies r)) implies ((p implies q) implies (p implies r))"; "(p iff q) = ((p implies q) and (q implies p))"; "foo(x)(y)"; "foo(x, y + z, w)";
   "(not)(x)"; "(=)(x, y)"; "forall(x: Nat) { (suc(x) = x + 1) }"; "exists(f: (Nat, Nat) -> Nat) { (f(0, 0) = 0) }"; "p >= q"; "p implies forall(x: Nat) { x = x }";
   "f(forall(x: Nat) { x = x }, forall(y: Nat) { y = y })"; "NatPair.first(NatPair.new(a, b)) = a"; "foo(x).bar.baz"; "(a + b).c"; "a.b.c = Foo.bar(baz).qux"; "Rat.constraint(a, b)";
   "Foo.match(a)"; "x.match"; "if p { q } else { r }"; "if a = 0 { 0 } else { 1 }"; "if p { q }"; "match a { Foo.bar(b) { b } Foo.qux(b) { b } }"; "-1"; "-a - b"; "-(a - b)"; "a + -b";
   "a - -b"; "-a * b"; "foo(a implies b, c implies d)"; "foo[T]"; "List[T].new"; "map(add[Int], myList)"; "maps_to[Bool, Bool](not2, false)"; "forall(p: Pair[Bool, Bool]) { true }";
   "Pair[Foo, Bar].new(foo, bar)"; "List[Pair[T1, T2]].new(nil)"; "a? + b?"; "foo?.bar"; "function[T](x: T) { x }"; "function[T, U](x: T, y: U) { x }"; "function[T](x: T) { x }[Nat](5)";
   "function[T] { true }[Nat]"; "(=)"] = true.
Proof. vm_compute. reflexivity. Qed.
(** check_type *)
Example types_case : forallb (good Typ)
  ["Bool"; "Bool -> Bool"; "(Bool, Bool) -> Bool"; "List[List[T]]"; "List[List[X] -> List[Y], List[Y] -> List[X]]"; "List[(foo.Foo, bar.Bar) -> baz.Baz[Qux]]"; "Fin[0.suc]";
   "Matrix[T, 0.suc, 0.suc]"] = true.
Proof. vm_compute. reflexivity. Qed.
(** check_not_value, check_not_type *)
Example not_values_case : forallb (bad Value)
  ["forall(x: Nat) { }"; "+ + +"; "let a: int = x + 2"; "define (p & q) = !(p -> !q)"; "f()"; "f x"; "forall"; "function"; "if"; "if p"; "else"; "else { r }";
   "if p { q } else { r } else { s }"; "(1 +)"; "(!)"; "(+)"; "{ 1 }"; "forall(x: Nat)"; "forall(x: Nat) { x = x } { x }"; "1 + { 1 }"; "match a { }"; "a implies b implies c";
   "a implies b and c implies d"] = true /\ forallb (bad Typ) ["bool, bool -> bool ->"; "(!p -> !q) -> (q -> p)"] = true.
Proof. vm_compute. split; reflexivity. Qed.
(** What looks like type parameters, in values and in types. *)
Example angle_brackets_case : bad Value "x < ((a + b).c) > y" = true /\ good Value "x < ((a + b) + c) > y" = true /\ good Value "f<A, B -> lib.C>(x)" = true /\ good Typ "List<T>" = true /\
  good Typ "a > b" = true.
Proof. vm_compute. repeat split. Qed.

(** ** cases for C53 *)
Definition sample : list tok := toks "forall(x: Nat) { f(x, 0) = g(x) + -1 implies not x < y }".
Example sample_spelled : Forall spelled sample.
Proof. unfold sample. let l := eval vm_compute in (toks "forall(x: Nat) { f(x, 0) = g(x) + -1 implies not x < y }") in replace (toks _) with l by (vm_compute; reflexivity). repeat constructor. Qed.
Definition plainb (ts : list tok) : bool :=
  (fix go (l : list tok) : bool := match l with [] => true | a :: r =>
    (negb (tt_eqb (fst a) Function_) || negb (match r with b :: _ => tt_eqb (fst b) LessThan | [] => false end)) &&
    (negb (tt_eqb (fst a) RightBracket) || negb (match r with b :: c :: _ => tt_eqb (fst b) LeftParen && tt_eqb (fst c) RightParen | _ => false end)) && go r end) (nn ts).
Lemma plainb_plain ts : plainb ts = true -> plain ts.
Proof.
  unfold plainb, plain. generalize (nn ts). intros l H.
  split.
  - intros p a b q ->. induction p as [|x p IH]; intros Ha Hb; [|cbn [app] in H; apply andb_true_iff in H; destruct H as [_ H]; exact (IH H Ha Hb)].
    cbn in H. rewrite Ha, Hb in H. discriminate.
  - intros p a b c q ->. induction p as [|x p IH]; intros Ha Hb Hc; [|cbn [app] in H; apply andb_true_iff in H; destruct H as [_ H]; exact (IH H Ha Hb Hc)].
    cbn in H. rewrite Ha, Hb, Hc in H. cbn in H. discriminate.
Qed.
Example sample_plain : plain sample.
Proof. apply plainb_plain. vm_compute. reflexivity. Qed.
Example sample_parses : exists e t, parse (4 * List.length sample + 2) Value [NewLine] sample = Ok (e, t, []) /\ 20 <= List.length (flat e).
Proof. eexists _, _. split; [vm_compute; reflexivity|]. vm_compute. lia. Qed.
(** Newlines in brackets are dropped. *)
Example newlines_case : exists pre e, toks "f(
  x,
  y)" = (pre ++ [(NewLine, [])])%list /\ read Value "f(
  x,
  y)" = Ok (e, (NewLine, []), []) /\ List.length pre = 8 /\ List.length (flat e) = 6.
Proof. eexists [_; _; _; _; _; _; _; _], _. repeat split; vm_compute; reflexivity. Qed.

(** The angle brackets of [function<T>] become square ones, and empty parentheses after type parameters are lost. *)
Theorem function_brackets_change_refuted :
  (exists e t, read Value "function<T>(x: T) { x }" = Ok (e, t, []) /\ (flat e ++ [t])%list = toks "function[T](x: T) { x }") /\
  (exists e t, read Value "function[T]() { x }" = Ok (e, t, []) /\ (flat e ++ [t])%list = toks "function[T] { x }").
Proof. split; eexists _, _; (split; [vm_compute; reflexivity|]); vm_compute; reflexivity. Qed.
Print Assumptions function_brackets_change_refuted.

(** ** C54 *)
(** Every tree of words, operators, calls, type arguments, quantifiers and conditionals in which operators bind as their precedences say is what its own tokens parse to. *)
Theorem precedence_trees_read_back :
  forall ety e tm t rest n, wf ety e -> level_ok (spine e) -> outer tm -> matches tm (fst t) = true -> 4 * List.length (flat e ++ t :: rest)%list + 2 <= n ->
  parse n ety tm (flat e ++ t :: rest) = Ok (e, t, rest).
Proof. exact wf_parses. Qed.
Print Assumptions precedence_trees_read_back.

(** So there is only one such tree with these tokens. *)
Theorem tokens_determine_the_tree :
  forall ety e e', wf ety e -> level_ok (spine e) -> wf ety e' -> level_ok (spine e') -> flat e = flat e' -> e = e'.
Proof.
  intros ety e e' W L W' L' E.
  assert (O : outer [RightBrace]) by (apply outer_one; reflexivity).
  pose proof (wf_parses ety e [RightBrace] (gen RightBrace) [] _ W L O eq_refl (le_n _)) as P1.
  pose proof (wf_parses ety e' [RightBrace] (gen RightBrace) [] _ W' L' O eq_refl (le_n _)) as P2. rewrite E in P1. congruence.
Qed.
Print Assumptions tokens_determine_the_tree.

(** The code generator puts parentheses where they are needed: what it builds from trees that read back reads back, with three exceptions. *)
Theorem generated_binaries_read_back :
  forall l op r, connective op = true -> readable l -> readable r ->
  (forall t e, r = Unary t e -> right_ok (binary_precedence op) false (spine e)) ->
  (op = Implies -> forall a t b, l = Binary a t b -> fst t <> Implies) ->
  (op = LessThan -> forall y, In (PBinary y) (spine r) -> fst y <> GreaterThan) ->
  readable (generate_binary l op r) /\
  forall tm t rest n, outer tm -> matches tm (fst t) = true -> 4 * List.length (flat (generate_binary l op r) ++ t :: rest)%list + 2 <= n ->
  parse n Value tm (flat (generate_binary l op r) ++ t :: rest) = Ok (generate_binary l op r, t, rest).
Proof.
  intros l op r A B C D E F. pose proof (binary_readable l op r A B C D E F) as [W L]. split; [split; assumption|].
  intros tm t rest n O M N. apply wf_parses; assumption.
Qed.
Print Assumptions generated_binaries_read_back.
Theorem generated_unaries_read_back :
  forall op e, is_unary op = true -> readable e -> (forall t e', e = Unary t e' -> right_ok (unary_precedence op) false (spine e')) ->
  readable (generate_unary op e) /\
  forall tm t rest n, outer tm -> matches tm (fst t) = true -> 4 * List.length (flat (generate_unary op e) ++ t :: rest)%list + 2 <= n ->
  parse n Value tm (flat (generate_unary op e) ++ t :: rest) = Ok (generate_unary op e, t, rest).
Proof.
  intros op e A B C. pose proof (unary_readable op e A B C) as [W L]. split; [split; assumption|].
  intros tm t rest n O M N. apply wf_parses; assumption.
Qed.
Print Assumptions generated_unaries_read_back.

(** ** cases for C54 *)
Definition name (s : string) : expr := Singleton (Identifier, chars s).
Lemma name_readable s : readable (name s).
Proof. split; [apply WWord; reflexivity|apply level_single]. Qed.
Lemma no_unary l op r op' : forall t e, generate_binary l op r = Unary t e -> right_ok (binary_precedence op') false (spine e).
Proof. intros t e H. discriminate H. Qed.
Lemma name_no_unary s op : forall t e, name s = Unary t e -> right_ok (binary_precedence op) false (spine e).
Proof. intros t e H. discriminate H. Qed.
(** [(a + b) * c < d implies not (p or q)] *)
Definition product : expr := generate_binary (generate_binary (name "a") Plus (name "b")) Asterisk (name "c").
Definition formula : expr := generate_binary (generate_binary product LessThan (name "d")) Implies (generate_unary Not (generate_binary (name "p") Or (name "q"))).
Example formula_case : readable formula /\ (flat formula ++ [(NewLine, [])])%list = toks "(a + b) * c < d implies not (p or q)".
Proof.
  split; [|vm_compute; reflexivity].
  assert (P : readable product).
  { apply generated_binaries_read_back; [reflexivity| |apply name_readable|apply name_no_unary|discriminate|discriminate].
    apply generated_binaries_read_back; [reflexivity|apply name_readable|apply name_readable|apply name_no_unary|discriminate|discriminate]. }
  apply generated_binaries_read_back; [reflexivity| | | | |discriminate].
  - apply generated_binaries_read_back; [reflexivity|exact P|apply name_readable|apply name_no_unary|discriminate|]. intros _ y [H|[]]. discriminate H.
  - apply generated_unaries_read_back; [reflexivity| |discriminate].
    apply generated_binaries_read_back; [reflexivity|apply name_readable|apply name_readable|apply name_no_unary|discriminate|discriminate].
  - intros t e H. injection H as _ <-. intros p z b [<-|[]]. discriminate.
  - intros _ a t b H. injection H as _ <- _. discriminate.
Qed.
Example outer_case : outer [NewLine] /\ outer [RightBrace; By] /\ ~ outer [LessThan].
Proof.
  split; [|split].
  - intros ty H. unfold matches in H. cbn [existsb] in H. rewrite orb_false_r in H. apply tt_eqb_eq in H. auto.
  - intros ty H. unfold matches in H. cbn [existsb] in H. rewrite orb_false_r in H. apply orb_true_iff in H. left. destruct H as [H|H]; apply tt_eqb_eq in H; subst ty; reflexivity.
  - intros H. destruct (H LessThan eq_refl); discriminate.
Qed.

(** The exceptions are real.  A negation to the right of an equation swallows too little: [x = not a != b] is [(x = not a) != b]. *)
Theorem negation_on_the_right_refuted :
  readable (generate_unary Not (generate_binary (name "a") NotEquals (name "b"))) /\
  read Value "x = not a != b" = Ok (Binary (Binary (name "x") (gen Equals) (Unary (gen Not) (name "a"))) (gen NotEquals) (name "b"), (NewLine, []), []) /\
  (flat (generate_binary (name "x") Equals (generate_unary Not (generate_binary (name "a") NotEquals (name "b")))) ++ [(NewLine, [])])%list = toks "x = not a != b".
Proof.
  split; [|split; vm_compute; reflexivity].
  apply generated_unaries_read_back; [reflexivity| |discriminate].
  apply generated_binaries_read_back; [reflexivity|apply name_readable|apply name_readable|apply name_no_unary|discriminate|discriminate].
Qed.
Print Assumptions negation_on_the_right_refuted.
(** An implication to the left of an implication is printed without parentheses, and does not parse. *)
Theorem implication_on_the_left_refuted :
  let e := generate_binary (generate_binary (name "a") Implies (name "b")) Implies (name "c") in
  (flat e ++ [(NewLine, [])])%list = toks "a implies b implies c" /\ read Value "a implies b implies c" = Err.
Proof. split; vm_compute; reflexivity. Qed.
Print Assumptions implication_on_the_left_refuted.
(** Two comparisons as arguments look like type parameters, and do not parse. *)
Theorem comparisons_as_arguments_refuted :
  let e := generate_grouping [generate_binary (name "a") LessThan (name "b"); generate_binary (name "c") GreaterThan (name "d")] LeftParen RightParen in
  match e with Some e => flat e ++ [(NewLine, [])] | None => [] end%list = toks "(a < b, c > d)" /\ read Value "f(a < b, c > d)" = Err /\ bad Value "f(c > d, a < b)" = false.
Proof. repeat split; vm_compute; reflexivity. Qed.
Print Assumptions comparisons_as_arguments_refuted.
(** A question mark on a sum is printed without parentheses and applies to the last summand; a question mark before a minus does not parse. *)
Theorem question_marks_refuted :
  (flat (generate_unary QuestionMark (generate_binary (name "a") Plus (name "b"))) ++ [(NewLine, [])])%list = toks "a + b?" /\
  read Value "a + b?" = Ok (Binary (name "a") (gen Plus) (Unary (gen QuestionMark) (name "b")), (NewLine, []), []) /\
  read Value "a? - b" = Err /\ good Value "a? + b" = true.
Proof. repeat split; vm_compute; reflexivity. Qed.
Print Assumptions question_marks_refuted.
