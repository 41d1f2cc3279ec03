(** The expression parser reads a stretch of tokens, keeps all of them but newlines, and does not look further. *)
From Coq Require Import List NArith ZArith Bool Lia.
Import ListNotations.
From Verif Require Import Scanner Expression ExpressionProofs.

Definition nl (t : tok) : bool := tt_eqb (fst t) NewLine.
(** the tokens without newlines *)
Definition nn (ts : list tok) : list tok := filter (fun t => negb (nl t)) ts.
(** the text of a token is that of its type, except for words, numbers and comments *)
Definition spelled (t : tok) : Prop :=
  match fst t with Identifier | Numeral | Invalid | NewLine | DocComment => True | ty => snd t = to_str ty end.
(** no [function<], which is printed with square brackets, and no [] ()], where the parentheses are not printed *)
Definition plain (ts : list tok) : Prop :=
  (forall p a b q, nn ts = p ++ a :: b :: q -> fst a = Function_ -> fst b <> LessThan) /\
  (forall p a b c q, nn ts = p ++ a :: b :: c :: q -> fst a = RightBracket -> fst b = LeftParen -> fst c <> RightParen).

Lemma nn_app a b : nn (a ++ b) = nn a ++ nn b.
Proof. apply filter_app. Qed.
Lemma nn_cons t l : nl t = false -> nn (t :: l) = t :: nn l.
Proof. intros H. unfold nn. simpl. rewrite H. reflexivity. Qed.
Lemma nn_nl t l : nl t = true -> nn (t :: l) = nn l.
Proof. intros H. unfold nn. simpl. rewrite H. reflexivity. Qed.
Lemma plain_app p q : plain (p ++ q) -> plain q.
Proof.
  intros [A B]. rewrite nn_app in A, B. split.
  - intros p' a b q' E. apply (A (nn p ++ p') a b q'). rewrite E, app_assoc. reflexivity.
  - intros p' a b c q' E. apply (B (nn p ++ p') a b c q'). rewrite E, app_assoc. reflexivity.
Qed.
Lemma plain_cons t q : plain (t :: q) -> plain q.
Proof. apply (plain_app [t]). Qed.
Notation alls := (Forall spelled).
Lemma alls_app p q : alls (p ++ q) -> alls q.
Proof. rewrite Forall_app. tauto. Qed.
Lemma alls_cons t q : alls (t :: q) -> alls q.
Proof. apply (alls_app [t]). Qed.
Lemma alls_at p t q : alls (p ++ t :: q) -> spelled t.
Proof. intros H. apply alls_app in H. inversion H; auto. Qed.
Lemma alls_here t q : alls (t :: q) -> spelled t.
Proof. apply (alls_at []). Qed.
Lemma spelled_gen ty t : fst t = ty -> spelled t -> match ty with Identifier | Numeral | Invalid | NewLine | DocComment => True | _ => t = gen ty end.
Proof. destruct t as [a x]. cbn. intros ->. unfold spelled, gen. cbn. destruct ty; auto; intros ->; reflexivity. Qed.
Lemma nl_type t ty : fst t = ty -> ty <> NewLine -> nl t = false.
Proof. intros <- H. apply tt_eqb_neq. exact H. Qed.
Lemma matches_one ty t : matches [ty] t = true -> t = ty.
Proof. unfold matches. cbn. rewrite orb_false_r. apply tt_eqb_eq. Qed.
Lemma matches_two a b t : matches [a; b] t = true -> t = a \/ t = b.
Proof. unfold matches. cbn. rewrite orb_false_r, orb_true_iff, !tt_eqb_eq. auto. Qed.

Lemma skip_spec ts : exists p, ts = p ++ skip_newlines ts /\ nn p = [] /\ match skip_newlines ts with t :: _ => nl t = false | [] => True end.
Proof.
  induction ts as [|x ts IH]; [exists []; repeat split|]. destruct IH as (p & E & N & H). cbn [skip_newlines]. change (tt_eqb (fst x) NewLine) with (nl x). destruct (nl x) eqn:En.
  - exists (x :: p). rewrite nn_nl; auto. split; [|auto]. simpl. congruence.
  - exists []. repeat split. exact En.
Qed.
Lemma skip_id t ts : nl t = false -> skip_newlines (t :: ts) = t :: ts.
Proof. intros H. simpl. fold (nl t). rewrite H. reflexivity. Qed.
Lemma expect_ok ty ts t r : expect ty ts = Ok (t, r) -> ts = t :: r /\ fst t = ty.
Proof. destruct ts as [|x l]; [discriminate|]. simpl. destruct (tt_eqb (fst x) ty) eqn:E; [|discriminate]. apply tt_eqb_eq in E. intros H. injection H as <- <-. auto. Qed.
Lemma expect_here ty t r : fst t = ty -> expect ty (t :: r) = Ok (t, r).
Proof. intros <-. simpl. rewrite tt_eqb_refl. reflexivity. Qed.
Lemma peeks_ok ty ts : peeks ty ts = true -> exists t r, ts = t :: r /\ fst t = ty.
Proof. destruct ts as [|t r]; [discriminate|]. simpl. rewrite tt_eqb_eq. eauto. Qed.

Definition decl_flat (d : declaration expr) : list tok := match d with Typed name ty => name :: gen Colon :: flat ty | SelfDecl t => [t] end.
Definition param_flat (p : type_param expr) : list tok :=
  match p with TParam name ty class =>
    match ty with Some e => flat e | None => [name] end ++ match class with Some e => gen Colon :: flat e | None => [] end end.
Definition args_flat (l : list (declaration expr)) : list tok := gen LeftParen :: commas (map decl_flat l) ++ [gen RightParen].
Definition case_flat (c : expr * expr) : list tok := let (p, e) := c in flat p ++ gen LeftBrace :: flat e ++ [gen RightBrace].
Lemma flat_binder t l e rb : flat (Binder t l e rb) = t :: args_flat l ++ gen LeftBrace :: flat e ++ [gen RightBrace].
Proof. reflexivity. Qed.
Lemma flat_generic t ps l e rb : flat (GenericBinder t ps l e rb) =
    t :: gen LeftBracket :: commas (map param_flat ps) ++ gen RightBracket :: (match l with [] => [] | _ => args_flat l end) ++
    gen LeftBrace :: flat e ++ [gen RightBrace].
Proof. reflexivity. Qed.
Lemma flat_match t s cases rb : flat (Match t s cases rb) = gen Match_ :: flat s ++ gen LeftBrace :: flat_map case_flat cases ++ [gen RightBrace].
Proof. reflexivity. Qed.
Lemma commas_cons x l : l <> [] -> commas (x :: l) = x ++ gen Comma :: commas l.
Proof. destruct l; [congruence|reflexivity]. Qed.

Definition solid_tokens (q : list tok) : Prop := Forall (fun t => nl t = false) q.
(** token types that never stand inside an expression, other than in brackets *)
Definition closer (ty : token_type) : bool :=
  match ty with LeftBrace | RightBrace | RightParen | RightBracket | Colon | By | Satisfy => true | _ => false end.
(** what ended at [t] for the terminators [tm] may end at [t'] for [tm'] *)
Definition ends (t : tok) (tm : list token_type) (t' : tok) (tm' : list token_type) : Prop :=
  matches tm' (fst t') = true /\ matches tm' Else_ = false /\
  (forall ty, matches tm' ty = true -> matches tm ty = true \/ closer ty = true) /\ (nl t' = true -> nl t = true).
Section Reads.
Context (n : nat).
Definition reads_parse := forall ety tm ts e t rest, parse n ety tm ts = Ok (e, t, rest) -> matches tm Else_ = false -> alls ts ->
  exists pre, ts = pre ++ t :: rest /\ matches tm (fst t) = true /\ (plain ts -> nn pre = flat e) /\ solid_tokens (flat e) /\ flat e <> [] /\
    forall tm' t' rest', ends t tm t' tm' -> parse n ety tm' (flat e ++ t' :: rest') = Ok (e, t', rest').
Definition reads_partials := forall ety tm acc ts ps t rest, partials n ety tm acc ts = Ok (ps, t, rest) -> matches tm Else_ = false -> alls ts ->
  exists pre q, ts = pre ++ t :: rest /\ matches tm (fst t) = true /\ (plain ts -> nn pre = q) /\ (q = [] -> nn pre = []) /\ solid_tokens q /\
    pflats ps = pflats acc ++ q /\ (Forall pok acc -> Forall pok ps) /\
    forall tm' t' rest', ends t tm t' tm' -> partials n ety tm' acc (q ++ t' :: rest') = Ok (ps, t', rest').
Definition reads_declarations := forall ts l rest, declarations n ts = Ok (l, rest) -> alls ts ->
  exists pre t, ts = pre ++ t :: rest /\ fst t = RightParen /\ l <> [] /\ (plain ts -> nn pre = commas (map decl_flat l)) /\
    solid_tokens (commas (map decl_flat l)) /\ forall rest', declarations n (commas (map decl_flat l) ++ gen RightParen :: rest') = Ok (l, rest').
Definition reads_type_params := forall close ts l rest, close = RightBracket \/ close = GreaterThan -> type_params n close ts = Ok (l, rest) -> alls ts ->
  exists pre t, ts = pre ++ t :: rest /\ fst t = close /\ l <> [] /\ (plain ts -> nn pre = commas (map param_flat l)) /\
    solid_tokens (commas (map param_flat l)) /\
    forall rest', type_params n RightBracket (commas (map param_flat l) ++ gen RightBracket :: rest') = Ok (l, rest').
Definition reads_block := forall ts e t rest, value_block n ts = Ok (e, t, rest) -> alls ts ->
  exists pre, ts = pre ++ t :: rest /\ t = gen RightBrace /\ (plain ts -> nn pre = flat e) /\ solid_tokens (flat e) /\
    forall rest', value_block n (flat e ++ gen RightBrace :: rest') = Ok (e, t, rest').
Definition reads_cases := forall ts l t rest, match_cases n ts = Ok (l, t, rest) -> alls ts ->
  exists pre, ts = pre ++ t :: rest /\ t = gen RightBrace /\ (plain ts -> nn pre = flat_map case_flat l) /\ solid_tokens (flat_map case_flat l) /\
    forall rest', match_cases n (flat_map case_flat l ++ gen RightBrace :: rest') = Ok (l, t, rest').
End Reads.

Lemma parse_S n ety tm ts : parse (S n) ety tm ts = parse_step (partials n) ety tm ts.
Proof. reflexivity. Qed.
Lemma partials_S n ety tm acc ts : partials (S n) ety tm acc ts =
  partials_step (parse n) (partials n) (declarations n) (type_params n) (value_block n) (match_cases n) ety tm acc ts.
Proof. reflexivity. Qed.
Lemma declarations_S n ts : declarations (S n) ts = declarations_step (parse n) (declarations n) ts.
Proof. reflexivity. Qed.
Lemma type_params_S n close ts : type_params (S n) close ts = type_params_step (parse n) (type_params n) close ts.
Proof. reflexivity. Qed.
Lemma value_block_S n ts : value_block (S n) ts = value_block_step (parse n) ts.
Proof. reflexivity. Qed.
Lemma match_cases_S n ts : match_cases (S n) ts = match_cases_step (parse n) (value_block n) (match_cases n) ts.
Proof. reflexivity. Qed.

Lemma flat_some e : flat e <> [].
Proof.
  induction e; try discriminate; cbn [flat].
  - destruct (is_postfix (fst t)); [|discriminate]. intros H. apply app_eq_nil in H. destruct H. discriminate.
  - intros H. apply app_eq_nil in H. destruct H. discriminate.
  - intros H. apply app_eq_nil in H. tauto.
Qed.

Ltac pb H := match type of H with
  | pbind ?x _ = Ok _ => let E := fresh "E" in destruct x as [?a| | |] eqn:E; try discriminate H; cbn [pbind] in H
  end.

Lemma spelled_is t ty : fst t = ty -> spelled t -> match ty with Identifier | Numeral | Invalid | NewLine | DocComment => false | _ => true end = true -> t = gen ty.
Proof. intros E S H. pose proof (spelled_gen _ _ E S) as X. destruct ty; try discriminate; exact X. Qed.
Lemma solid_cons t q : nl t = false -> solid_tokens q -> solid_tokens (t :: q).
Proof. constructor; auto. Qed.
Lemma solid_app p q : solid_tokens p -> solid_tokens q -> solid_tokens (p ++ q).
Proof. intros. apply Forall_app. auto. Qed.
Lemma solid_nil : solid_tokens [].
Proof. constructor. Qed.
Ltac solid := repeat first [apply solid_nil | apply solid_app | apply solid_cons; [first [reflexivity|assumption]|] | assumption].
Lemma ends_same ty t : fst t = ty -> ty <> Else_ -> ends t [ty] t [ty].
Proof.
  intros <- H. unfold ends, matches. cbn [existsb]. rewrite tt_eqb_refl. repeat split; auto. rewrite orb_false_r. apply tt_eqb_neq. congruence.
Qed.
Lemma skip_solid q t r : solid_tokens q -> (q = [] -> nl t = false) -> skip_newlines (q ++ t :: r) = q ++ t :: r.
Proof. intros S H. destruct q as [|x q]; [apply skip_id; auto|]. inversion S; subst. apply skip_id. assumption. Qed.
(** an expression does not start with these *)
Lemma starts n ety tm x r y : parse n ety tm (x :: r) = Ok y -> matches tm (fst x) = false ->
  closer (fst x) = false /\ fst x <> Let /\ fst x <> Else_.
Proof.
  destruct n as [|[|n]]; try discriminate. rewrite parse_S. unfold parse_step. rewrite partials_S. unfold partials_step. cbv zeta. intros H M. rewrite M in H.
  destruct x as [ty tx]. cbn [fst] in *. destruct ty, ety; cbn in H; try discriminate H; repeat split; discriminate.
Qed.


Lemma parse_reads n : reads_partials n -> reads_parse (S n).
Proof.
  intros I ety tm ts e t rest H He Ha. rewrite parse_S in H. unfold parse_step in H. pb H. destruct a as [[ps t0] rest0]. pb H.
  destruct (_ && _) eqn:Ek; [|discriminate]. pb H. injection H as -> -> ->.
  destruct (I _ _ _ _ _ _ _ E He Ha) as (pre & q & A1 & A2 & A3 & A3' & A4 & A5 & A6 & A7). specialize (A6 (Forall_nil _)).
  exists pre. split; [exact A1|]. split; [exact A2|]. destruct (group_flat _ _ _ E0 A6) as [G1 G2].
  assert (F : flat e = q). { rewrite (combine_flat _ _ _ _ E1 G2), G1, A5. reflexivity. }
  rewrite F. split; [exact A3|]. split; [exact A4|]. split; [rewrite <- F; apply flat_some|].
  intros tm' t' rest' X. rewrite parse_S. unfold parse_step. rewrite (A7 _ _ _ X). cbn [pbind]. rewrite E0. cbn [pbind]. rewrite Ek, E1. reflexivity.
Qed.
Lemma block_reads n : reads_parse n -> reads_block (S n).
Proof.
  intros I ts e t rest H Ha. rewrite value_block_S in H. unfold value_block_step in H. cbv zeta in H. destruct (skip_spec ts) as (p & Ep & Np & Hp).
  destruct (peeks Let (skip_newlines ts)) eqn:El; [discriminate|]. rewrite Ep in Ha. pose proof (alls_app _ _ Ha) as Ha'.
  destruct (I _ _ _ _ _ _ H eq_refl Ha') as (pre & A1 & A2 & A3 & A4 & A5 & A6). apply matches_one in A2.
  rewrite A1 in Ha'. pose proof (spelled_is _ _ A2 (alls_at _ _ _ Ha') eq_refl) as ->.
  exists (p ++ pre). split; [rewrite Ep, A1, app_assoc; reflexivity|]. split; [reflexivity|]. split; [|split; [exact A4|]].
  - intros G. rewrite nn_app, Np. apply A3. apply (plain_app p). rewrite <- Ep. exact G.
  - intros rest'. rewrite value_block_S. unfold value_block_step. cbv zeta. rewrite skip_solid; [|exact A4|reflexivity].
    specialize (A6 [RightBrace] (gen RightBrace) rest' (ends_same _ _ A2 ltac:(discriminate))). rewrite A6.
    destruct (flat e) as [|x q] eqn:Ef; [congruence|]. cbn [app peeks]. destruct (tt_eqb (fst x) Let) eqn:Ex; [|reflexivity]. apply tt_eqb_eq in Ex.
    apply starts in A6; [|rewrite Ex; reflexivity]. tauto.
Qed.
Lemma cases_reads n : reads_parse n -> reads_block n -> reads_cases n -> reads_cases (S n).
Proof.
  intros I1 I5 I6 ts l t rest H Ha. rewrite match_cases_S in H. unfold match_cases_step in H. destruct (skip_spec ts) as (p & Ep & Np & Hp). rewrite Ep in Ha.
  apply alls_app in Ha. destruct (skip_newlines ts) as [|x r] eqn:Es; [discriminate|]. destruct (tt_eqb (fst x) RightBrace) eqn:Ex.
  - injection H as <- <- <-. apply tt_eqb_eq in Ex. pose proof (spelled_is _ _ Ex (alls_here _ _ Ha) eq_refl) as ->.
    exists p. split; [exact Ep|]. split; [reflexivity|]. split; [intros; exact Np|]. split; [solid|]. intros rest'. reflexivity.
  - pb H. destruct a as [[pat lb] ts1]. pb H. destruct a as [[e rb'] ts2]. pb H. destruct a as [[l' rb] ts3]. injection H as <- <- <-.
    destruct (I1 _ _ _ _ _ _ E eq_refl Ha) as (pre1 & A1 & A2 & A3 & A4 & A5 & A6). apply matches_one in A2. rewrite A1 in Ha.
    pose proof (spelled_is _ _ A2 (alls_at _ _ _ Ha) eq_refl) as ->. apply alls_app, alls_cons in Ha.
    destruct (I5 _ _ _ _ E0 Ha) as (pre2 & B1 & B2 & B3 & B4 & B5). rewrite B1 in Ha. apply alls_app, alls_cons in Ha. subst rb'.
    destruct (I6 _ _ _ _ E1 Ha) as (pre3 & C1 & C2 & C3 & C4 & C5).
    exists (p ++ pre1 ++ gen LeftBrace :: pre2 ++ gen RightBrace :: pre3).
    split; [rewrite Ep, A1, B1, C1; repeat (rewrite <- ?app_assoc; cbn [app]); reflexivity|].
    split; [exact C2|]. cbn [flat_map case_flat]. split; [|split; [solid|]].
    + intros G. rewrite Ep in G. apply plain_app in G. rewrite !nn_app, Np, nn_cons, nn_app, nn_cons by reflexivity. rewrite (A3 G).
      rewrite A1 in G. apply plain_app, plain_cons in G. rewrite (B3 G). rewrite B1 in G. apply plain_app, plain_cons in G. rewrite (C3 G).
      repeat (rewrite <- ?app_assoc; cbn [app]). reflexivity.
    + intros rest'. repeat (rewrite <- ?app_assoc; cbn [app]). rewrite match_cases_S. unfold match_cases_step.
      rewrite skip_solid; [|exact A4|reflexivity].
      specialize (A6 [LeftBrace] (gen LeftBrace) (flat e ++ gen RightBrace :: flat_map case_flat l' ++ gen RightBrace :: rest') (ends_same _ _ A2 ltac:(discriminate))).
      destruct (flat pat) as [|y q] eqn:Ef; [congruence|]. cbn [app] in *.
      destruct (tt_eqb (fst y) RightBrace) eqn:Ey.
      * exfalso. apply tt_eqb_eq in Ey. apply starts in A6; [|rewrite Ey; reflexivity]. rewrite Ey in A6. cbn in A6. destruct A6. discriminate.
      * rewrite A6. cbn [pbind]. rewrite B5. cbn [pbind]. rewrite C5. reflexivity.
Qed.

Lemma variable_name_nl t : variable_name t = true -> nl t = false.
Proof. unfold variable_name. destruct t as [ty x]. cbn. destruct ty; intros H; try discriminate; reflexivity. Qed.
Lemma declarations_reads n : reads_parse n -> reads_declarations n -> reads_declarations (S n).
Proof.
  intros I1 I3 ts l rest H Ha. rewrite declarations_S in H. unfold declarations_step in H. destruct ts as [|name ts]; [discriminate|].
  destruct (negb (variable_name name)) eqn:Ev; [discriminate|]. pose proof Ev as Ev'. apply negb_false_iff, variable_name_nl in Ev'.
  pb H. destruct a as [[d last] ts1].
  assert (D : exists pre, name :: ts = pre ++ last :: ts1 /\ matches [Comma; RightParen] (fst last) = true /\ (plain (name :: ts) -> nn pre = decl_flat d) /\
    solid_tokens (decl_flat d) /\
    forall rest', exists r, decl_flat d ++ last :: rest' = name :: r /\
     (if str_eqb (snd name) (to_str SelfToken) then
         match r with
         | last :: ts => if matches [Comma; RightParen] (fst last) then Ok (SelfDecl name, last, ts) else Err
         | [] => Err
         end
       else
         let* (_, ts) := expect Colon r in
         let* (e, last, ts) := parse n Typ [Comma; RightParen] ts in
         Ok (Typed name e, last, ts)) = Ok (d, last, rest')).
  { destruct (str_eqb (snd name) (to_str SelfToken)) eqn:Es.
    - destruct ts as [|x ts]; [discriminate|]. destruct (matches [Comma; RightParen] (fst x)) eqn:Em; [|discriminate]. injection E as <- <- <-.
      exists [name]. split; [reflexivity|]. split; [exact Em|]. rewrite nn_cons by exact Ev'. split; [reflexivity|]. split; [cbn; solid|].
      intros rest'. eexists. split; [reflexivity|]. cbn [app]. rewrite Em. reflexivity.
    - pb E. destruct a as [c ts2]. apply expect_ok in E0. destruct E0 as [-> Ec]. pb E. destruct a as [[e la] ts3]. injection E as <- <- <-.
      apply alls_cons in Ha. pose proof (spelled_is _ _ Ec (alls_here _ _ Ha) eq_refl) as ->. apply alls_cons in Ha.
      destruct (I1 _ _ _ _ _ _ E0 eq_refl Ha) as (pre & A1 & A2 & A3 & A4 & A5 & A6).
      exists (name :: gen Colon :: pre). split; [rewrite A1; reflexivity|]. split; [exact A2|]. rewrite !nn_cons by (assumption || reflexivity). cbn [decl_flat].
      split; [|split; [solid|]].
      + intros G. apply plain_cons, plain_cons in G. rewrite (A3 G). reflexivity.
      + intros rest'. eexists. split; [reflexivity|]. cbn [app]. rewrite (expect_here Colon) by reflexivity. cbn [pbind]. rewrite A6; [reflexivity|]. repeat split; auto. }
  destruct D as (pre & D1 & D2 & D3 & D5 & D4). rewrite D1 in Ha. pose proof (alls_at _ _ _ Ha) as Hl. apply alls_app, alls_cons in Ha.
  destruct (tt_eqb (fst last) RightParen) eqn:El.
  - injection H as <- <-. pose proof El as El'. apply tt_eqb_eq in El'. pose proof (spelled_is _ _ El' Hl eq_refl) as ->.
    exists pre, (gen RightParen). split; [exact D1|]. split; [reflexivity|]. split; [discriminate|]. split; [exact D3|]. split; [exact D5|].
    intros rest'. cbn [map commas]. destruct (D4 rest') as (r & -> & Er). rewrite declarations_S. unfold declarations_step. rewrite Ev, Er. reflexivity.
  - pb H. destruct a as [l' ts2]. injection H as <- <-. apply matches_two in D2. destruct D2 as [D2|D2]; [|rewrite D2 in El; discriminate].
    pose proof (spelled_is _ _ D2 Hl eq_refl) as ->.
    destruct (skip_spec ts1) as (p & Ep & Np & Hp). rewrite Ep in Ha. apply alls_app in Ha. destruct (I3 _ _ _ E0 Ha) as (pre2 & t & B1 & B2 & B3 & B4 & B5 & B6).
    exists (pre ++ gen Comma :: p ++ pre2), t. rewrite nn_app, nn_cons, nn_app, Np by reflexivity. cbn [app map].
    rewrite commas_cons by (destruct l'; [congruence|discriminate]).
    split; [rewrite D1, Ep, B1; repeat (rewrite <- ?app_assoc; cbn [app]); reflexivity|]. split; [exact B2|]. split; [discriminate|]. split; [|split; [solid|]].
    + intros G. rewrite (D3 G). rewrite D1 in G. apply plain_app, plain_cons in G. rewrite Ep in G. apply plain_app in G.
      rewrite (B4 G). reflexivity.
    + intros rest'. rewrite <- app_assoc. cbn [app]. destruct (D4 (commas (map decl_flat l') ++ gen RightParen :: rest')) as (r & -> & Er).
      rewrite declarations_S. unfold declarations_step.
      rewrite Ev, Er. cbn [pbind]. change (tt_eqb (fst (gen Comma)) RightParen) with false. cbv iota. rewrite skip_solid; [|exact B5|reflexivity]. rewrite B6. reflexivity.
Qed.

Lemma type_params_reads n : reads_parse n -> reads_type_params n -> reads_type_params (S n).
Proof.
  intros I1 I4 close ts l rest Hc H Ha. rewrite type_params_S in H. unfold type_params_step in H. pb H. destruct a as [name ts1].
  apply expect_ok in E. destruct E as [-> En]. pb H. destruct a as [ty ts2]. apply alls_cons in Ha.
  assert (Ln : nl name = false) by (apply (nl_type _ _ En); discriminate).
  assert (D : exists (pre q : list tok), ts1 = pre ++ ts2 /\ match ty with Some e => flat e | None => [name] end = name :: q /\ solid_tokens q /\ (plain ts1 -> nn pre = q) /\
    forall (x : tok) (rest' : list tok), fst x <> LeftBracket ->
    (if peeks LeftBracket (q ++ x :: rest') then
       match q ++ x :: rest' with
       | lb :: ts =>
         let* (e, rb, ts) := parse n Typ [RightBracket] ts in
         Ok (Some (Concatenation (Singleton name) (Grouping lb e rb)), ts)
       | [] => Err
       end
     else Ok (None, q ++ x :: rest')) = Ok (ty, x :: rest')).
  { destruct (peeks LeftBracket ts1) eqn:Ep.
    - apply peeks_ok in Ep. destruct Ep as (lb & r & -> & Elb). pb E. destruct a as [[e rb] ts3]. injection E as <- <-. apply alls_cons in Ha.
      destruct (I1 _ _ _ _ _ _ E0 eq_refl Ha) as (pre & A1 & A2 & A3 & A4 & A5 & A6). apply matches_one in A2.
      assert (L1 : nl lb = false) by (apply (nl_type _ _ Elb); discriminate). assert (L2 : nl rb = false) by (apply (nl_type _ _ A2); discriminate).
      exists (lb :: pre ++ [rb]), (lb :: flat e ++ [rb]). split; [rewrite A1; cbn [app]; rewrite <- app_assoc; reflexivity|]. split; [reflexivity|].
      split; [solid|]. split.
      + intros G. apply plain_cons in G. rewrite nn_cons, nn_app, nn_cons by assumption. rewrite (A3 G). reflexivity.
      + intros x rest' _. cbn [app peeks]. rewrite Elb. cbn [tt_eqb tt_index N.eqb Pos.eqb]. rewrite <- app_assoc. cbn [app]. rewrite A6; [reflexivity|].
        apply ends_same; [exact A2|discriminate].
    - injection E as <- <-. exists [], []. split; [reflexivity|]. split; [reflexivity|]. split; [solid|]. split; [reflexivity|].
      intros x rest' Hx. cbn [app peeks]. apply tt_eqb_neq in Hx. rewrite Hx. reflexivity. }
  destruct D as (pre & q & -> & D1 & D2 & D3 & D4). destruct ts2 as [|x ts2]; [discriminate|]. pb H. destruct a as [[class last] ts3].
  apply alls_app in Ha.
  assert (C : exists pre2, x :: ts2 = pre2 ++ last :: ts3 /\ solid_tokens (match class with Some e => gen Colon :: flat e | None => [] end) /\
    (plain (x :: ts2) -> nn pre2 = match class with Some e => gen Colon :: flat e | None => [] end) /\
    forall (la : tok) (rest' : list tok), (fst last = Comma /\ fst la = Comma) \/ (fst last = close /\ fst la = RightBracket) ->
     exists (y : tok) (r : list tok), match class with Some e => gen Colon :: flat e | None => [] end ++ la :: rest' = y :: r /\ fst y <> LeftBracket /\
     (if tt_eqb (fst y) Colon then
         let* (e, last, ts) := parse n Typ [Comma; RightBracket] r in Ok (Some e, last, ts)
       else Ok (None, y, r)) = Ok (class, la, rest')).
  { destruct (tt_eqb (fst x) Colon) eqn:Ex.
    - pb E0. destruct a as [[e la] ts4]. injection E0 as <- <- <-. apply tt_eqb_eq in Ex. pose proof (spelled_is _ _ Ex (alls_here _ _ Ha) eq_refl) as ->.
      apply alls_cons in Ha.
      destruct (I1 _ _ _ _ _ _ E1 ltac:(destruct Hc as [-> | ->]; reflexivity) Ha) as (pre2 & A1 & A2 & A3 & A4 & A5 & A6).
      exists (gen Colon :: pre2). split; [rewrite A1; reflexivity|]. split; [solid|]. split.
      + intros G. rewrite nn_cons by reflexivity. apply plain_cons in G. rewrite (A3 G). reflexivity.
      + intros la' rest' H1. eexists _, _. split; [reflexivity|]. split; [discriminate|]. cbn [tt_eqb gen fst tt_index N.eqb Pos.eqb app]. rewrite A6; [reflexivity|].
        assert (X : fst la' = Comma \/ fst la' = RightBracket) by tauto.
        split; [destruct X as [-> | ->]; reflexivity|]. split; [reflexivity|]. split.
        * intros ty0 M. apply matches_two in M. destruct M as [-> | ->]; [left; destruct close; reflexivity|right; reflexivity].
        * unfold nl. destruct X as [-> | ->]; discriminate.
    - injection E0 as <- <- <-. exists []. split; [reflexivity|]. split; [solid|]. split; [reflexivity|]. intros la rest' H1. eexists _, _. split; [reflexivity|].
      assert (X : fst la = Comma \/ fst la = RightBracket) by tauto.
      split; destruct X as [-> | ->]; try discriminate; reflexivity. }
  destruct C as (pre2 & C1 & C2 & C3 & C4).
  set (cl := match class with Some e => gen Colon :: flat e | None => [] end) in *.
  assert (T : forall (la : tok) (rest' : list tok), (fst last = Comma /\ fst la = Comma) \/ (fst last = close /\ fst la = RightBracket) ->
    type_params (S n) RightBracket (name :: q ++ cl ++ la :: rest') =
    (if tt_eqb (fst la) RightBracket then Ok ([TParam name ty class], rest')
    else if tt_eqb (fst la) Comma then let* (l, ts) := type_params n RightBracket rest' in Ok (TParam name ty class :: l, ts)
    else Err)).
  { intros la rest' Hla. rewrite type_params_S. unfold type_params_step. rewrite (expect_here Identifier) by exact En. cbn [pbind].
    destruct (C4 la rest' Hla) as (y & r & Er & Ey & Er'). rewrite Er. rewrite (D4 y r Ey). cbn [pbind]. rewrite Er'. reflexivity. }
  assert (PF : param_flat (TParam name ty class) = name :: q ++ cl). { cbn [param_flat]. rewrite D1. reflexivity. }
  pose proof Ha as Ha'. rewrite C1 in Ha'. apply alls_app in Ha'.
  destruct (tt_eqb (fst last) close) eqn:El.
  - injection H as <- <-. apply tt_eqb_eq in El. exists (name :: pre ++ pre2), last. cbn [map commas]. rewrite PF, nn_cons, nn_app by exact Ln.
    split; [rewrite C1; cbn [app]; rewrite app_assoc; reflexivity|]. split; [exact El|]. split; [discriminate|]. split; [|split; [solid|]].
    + intros G. apply plain_cons in G. rewrite (D3 G). apply plain_app in G. rewrite (C3 G). reflexivity.
    + intros rest'. cbn [app]. rewrite <- app_assoc. rewrite T; [reflexivity|]. right. auto.
  - destruct (tt_eqb (fst last) Comma) eqn:Ec; [|discriminate]. apply tt_eqb_eq in Ec. pb H. destruct a as [l' ts4]. injection H as <- <-.
    pose proof (spelled_is _ _ Ec (alls_here _ _ Ha') eq_refl) as ->. apply alls_cons in Ha'.
    destruct (I4 _ _ _ _ Hc E1 Ha') as (pre3 & t & B1 & B2 & B3 & B4 & B5 & B6).
    exists (name :: pre ++ pre2 ++ gen Comma :: pre3), t. cbn [map]. rewrite commas_cons by (destruct l'; [congruence|discriminate]). rewrite PF.
    rewrite nn_cons, !nn_app, nn_cons by (assumption || reflexivity).
    split; [rewrite C1, B1; repeat (rewrite <- ?app_assoc; cbn [app]); reflexivity|]. split; [exact B2|]. split; [discriminate|]. split; [|split; [solid|]].
    + intros G. apply plain_cons in G. rewrite (D3 G). apply plain_app in G. rewrite (C3 G). rewrite C1 in G. apply plain_app, plain_cons in G. rewrite (B4 G).
      cbn [app]. rewrite <- app_assoc. reflexivity.
    + intros rest'. repeat (rewrite <- ?app_assoc; cbn [app]). rewrite T by (left; auto). cbn [gen fst tt_eqb tt_index N.eqb Pos.eqb].
      rewrite B6. reflexivity.
Qed.

(** ** One token, or one bracketed group, at a time *)
Lemma partials_else n ety tm acc x r y : partials n ety tm acc (x :: r) = Ok y -> matches tm Else_ = false -> fst x <> Else_.
Proof.
  destruct n; [discriminate|]. rewrite partials_S. unfold partials_step. cbv zeta. destruct x as [ty tx]. cbn [fst]. intros H M ->. rewrite M in H. discriminate.
Qed.
Lemma operator_alone n ety op rp r y : is_operator_ref (fst op) = true -> fst rp = RightParen -> parse n ety [RightParen] (op :: rp :: r) <> Ok y.
Proof.
  intros H1 H2 H. destruct op as [ty tx], rp as [ty' tx']. cbn [fst] in *. subst ty'. destruct n as [|[|[|n]]]; try discriminate.
  - destruct ty; try discriminate H1; destruct ety; discriminate.
  - destruct ty; try discriminate H1; destruct ety; discriminate.
Qed.

Lemma go n ety tm acc acc' ts pre1 q1 ts2 ps t rest : reads_partials n ->
  partials n ety tm acc' ts2 = Ok (ps, t, rest) -> matches tm Else_ = false -> alls ts -> ts = pre1 ++ ts2 ->
  (plain ts -> nn pre1 = q1) -> (q1 = [] -> nn pre1 = []) -> solid_tokens q1 -> pflats acc' = pflats acc ++ q1 -> (Forall pok acc -> Forall pok acc') ->
  (forall q2 tm' t' rest', ends t tm t' tm' -> solid_tokens q2 -> (match ts2 with x :: _ => nl x = false | [] => True end -> q2 = [] -> nl t' = false) ->
     partials n ety tm' acc' (q2 ++ t' :: rest') = Ok (ps, t', rest') ->
     partials (S n) ety tm' acc (q1 ++ q2 ++ t' :: rest') = Ok (ps, t', rest')) ->
  exists pre q, ts = pre ++ t :: rest /\ matches tm (fst t) = true /\ (plain ts -> nn pre = q) /\ (q = [] -> nn pre = []) /\ solid_tokens q /\
    pflats ps = pflats acc ++ q /\ (Forall pok acc -> Forall pok ps) /\
    forall tm' t' rest', ends t tm t' tm' -> partials (S n) ety tm' acc (q ++ t' :: rest') = Ok (ps, t', rest').
Proof.
  intros I H He Ha -> H1 H2 H3 H4 H5 H6. destruct (I _ _ _ _ _ _ _ H He (alls_app _ _ Ha)) as (pre2 & q2 & A1 & A2 & A3 & A4 & A5 & A6 & A7 & A8).
  exists (pre1 ++ pre2), (q1 ++ q2). split; [rewrite A1, app_assoc; reflexivity|]. split; [exact A2|]. rewrite nn_app. split.
  { intros G. rewrite (H1 G), (A3 (plain_app _ _ G)). reflexivity. }
  split. { intros X. apply app_eq_nil in X. destruct X as [X Y]. rewrite (H2 X), (A4 Y). reflexivity. }
  split; [solid|]. split; [rewrite A6, H4, app_assoc; reflexivity|]. split; [auto|].
  intros tm' t' rest' X. rewrite <- app_assoc. apply (H6 q2 tm'); auto. intros Hh ->. specialize (A4 eq_refl). destruct X as (_ & _ & _ & X).
  destruct (nl t') eqn:El; [|reflexivity]. specialize (X eq_refl). rewrite A1 in Hh. destruct pre2 as [|x pre2]; [cbn in Hh; congruence|].
  cbn [app] in Hh. rewrite nn_cons in A4 by exact Hh. discriminate.
Qed.
Lemma pok_app acc l : Forall pok l -> Forall pok acc -> Forall pok (acc ++ l).
Proof. intros. apply Forall_app. auto. Qed.

Section Binder.
Context (n : nat) (I3 : reads_declarations n) (I4 : reads_type_params n).
Definition params_part (ty : token_type) (ts : list tok) : pres (list (type_param expr) * list tok) :=
  if tt_eqb ty Function_ then
    match ts with
    | d :: r =>
      if tt_eqb (fst d) LeftBracket then type_params n RightBracket r
      else if tt_eqb (fst d) LessThan then type_params n GreaterThan r
      else Ok ([], ts)
    | [] => Ok ([], ts)
    end
  else Ok ([], ts).
Definition args_part (params : list (type_param expr)) (ts : list tok) : pres (list (declaration expr) * list tok) :=
  if negb (match params with [] => true | _ => false end) && peeks LeftBrace ts then Ok ([], ts)
  else let* (_, ts) := expect LeftParen ts in
       let ts := skip_newlines ts in
       if peeks RightParen ts then Ok ([], tl ts) else declarations n ts.
Definition params_flat (params : list (type_param expr)) : list tok :=
  match params with [] => [] | _ => gen LeftBracket :: commas (map param_flat params) ++ [gen RightBracket] end.
Definition arguments_flat (params : list (type_param expr)) (args : list (declaration expr)) : list tok :=
  match params, args with _ :: _, [] => [] | _, _ => args_flat args end.

Lemma params_reads t0 ts params ts1 : params_part (fst t0) ts = Ok (params, ts1) -> alls ts -> nl t0 = false ->
  exists pre, ts = pre ++ ts1 /\ solid_tokens (params_flat params) /\ (plain (t0 :: ts) -> nn pre = params_flat params) /\
    (params <> [] -> plain (t0 :: ts) -> exists p b, pre = p ++ [b] /\ fst b = RightBracket) /\
    forall (x : tok) (r : list tok), fst x <> LeftBracket -> fst x <> LessThan -> params_part (fst t0) (params_flat params ++ x :: r) = Ok (params, x :: r).
Proof.
  intros H Ha L0. unfold params_part in H.
  assert (N : ts = ts1 -> params = [] -> (forall (x : tok) (r : list tok), fst x <> LeftBracket -> fst x <> LessThan -> params_part (fst t0) (params_flat [] ++ x :: r) = Ok ([], x :: r)) ->
    exists pre, ts = pre ++ ts1 /\ solid_tokens (params_flat params) /\ (plain (t0 :: ts) -> nn pre = params_flat params) /\
    (params <> [] -> plain (t0 :: ts) -> exists p b, pre = p ++ [b] /\ fst b = RightBracket) /\
    forall (x : tok) (r : list tok), fst x <> LeftBracket -> fst x <> LessThan -> params_part (fst t0) (params_flat params ++ x :: r) = Ok (params, x :: r)).
  { intros -> -> X. exists []. split; [reflexivity|]. split; [solid|]. split; [reflexivity|]. split; [congruence|]. exact X. }
  assert (X : forall (x : tok) (r : list tok), fst x <> LeftBracket -> fst x <> LessThan -> params_part (fst t0) (params_flat [] ++ x :: r) = Ok ([], x :: r)).
  { intros x r X1 X2. unfold params_part. cbn [params_flat app]. destruct (tt_eqb (fst t0) Function_); [|reflexivity].
    apply tt_eqb_neq in X1, X2. rewrite X1, X2. reflexivity. }
  destruct (tt_eqb (fst t0) Function_) eqn:Ef; [|injection H as <- <-; apply N; auto].
  destruct ts as [|d r]; [injection H as <- <-; apply N; auto|].
  assert (M : forall close, (close = RightBracket /\ fst d = LeftBracket) \/ (close = GreaterThan /\ fst d = LessThan) -> type_params n close r = Ok (params, ts1) ->
    exists pre, d :: r = pre ++ ts1 /\ solid_tokens (params_flat params) /\ (plain (t0 :: d :: r) -> nn pre = params_flat params) /\
    (params <> [] -> plain (t0 :: d :: r) -> exists p b, pre = p ++ [b] /\ fst b = RightBracket) /\
    forall (x : tok) (r : list tok), fst x <> LeftBracket -> fst x <> LessThan -> params_part (fst t0) (params_flat params ++ x :: r) = Ok (params, x :: r)).
  { intros close Hcl Hp. assert (Hcl' : close = RightBracket \/ close = GreaterThan) by tauto. pose proof (alls_here _ _ Ha) as Hd. apply alls_cons in Ha.
    destruct (I4 _ _ _ _ Hcl' Hp Ha) as (pre & t & A1 & A2 & A3 & A4 & A5 & A6).
    assert (PF : params_flat params = gen LeftBracket :: commas (map param_flat params) ++ [gen RightBracket]) by (destruct params; [congruence|reflexivity]).
    rewrite PF. exists (d :: pre ++ [t]). split; [rewrite A1; cbn [app]; rewrite <- app_assoc; reflexivity|]. split; [solid|].
    assert (B : plain (t0 :: d :: r) -> close = RightBracket /\ fst d = LeftBracket).
    { intros [G _]. destruct Hcl as [Hcl|[_ Hcl]]; [exact Hcl|]. exfalso. apply tt_eqb_eq in Ef. assert (Ld : nl d = false) by (apply (nl_type _ _ Hcl); discriminate).
      apply (G [] t0 d (nn r)); auto. rewrite !nn_cons by assumption. reflexivity. }
    split; [|split].
    - intros G. destruct (B G) as [-> Ed]. rewrite A1 in Ha. pose proof (spelled_is _ _ A2 (alls_at _ _ _ Ha) eq_refl) as ->.
      pose proof (spelled_is _ _ Ed Hd eq_refl) as ->. apply plain_cons, plain_cons in G. rewrite nn_cons, nn_app, (A4 G) by reflexivity. reflexivity.
    - intros _ G. destruct (B G) as [-> _]. exists (d :: pre), t. auto.
    - intros x r' _ _. unfold params_part. rewrite Ef. cbn [app]. change (tt_eqb (fst (gen LeftBracket)) LeftBracket) with true. cbv iota.
      rewrite <- app_assoc. apply A6. }
  destruct (tt_eqb (fst d) LeftBracket) eqn:E1; [apply tt_eqb_eq in E1; apply (M RightBracket); auto|].
  destruct (tt_eqb (fst d) LessThan) eqn:E2; [apply tt_eqb_eq in E2; apply (M GreaterThan); auto|]. injection H as <- <-. apply N; auto.
Qed.

Lemma args_reads params (p : list tok) ts args ts2 : args_part params ts = Ok (args, ts2) -> alls ts ->
  (params <> [] -> plain (p ++ ts) -> exists p' b, p = p' ++ [b] /\ fst b = RightBracket) ->
  exists pre, ts = pre ++ ts2 /\ solid_tokens (arguments_flat params args) /\ (plain (p ++ ts) -> nn pre = arguments_flat params args) /\
    forall r, args_part params (arguments_flat params args ++ gen LeftBrace :: r) = Ok (args, gen LeftBrace :: r).
Proof.
  unfold args_part. intros H Ha HB. destruct (negb _ && peeks LeftBrace ts) eqn:E.
  - injection H as <- <-. apply andb_true_iff in E. destruct E as [E1 E2]. destruct params as [|pa params]; [discriminate|]. exists []. split; [reflexivity|].
    split; [solid|]. split; reflexivity.
  - pb H. destruct a as [lp ts1]. apply expect_ok in E0. destruct E0 as [-> Elp]. cbv zeta in H.
    pose proof (spelled_is _ _ Elp (alls_here _ _ Ha) eq_refl) as ->. apply alls_cons in Ha.
    destruct (skip_spec ts1) as (s & Es & Ns & Hs).
    assert (Z : forall ps r, negb (match ps : list (type_param expr) with [] => true | _ => false end) && peeks LeftBrace (gen LeftParen :: r) = false).
    { intros ps r. apply andb_false_r. }
    destruct (peeks RightParen (skip_newlines ts1)) eqn:Er.
    + injection H as <- <-. apply peeks_ok in Er. destruct Er as (rp & r & Er & Erp). rewrite Er in *. cbn [tl]. rewrite Es in Ha. apply alls_app in Ha.
      pose proof (spelled_is _ _ Erp (alls_here _ _ Ha) eq_refl) as ->. exists (gen LeftParen :: s ++ [gen RightParen]).
      split; [rewrite Es; cbn [app]; rewrite <- app_assoc; reflexivity|]. split; [destruct params; cbn; solid|]. split.
      * intros G. rewrite nn_cons, nn_app, Ns, nn_cons by reflexivity. destruct params as [|pa params]; [reflexivity|]. exfalso.
        destruct (HB ltac:(discriminate) G) as (p' & b & -> & Eb). destruct G as [_ G]. assert (Lb : nl b = false) by (apply (nl_type _ _ Eb); discriminate).
        apply (G (nn p') b (gen LeftParen) (gen RightParen) (nn r)); auto.
        rewrite Es. rewrite <- app_assoc, nn_app. cbn [app]. rewrite !nn_cons by (assumption || reflexivity). rewrite nn_app, Ns, nn_cons by reflexivity. reflexivity.
      * intros r'. destruct params as [|pa params]; [|reflexivity]. reflexivity.
    + rewrite Es in Ha. apply alls_app in Ha. destruct (I3 _ _ _ H Ha) as (pre & t & A1 & A2 & A3 & A4 & A5 & A6).
      rewrite A1 in Ha. pose proof (spelled_is _ _ A2 (alls_at _ _ _ Ha) eq_refl) as ->.
      assert (AF : arguments_flat params args = args_flat args) by (unfold arguments_flat; destruct params, args; congruence || reflexivity).
      rewrite AF. unfold args_flat. exists (gen LeftParen :: s ++ pre ++ [gen RightParen]).
      split; [rewrite Es, A1; repeat (rewrite <- ?app_assoc; cbn [app]); reflexivity|]. split; [solid|]. split.
      * intros G. rewrite nn_cons, !nn_app, Ns by reflexivity. cbn [app]. apply plain_app, plain_cons in G. rewrite Es in G. apply plain_app in G. rewrite (A4 G).
        reflexivity.
      * intros r'. cbn [app]. rewrite Z. rewrite (expect_here LeftParen) by reflexivity. cbn [pbind]. rewrite <- app_assoc. cbn [app].
        rewrite skip_solid; [|exact A5|reflexivity]. specialize (A6 (gen LeftBrace :: r')).
        destruct (peeks RightParen (commas (map decl_flat args) ++ gen RightParen :: gen LeftBrace :: r')) eqn:Ep; [|exact A6]. exfalso. apply peeks_ok in Ep. destruct Ep as (x & y & Ex & Ey). rewrite Ex in A6.
        destruct n; [discriminate|]. rewrite declarations_S in A6. unfold declarations_step in A6. destruct x as [tx ty]. cbn in Ey. subst tx. discriminate.
Qed.
End Binder.

Lemma binder_flat t0 params args e rb : flat (match params with [] => Binder t0 args e rb | _ => GenericBinder t0 params args e rb end) =
  t0 :: params_flat params ++ arguments_flat params args ++ gen LeftBrace :: flat e ++ [gen RightBrace].
Proof.
  destruct params as [|p params]; [rewrite flat_binder; reflexivity|]. rewrite flat_generic. unfold params_flat, arguments_flat.
  destruct args; repeat (rewrite <- ?app_assoc; cbn [app]); reflexivity.
Qed.
Lemma partials_reads n : reads_parse n -> reads_partials n -> reads_declarations n -> reads_type_params n -> reads_block n -> reads_cases n -> reads_partials (S n).
Proof.
  intros I1 I2 I3 I4 I5 I6 ety tm acc ts ps t rest H He Ha. pose proof H as H0. rewrite partials_S in H. unfold partials_step in H. destruct ts as [|t0 ts]; [discriminate|].
  cbv zeta in H. destruct (matches tm (fst t0)) eqn:Em.
  { injection H as <- <- <-. exists [], []. split; [reflexivity|]. split; [exact Em|]. split; [reflexivity|]. split; [reflexivity|]. split; [solid|].
    split; [rewrite app_nil_r; reflexivity|]. split; [auto|]. intros tm' t' rest' X. rewrite partials_S. unfold partials_step. cbn [app]. cbv zeta.
    destruct X as (X & _). rewrite X. reflexivity. }
  assert (Hc : closer (fst t0) = false).
  { destruct (fst t0); try reflexivity; destruct ety; discriminate H. }
  assert (NM : forall t' tm', ends t tm t' tm' -> matches tm' (fst t0) = false).
  { intros t' tm' (_ & _ & X & _). destruct (matches tm' (fst t0)) eqn:E; [|reflexivity]. destruct (X _ E); congruence. }
  (* a group in brackets *)
  assert (Group : forall ety' close ts1 e rt ts2 (l : list partial), parse n ety' [close] ts1 = Ok (e, rt, ts2) -> close <> Else_ -> close <> NewLine -> nl t0 = false -> ts = ts1 ->
    partials n ety tm (acc ++ l) ts2 = Ok (ps, t, rest) -> pflats l = t0 :: flat e ++ [rt] -> Forall pok l ->
    (forall tm' r, matches tm' (fst t0) = false -> parse n ety' [close] (flat e ++ rt :: r) = Ok (e, rt, r) ->
       partials (S n) ety tm' acc (t0 :: flat e ++ rt :: r) = partials n ety tm' (acc ++ l) r) ->
    exists pre q, t0 :: ts = pre ++ t :: rest /\ matches tm (fst t) = true /\ (plain (t0 :: ts) -> nn pre = q) /\ (q = [] -> nn pre = []) /\ solid_tokens q /\
      pflats ps = pflats acc ++ q /\ (Forall pok acc -> Forall pok ps) /\
      forall tm' t' rest', ends t tm t' tm' -> partials (S n) ety tm' acc (q ++ t' :: rest') = Ok (ps, t', rest')).
  { intros ety' close ts1 e rt ts2 l E C1 C2 L0 -> E2 Fl Pl St. pose proof (alls_cons _ _ Ha) as Ha1.
    assert (C3 : matches [close] Else_ = false) by (unfold matches; cbn [existsb]; rewrite orb_false_r; apply tt_eqb_neq; congruence).
    destruct (I1 _ _ _ _ _ _ E C3 Ha1) as (pre & A1 & A2 & A3 & A4 & A5 & A6). apply matches_one in A2.
    assert (L1 : nl rt = false) by (apply (nl_type _ _ A2); assumption).
    apply (go n ety tm acc (acc ++ l) (t0 :: ts1) (t0 :: pre ++ [rt]) (t0 :: flat e ++ [rt]) ts2 ps t rest); auto.
    - rewrite A1. cbn [app]. rewrite <- app_assoc. reflexivity.
    - intros G. apply plain_cons in G. rewrite nn_cons, nn_app, nn_cons, (A3 G) by assumption. reflexivity.
    - discriminate.
    - solid.
    - rewrite flat_map_app, Fl. reflexivity.
    - apply pok_app. exact Pl.
    - intros q2 tm' t' rest' X S2 _ R. cbn [app]. rewrite <- app_assoc. cbn [app]. rewrite St; [exact R|apply (NM _ _ X)|]. apply A6. apply ends_same; assumption. }
  (* a single token *)
  assert (Single : forall (l : list partial), nl t0 = false -> partials n ety tm (acc ++ l) ts = Ok (ps, t, rest) -> pflats l = [t0] -> Forall pok l ->
    (forall tm' r, matches tm' (fst t0) = false -> partials (S n) ety tm' acc (t0 :: r) = partials n ety tm' (acc ++ l) r) ->
    exists pre q, t0 :: ts = pre ++ t :: rest /\ matches tm (fst t) = true /\ (plain (t0 :: ts) -> nn pre = q) /\ (q = [] -> nn pre = []) /\ solid_tokens q /\
      pflats ps = pflats acc ++ q /\ (Forall pok acc -> Forall pok ps) /\
      forall tm' t' rest', ends t tm t' tm' -> partials (S n) ety tm' acc (q ++ t' :: rest') = Ok (ps, t', rest')).
  { intros l L0 E Fl Pl St. apply (go n ety tm acc (acc ++ l) (t0 :: ts) [t0] [t0] ts ps t rest); auto.
    - intros _. rewrite nn_cons by exact L0. reflexivity.
    - discriminate.
    - solid.
    - rewrite flat_map_app, Fl. reflexivity.
    - apply pok_app. exact Pl.
    - intros q2 tm' t' rest' X S2 _ R. cbn [app]. rewrite St; [exact R|apply (NM _ _ X)]. }
  destruct (tt_eqb (fst t0) LeftBracket) eqn:E1.
  { pb H. destruct a as [[e rt] ts2]. pose proof E1 as E1'. apply tt_eqb_eq in E1'. eapply Group; [exact E|discriminate|discriminate|apply (nl_type _ _ E1'); discriminate|reflexivity|exact H| |repeat constructor|].
    - cbn. rewrite app_nil_r. reflexivity.
    - intros tm' r M P. rewrite partials_S. unfold partials_step. cbv zeta. rewrite M, E1, P. reflexivity. }
  destruct (tt_eqb (fst t0) LessThan && negb (in_value ety)) eqn:E2.
  { pb H. destruct a as [[e rt] ts2]. pose proof E2 as E2'. apply andb_true_iff in E2'. destruct E2' as [E2' _]. apply tt_eqb_eq in E2'.
    eapply Group; [exact E|discriminate|discriminate|apply (nl_type _ _ E2'); discriminate|reflexivity|exact H| |repeat constructor|].
    - cbn. rewrite app_nil_r. reflexivity.
    - intros tm' r M P. rewrite partials_S. unfold partials_step. cbv zeta. rewrite M, E1, E2, P. reflexivity. }
  destruct (is_binary (fst t0)) eqn:E3.
  { assert (L0 : nl t0 = false) by (unfold nl; destruct (fst t0); try discriminate E3; reflexivity).
    destruct (negb (binary_allowed ety (fst t0))) eqn:E4; [discriminate|]. destruct (is_unary (fst t0) && negb (ends_with_expr acc)) eqn:E5.
    - eapply Single; [exact L0|exact H|reflexivity| |].
      + repeat constructor. cbn. destruct (fst t0); try discriminate E3; reflexivity.
      + intros tm' r M. rewrite partials_S. unfold partials_step. cbv zeta. rewrite M, E1, E2, E3, E4, E5. reflexivity.
    - assert (St : forall tm' r, matches tm' (fst t0) = false -> partials (S n) ety tm' acc (t0 :: r) = partials n ety tm' (acc ++ [PBinary t0]) (if continues (fst t0) then skip_newlines r else r)).
      { intros tm' r M. rewrite partials_S. unfold partials_step. cbv zeta. rewrite M, E1, E2, E3, E4, E5. reflexivity. }
      destruct (continues (fst t0)) eqn:E6.
      + destruct (skip_spec ts) as (s & Es & Ns & Hs). apply (go n ety tm acc (acc ++ [PBinary t0]) (t0 :: ts) (t0 :: s) [t0] (skip_newlines ts) ps t rest); auto.
        * rewrite Es at 1. reflexivity.
        * intros _. rewrite nn_cons, Ns by exact L0. reflexivity.
        * discriminate.
        * solid.
        * rewrite flat_map_app. reflexivity.
        * apply pok_app. repeat constructor.
        * intros q2 tm' t' rest' X S2 Q R. cbn [app]. rewrite St; [|apply (NM _ _ X)]. rewrite skip_solid; [exact R|exact S2|auto].
      + eapply Single; [exact L0|exact H|reflexivity|repeat constructor|exact St]. }
  destruct (is_unary (fst t0)) eqn:E4.
  { assert (L0 : nl t0 = false) by (unfold nl; destruct (fst t0); try discriminate E4; reflexivity). eapply Single; [exact L0|exact H|reflexivity| |].
    - repeat constructor. cbn. destruct (fst t0); try discriminate E4; reflexivity.
    - intros tm' r M. rewrite partials_S. unfold partials_step. cbv zeta. rewrite M, E1, E2, E3, E4. reflexivity. }
  destruct (is_postfix (fst t0)) eqn:E5.
  { assert (L0 : nl t0 = false) by (unfold nl; destruct (fst t0); try discriminate E5; reflexivity). eapply Single; [exact L0|exact H|reflexivity| |].
    - repeat constructor. exact E5.
    - intros tm' r M. rewrite partials_S. unfold partials_step. cbv zeta. rewrite M, E1, E2, E3, E4, E5. reflexivity. }
  assert (Word : fst t0 <> NewLine -> (forall tm' r, matches tm' (fst t0) = false -> partials (S n) ety tm' acc (t0 :: r) = partials n ety tm' (acc ++ [PExpr (Singleton t0)]) r) ->
    exists pre q, t0 :: ts = pre ++ t :: rest /\ matches tm (fst t) = true /\ (plain (t0 :: ts) -> nn pre = q) /\ (q = [] -> nn pre = []) /\ solid_tokens q /\
      pflats ps = pflats acc ++ q /\ (Forall pok acc -> Forall pok ps) /\
      forall tm' t' rest', ends t tm t' tm' -> partials (S n) ety tm' acc (q ++ t' :: rest') = Ok (ps, t', rest')).
  { intros L0 St. apply tt_eqb_neq in L0. rewrite (St tm ts Em) in H0. eapply Single; [exact L0|exact H0|reflexivity|repeat constructor|exact St]. }
  set (P := exists pre q, t0 :: ts = pre ++ t :: rest /\ matches tm (fst t) = true /\ (plain (t0 :: ts) -> nn pre = q) /\ (q = [] -> nn pre = []) /\ solid_tokens q /\
      pflats ps = pflats acc ++ q /\ (Forall pok acc -> Forall pok ps) /\
      forall tm' t' rest', ends t tm t' tm' -> partials (S n) ety tm' acc (q ++ t' :: rest') = Ok (ps, t', rest')) in *.
  pose proof (alls_here _ _ Ha) as Hs0. pose proof (alls_cons _ _ Ha) as Ha1.
  (* binders *)
  assert (Bind : fst t0 <> NewLine -> (forall tm' r, matches tm' (fst t0) = false -> partials (S n) ety tm' acc (t0 :: r) =
    let* (params, ts) := params_part n (fst t0) r in
    let* (args, ts) := args_part n params ts in
    let* (_, ts) := expect LeftBrace ts in
    let* (e, rb, ts) := value_block n ts in
    partials n ety tm' (acc ++ [PExpr (match params with [] => Binder t0 args e rb | _ => GenericBinder t0 params args e rb end)]) ts) -> P).
  { intros L0 St. apply tt_eqb_neq in L0. rewrite (St tm ts Em) in H0. clear H. rename H0 into H. pb H. destruct a as [params ts1]. pb H. destruct a as [args ts2].
    pb H. destruct a as [lb ts3]. apply expect_ok in E6. destruct E6 as [-> Elb]. pb H. destruct a as [[e rb] ts4].
    destruct (params_reads n I4 t0 ts params ts1 E Ha1 L0) as (pre1 & A1 & A2 & A3 & A4 & A5). pose proof Ha1 as Ha2. rewrite A1 in Ha2. apply alls_app in Ha2.
    destruct (args_reads n I3 I4 params (t0 :: pre1) ts1 args (lb :: ts3) E0 Ha2) as (pre2 & B1 & B2 & B3 & B4).
    { intros HP G. rewrite A1 in A4. destruct (A4 HP G) as (p & b & -> & Eb). exists (t0 :: p), b. auto. }
    rewrite B1 in Ha2. apply alls_app in Ha2. pose proof (spelled_is _ _ Elb (alls_here _ _ Ha2) eq_refl) as ->. apply alls_cons in Ha2.
    destruct (I5 _ _ _ _ E6 Ha2) as (pre3 & C1 & C2 & C3 & C4 & C5). subst rb.
    set (b := match params with [] => Binder t0 args e (gen RightBrace) | _ => GenericBinder t0 params args e (gen RightBrace) end) in *.
    assert (Fb : flat b = t0 :: params_flat params ++ arguments_flat params args ++ gen LeftBrace :: flat e ++ [gen RightBrace]) by apply binder_flat.
    apply (go n ety tm acc (acc ++ [PExpr b]) (t0 :: ts) (t0 :: pre1 ++ pre2 ++ gen LeftBrace :: pre3 ++ [gen RightBrace]) (flat b) ts4 ps t rest); auto.
    - rewrite A1, B1, C1. repeat (rewrite <- ?app_assoc; cbn [app]). reflexivity.
    - intros G. rewrite Fb. rewrite nn_cons, !nn_app, nn_cons, nn_app, nn_cons by (assumption || reflexivity). rewrite (A3 G).
      rewrite A1 in G. change (t0 :: pre1 ++ ts1) with ((t0 :: pre1) ++ ts1) in G. rewrite (B3 G). apply plain_app in G. rewrite B1 in G. apply plain_app, plain_cons in G. rewrite (C3 G).
      reflexivity.
    - intros X. destruct (flat_some _ X).
    - rewrite Fb. solid.
    - rewrite flat_map_app. cbn. rewrite app_nil_r. reflexivity.
    - apply pok_app. repeat constructor.
    - intros q2 tm' t' rest' X S2 _ R. rewrite Fb. cbn [app]. rewrite St by apply (NM _ _ X).
      repeat (rewrite <- ?app_assoc; cbn [app]).
      assert (HH : exists x r, arguments_flat params args ++ gen LeftBrace :: flat e ++ gen RightBrace :: q2 ++ t' :: rest' = x :: r /\ fst x <> LeftBracket /\ fst x <> LessThan).
      { unfold arguments_flat. destruct params; [|destruct args]; eexists _, _; (split; [reflexivity|split; discriminate]). }
      destruct HH as (x & r & Hx & Hx1 & Hx2). rewrite Hx. rewrite (A5 x r Hx1 Hx2). cbn [pbind]. rewrite <- Hx, B4. cbn [pbind]. rewrite (expect_here LeftBrace) by reflexivity. cbn [pbind].
      rewrite C5. cbn [pbind]. exact R. }
  assert (Paren : fst t0 = LeftParen -> P).
  { intros E0. assert (L0 : nl t0 = false) by (apply (nl_type _ _ E0); discriminate). rewrite E0 in H. cbv zeta in H.
    set (implicit := if ends_with_expr acc then [PImplicit t0] else []) in *. assert (Fi : pflats implicit = []) by (unfold implicit; destruct (ends_with_expr acc); reflexivity).
    assert (Pi : Forall pok implicit) by (unfold implicit; destruct (ends_with_expr acc); repeat constructor).
    assert (St : forall tm' r, matches tm' (fst t0) = false -> partials (S n) ety tm' acc (t0 :: r) =
        match (if in_value ety then match r with
               | op :: rp :: ts' => if is_operator_ref (fst op) && tt_eqb (fst rp) RightParen then Some (op, rp, ts') else None
               | _ => None end else None) with
        | Some (op, rp, ts') => partials n ety tm' (acc ++ implicit ++ [PExpr (Grouping t0 (Singleton op) rp)]) ts'
        | None =>
          let* (e, rt, ts) := parse n ety [RightParen] r in
          partials n ety tm' (acc ++ implicit ++ [PExpr (Grouping t0 e rt)]) ts
        end).
    { intros tm' r M. rewrite partials_S. unfold partials_step. cbv zeta. rewrite M, E0. reflexivity. }
    destruct (if in_value ety then _ else None) as [[[op rp] ts']|] eqn:Eo.
    - destruct (in_value ety) eqn:Ei; [|discriminate]. destruct ts as [|op' [|rp' ts1]]; try discriminate. destruct (is_operator_ref (fst op') && tt_eqb (fst rp') RightParen) eqn:Ek; [|discriminate].
      injection Eo as -> -> ->. pose proof Ek as Ek'. apply andb_true_iff in Ek'. destruct Ek' as [Ek1 Ek2]. apply tt_eqb_eq in Ek2.
      assert (L1 : nl op = false) by (unfold nl; destruct (fst op); try discriminate Ek1; reflexivity). assert (L2 : nl rp = false) by (apply (nl_type _ _ Ek2); discriminate).
      apply (go n ety tm acc (acc ++ implicit ++ [PExpr (Grouping t0 (Singleton op) rp)]) (t0 :: op :: rp :: ts') [t0; op; rp] [t0; op; rp] ts' ps t rest); auto.
      + intros _. rewrite !nn_cons by assumption. reflexivity.
      + discriminate.
      + solid.
      + rewrite !flat_map_app, Fi. reflexivity.
      + apply pok_app, pok_app; [repeat constructor|exact Pi].
      + intros q2 tm' t' rest' X S2 _ R. cbn [app]. rewrite St by apply (NM _ _ X). rewrite Ek. exact R.
    - clear Eo. pb H. destruct a as [[e rt] ts2]. eapply Group; [exact E|discriminate|discriminate|exact L0|reflexivity|exact H| | |].
      + rewrite flat_map_app, Fi. cbn. rewrite app_nil_r. reflexivity.
      + apply pok_app; [repeat constructor|exact Pi].
      + intros tm' r M Q. rewrite St by exact M. destruct (in_value ety); [|rewrite Q; reflexivity].
        destruct (flat e ++ rt :: r) as [|op [|rp l]] eqn:El; [rewrite Q; reflexivity|rewrite Q; reflexivity|].
        destruct (is_operator_ref (fst op) && tt_eqb (fst rp) RightParen) eqn:Ek; [|rewrite Q; reflexivity]. exfalso. apply andb_true_iff in Ek. destruct Ek as [Ek1 Ek2].
        apply tt_eqb_eq in Ek2. exact (operator_alone _ _ _ _ _ _ Ek1 Ek2 Q). }
  assert (If : fst t0 = If_ -> P).
  { intros E0. pose proof (spelled_is _ _ E0 Hs0 eq_refl) as ->. cbn [fst gen] in H. destruct (in_type ety) eqn:Ei; [discriminate|].
    pb H. destruct a as [[c lb] ts1]. pb H. destruct a as [[a rb] ts2].
    assert (St : forall tm' r, matches tm' If_ = false -> partials (S n) ety tm' acc (gen If_ :: r) =
        let* (c, _, ts) := parse n Value [LeftBrace] r in
        let* (a, rb, ts) := value_block n ts in
        if peeks Else_ ts then
          let* (_, ts) := expect LeftBrace (tl ts) in
          let* (b, rb, ts) := value_block n ts in
          partials n ety tm' (acc ++ [PExpr (IfThenElse (gen If_) c a (Some b) rb)]) ts
        else partials n ety tm' (acc ++ [PExpr (IfThenElse (gen If_) c a None rb)]) ts).
    { intros tm' r M. rewrite partials_S. unfold partials_step. cbv zeta. change (fst (gen If_)) with If_. rewrite M, Ei. reflexivity. }
    destruct (I1 _ _ _ _ _ _ E eq_refl Ha1) as (pre1 & A1 & A2 & A3 & A4 & A5 & A6). apply matches_one in A2. pose proof Ha1 as Ha2. rewrite A1 in Ha2.
    pose proof (spelled_is _ _ A2 (alls_at _ _ _ Ha2) eq_refl) as ->. apply alls_app, alls_cons in Ha2.
    destruct (I5 _ _ _ _ E6 Ha2) as (pre2 & B1 & B2 & B3 & B4 & B5). subst rb. rewrite B1 in Ha2. apply alls_app, alls_cons in Ha2.
    pose proof (fun r => A6 [LeftBrace] (gen LeftBrace) r (ends_same _ _ A2 ltac:(discriminate))) as A7.
    destruct (peeks Else_ ts2) eqn:Ee.
    - apply peeks_ok in Ee. destruct Ee as (el & ts3 & -> & Eel). cbn [tl] in H. pb H. destruct a0 as [lb' ts4]. apply expect_ok in E7. destruct E7 as [-> Elb'].
      pb H. destruct a0 as [[b rb] ts5]. pose proof (spelled_is _ _ Eel (alls_here _ _ Ha2) eq_refl) as ->. apply alls_cons in Ha2.
      pose proof (spelled_is _ _ Elb' (alls_here _ _ Ha2) eq_refl) as ->. apply alls_cons in Ha2.
      destruct (I5 _ _ _ _ E7 Ha2) as (pre3 & C1 & C2 & C3 & C4 & C5). subst rb.
      apply (go n ety tm acc (acc ++ [PExpr (IfThenElse (gen If_) c a (Some b) (gen RightBrace))]) (gen If_ :: ts)
        (gen If_ :: pre1 ++ gen LeftBrace :: pre2 ++ gen RightBrace :: gen Else_ :: gen LeftBrace :: pre3 ++ [gen RightBrace])
        (flat (IfThenElse (gen If_) c a (Some b) (gen RightBrace))) ts5 ps t rest); auto.
      + rewrite A1, B1, C1. repeat (rewrite <- ?app_assoc; cbn [app]). reflexivity.
      + intros G. apply plain_cons in G. rewrite nn_cons, nn_app, nn_cons, nn_app, !nn_cons, nn_app by reflexivity. rewrite (A3 G). rewrite A1 in G. apply plain_app, plain_cons in G.
        rewrite (B3 G). rewrite B1 in G. apply plain_app, plain_cons, plain_cons, plain_cons in G. rewrite (C3 G). reflexivity.
      + discriminate.
      + cbn [flat]. solid.
      + rewrite flat_map_app. cbn [flat_map pflat]. rewrite app_nil_r. reflexivity.
      + apply pok_app. repeat constructor.
      + intros q2 tm' t' rest' X S2 _ R. cbn [flat]. repeat (rewrite <- ?app_assoc; cbn [app]). rewrite St by apply (NM _ _ X).
        rewrite A7. cbn [pbind]. rewrite B5. cbn [pbind]. change (peeks Else_ (gen Else_ :: gen LeftBrace :: flat b ++ gen RightBrace :: q2 ++ t' :: rest')) with true. cbn [tl].
        rewrite (expect_here LeftBrace) by reflexivity. cbn [pbind]. rewrite C5. cbn [pbind]. exact R.
    - apply (go n ety tm acc (acc ++ [PExpr (IfThenElse (gen If_) c a None (gen RightBrace))]) (gen If_ :: ts)
        (gen If_ :: pre1 ++ gen LeftBrace :: pre2 ++ [gen RightBrace])
        (flat (IfThenElse (gen If_) c a None (gen RightBrace))) ts2 ps t rest); auto.
      + rewrite A1, B1. repeat (rewrite <- ?app_assoc; cbn [app]). reflexivity.
      + intros G. apply plain_cons in G. rewrite nn_cons, nn_app, nn_cons, nn_app, !nn_cons by reflexivity. rewrite (A3 G). rewrite A1 in G. apply plain_app, plain_cons in G.
        rewrite (B3 G). reflexivity.
      + discriminate.
      + cbn [flat]. solid.
      + rewrite flat_map_app. cbn [flat_map pflat]. rewrite app_nil_r. reflexivity.
      + apply pok_app. repeat constructor.
      + intros q2 tm' t' rest' X S2 _ R. cbn [flat]. repeat (rewrite <- ?app_assoc; cbn [app]). rewrite St by apply (NM _ _ X).
        rewrite A7. cbn [pbind]. rewrite B5. cbn [pbind].
        assert (Ne : peeks Else_ (q2 ++ t' :: rest') = false).
        { destruct X as (_ & X & _). destruct (q2 ++ t' :: rest') as [|y l] eqn:El; [reflexivity|]. cbn [peeks]. apply tt_eqb_neq. exact (partials_else _ _ _ _ _ _ _ R X). }
        rewrite Ne. exact R. }
  assert (Mat : fst t0 = Match_ -> P).
  { intros E0. pose proof (spelled_is _ _ E0 Hs0 eq_refl) as ->. destruct (ends_with_dot acc) eqn:Ed.
    { apply Word; [discriminate|]. intros tm' r M. rewrite partials_S. unfold partials_step. cbv zeta. rewrite M. change (fst (gen Match_)) with Match_. rewrite Ed. reflexivity. }
    cbn [fst gen] in H. try rewrite Ed in H. destruct (in_type ety) eqn:Ei; [discriminate|].
    pb H. destruct a as [[c lb] ts1]. pb H. destruct a as [[cases rb] ts2].
    assert (St : forall tm' r, matches tm' Match_ = false -> partials (S n) ety tm' acc (gen Match_ :: r) =
        let* (s, _, ts) := parse n Value [LeftBrace] r in
        let* (cases, rb, ts) := match_cases n ts in
        match cases with
        | [] => Err
        | _ => partials n ety tm' (acc ++ [PExpr (Match (gen Match_) s cases rb)]) ts
        end).
    { intros tm' r M. rewrite partials_S. unfold partials_step. cbv zeta. change (fst (gen Match_)) with Match_. rewrite M, Ed, Ei. reflexivity. }
    destruct (I1 _ _ _ _ _ _ E eq_refl Ha1) as (pre1 & A1 & A2 & A3 & A4 & A5 & A6). apply matches_one in A2. pose proof Ha1 as Ha2. rewrite A1 in Ha2.
    pose proof (spelled_is _ _ A2 (alls_at _ _ _ Ha2) eq_refl) as ->. apply alls_app, alls_cons in Ha2.
    destruct (I6 _ _ _ _ E6 Ha2) as (pre2 & B1 & B2 & B3 & B4 & B5). subst rb.
    pose proof (fun r => A6 [LeftBrace] (gen LeftBrace) r (ends_same _ _ A2 ltac:(discriminate))) as A7.
    assert (H' : cases <> [] /\ partials n ety tm (acc ++ [PExpr (Match (gen Match_) c cases (gen RightBrace))]) ts2 = Ok (ps, t, rest)).
    { destruct cases; [discriminate|]. split; [discriminate|exact H]. }
    destruct H' as [Hn H'].
    apply (go n ety tm acc (acc ++ [PExpr (Match (gen Match_) c cases (gen RightBrace))]) (gen Match_ :: ts)
      (gen Match_ :: pre1 ++ gen LeftBrace :: pre2 ++ [gen RightBrace]) (flat (Match (gen Match_) c cases (gen RightBrace))) ts2 ps t rest); auto.
    - rewrite A1, B1. repeat (rewrite <- ?app_assoc; cbn [app]). reflexivity.
    - intros G. apply plain_cons in G. rewrite nn_cons, nn_app, nn_cons, nn_app, !nn_cons by reflexivity. rewrite (A3 G). rewrite A1 in G. apply plain_app, plain_cons in G.
      rewrite (B3 G). reflexivity.
    - discriminate.
    - rewrite flat_match. solid.
    - rewrite flat_map_app. cbn [flat_map pflat]. rewrite app_nil_r. reflexivity.
    - apply pok_app. repeat constructor.
    - intros q2 tm' t' rest' X S2 _ R. rewrite flat_match. repeat (rewrite <- ?app_assoc; cbn [app]). rewrite St by apply (NM _ _ X).
      rewrite A7. cbn [pbind]. rewrite B5. cbn [pbind]. destruct cases; [congruence|]. exact R. }
  assert (New : fst t0 = NewLine -> P).
  { intros E0. rewrite E0 in H. assert (L0 : nl t0 = true) by (unfold nl; rewrite E0; reflexivity).
    apply (go n ety tm acc acc (t0 :: ts) [t0] [] ts ps t rest); auto.
    - intros _. rewrite nn_nl by exact L0. reflexivity.
    - intros _. rewrite nn_nl by exact L0. reflexivity.
    - solid.
    - rewrite app_nil_r. reflexivity.
    - intros q2 tm' t' rest' X S2 _ R. cbn [app]. destruct (more_fuel n (S n) (le_S _ _ (le_n _))) as (_ & F & _).
      destruct (F ety tm' acc (q2 ++ t' :: rest')) as [F'|F']; rewrite R in F'; [discriminate|exact F']. }
  clear Group Single. clearbody P.
  destruct (fst t0) eqn:Et; try discriminate H; try discriminate E3; try discriminate E4; try discriminate E5; try discriminate E1; auto.
  all: destruct (in_type ety) eqn:Ei; try discriminate H.
  all: first
    [ apply Word; [discriminate|]; intros tm' r M; rewrite partials_S; unfold partials_step; cbv zeta; rewrite Et, M, ?Ei; reflexivity
    | apply Bind; [discriminate|]; intros tm' r M; rewrite partials_S; unfold partials_step; cbv zeta; rewrite Et, M, ?Ei; reflexivity ].
Qed.

Lemma reads n : reads_parse n /\ reads_partials n /\ reads_declarations n /\ reads_type_params n /\ reads_block n /\ reads_cases n.
Proof.
  induction n as [|n (I1 & I2 & I3 & I4 & I5 & I6)].
  - split; [|split; [|split; [|split; [|split]]]]; red; intros; discriminate.
  - split; [apply parse_reads; auto|]. split; [apply partials_reads; auto|]. split; [apply declarations_reads; auto|]. split; [apply type_params_reads; auto|].
    split; [apply block_reads; auto|apply cases_reads; auto].
Qed.
