(** Parsed expressions are printed so that neighbouring tokens do not run together. *)
From Coq Require Import List NArith ZArith Bool Lia.
Import ListNotations.
From Verif Require Import Scanner Expression ExpressionProofs ExpressionTokens ExpressionDisplay.

Definition toks_of (ps : list piece) : list tok := flat_map (fun p => match p with T t => [t] | Sp => [] end) ps.
(** tokens that are not made of word characters *)
Definition symbol_type (t : token_type) : bool :=
  match t with
  | LeftParen | RightParen | LeftBrace | RightBrace | LeftBracket | RightBracket | Comma | Colon | Dot | NotEquals | Equals | Plus | Asterisk | Percent
  | Union | Intersection | Backslash | ElemOf | NotElemOf | Contains | NotContains | SubsetEq | SupersetEq | Subset | Superset | QuestionMark
  | RightArrow | Minus | LessThanOrEquals | LessThan | GreaterThanOrEquals | GreaterThan | Slash => true
  | _ => false
  end.
(** [a] and [b] may stand next to each other without a space *)
Definition apart (a b : token_type) : bool :=
  match a with
  | Minus => match b with GreaterThan | GreaterThanOrEquals => false | _ => true end
  | LessThan | GreaterThan => match b with Equals => false | _ => true end
  | Slash => match b with Slash => false | _ => true end
  | _ => if symbol_type a then true else symbol_type b
  end.
Fixpoint joins (ps : list piece) : bool :=
  match ps with
  | T a :: ((T b :: _) as r) => apart (fst a) (fst b) && joins r
  | _ :: r => joins r
  | [] => true
  end.
Definition real (t : token_type) : bool := match t with NewLine | Invalid | DocComment => false | _ => true end.
Definition opens (t : token_type) : bool := match t with Equals | GreaterThan | GreaterThanOrEquals => false | _ => true end.
Definition closes (t : token_type) : bool := negb (tt_eqb t Minus).
Definition bracket (t : token_type) : bool := match t with LeftParen | LeftBracket | LessThan => true | _ => false end.

(** no tokens run together; the first is [h], the last is [l] *)
Definition neat (p : list piece) (h l : tok) : Prop := joins p = true /\ (exists p', p = T h :: p') /\ (exists p', p = p' ++ [T l]).
Lemma joins_app p q (m m' : tok) : joins (p ++ [T m]) = true -> joins (T m' :: q) = true -> apart (fst m) (fst m') = true -> joins ((p ++ [T m]) ++ T m' :: q) = true.
Proof.
  intros A B C. induction p as [|x p IH].
  - cbn [app]. cbn [joins]. rewrite C. exact B.
  - destruct x; [|cbn [app joins] in *; apply IH; exact A]. destruct p as [|y p].
    + cbn [app joins] in *. apply andb_true_iff in A. destruct A as [A _]. rewrite A, C. exact B.
    + destruct y; cbn [app joins] in *; [apply andb_true_iff in A; destruct A as [A1 A2]; rewrite A1; apply IH; exact A2|apply IH; exact A].
Qed.
Lemma joins_sp p q : joins p = true -> joins q = true -> joins (p ++ Sp :: q) = true.
Proof.
  intros A B. induction p as [|x p IH]; [exact B|]. destruct x; [|cbn [app joins] in *; apply IH; exact A]. destruct p as [|y p]; [exact B|].
  destruct y; cbn [app joins] in *; [apply andb_true_iff in A; destruct A as [A1 A2]; rewrite A1; apply IH; exact A2|apply IH; exact A].
Qed.
Lemma neat_app p q h m m' l : neat p h m -> neat q m' l -> apart (fst m) (fst m') = true -> neat (p ++ q) h l.
Proof.
  intros (A1 & (p1 & A2) & (p2 & A3)) (B1 & (q1 & B2) & (q2 & B3)) C. split; [|split].
  - rewrite A3 in A1 |- *. rewrite B2 in B1 |- *. apply joins_app; assumption.
  - rewrite A2. eexists. reflexivity.
  - rewrite B3. exists (p ++ q2). rewrite app_assoc. reflexivity.
Qed.
Lemma neat_sp p q h m m' l : neat p h m -> neat q m' l -> neat (p ++ Sp :: q) h l.
Proof.
  intros (A1 & (p1 & A2) & _) (B1 & _ & (q2 & B3)). split; [|split].
  - apply joins_sp; assumption.
  - rewrite A2. eexists. reflexivity.
  - rewrite B3. exists (p ++ Sp :: q2). rewrite <- app_assoc. reflexivity.
Qed.
Lemma neat_one t : neat [T t] t t.
Proof. split; [reflexivity|]. split; [exists []; reflexivity|exists []; reflexivity]. Qed.
Lemma neat_cons t q m l : neat q m l -> apart (fst t) (fst m) = true -> neat (T t :: q) t l.
Proof. intros A B. exact (neat_app _ _ _ _ _ _ (neat_one t) A B). Qed.
Lemma neat_cons_sp t q m l : neat q m l -> neat (T t :: Sp :: q) t l.
Proof. intros A. exact (neat_sp _ _ _ _ _ _ (neat_one t) A). Qed.

Definition soft (t : token_type) : bool :=
  match t with Dot | Comma | Colon | LeftParen | RightParen | LeftBracket | RightBracket | QuestionMark | LessThan => true | _ => false end.
Lemma apart_soft a b : soft b = true -> apart a b = true.
Proof. destruct b; try discriminate; intros _; destruct a; reflexivity. Qed.
Lemma apart_greater a : closes a = true -> apart a GreaterThan = true.
Proof. destruct a; try discriminate; reflexivity. Qed.

Definition decl_pieces (d : declaration expr) : list piece := match d with Typed name ty => T name :: T (gen Colon) :: Sp :: pieces ty | SelfDecl t => [T t] end.
Definition param_pieces (p : type_param expr) : list piece :=
  match p with TParam name ty class =>
    match ty with Some e => pieces e | None => [T name] end ++ match class with Some e => T (gen Colon) :: Sp :: pieces e | None => [] end end.
Definition args_pieces (l : list (declaration expr)) : list piece := T (gen LeftParen) :: comma_list (map decl_pieces l) ++ [T (gen RightParen)].
Definition case_pieces (c : expr * expr) : list piece :=
  let (p, e) := c in Sp :: pieces p ++ Sp :: T (gen LeftBrace) :: Sp :: pieces e ++ [Sp; T (gen RightBrace)].
Lemma pieces_binder t l e rb : pieces (Binder t l e rb) = T t :: args_pieces l ++ Sp :: T (gen LeftBrace) :: Sp :: pieces e ++ [Sp; T (gen RightBrace)].
Proof. reflexivity. Qed.
Lemma pieces_generic t ps l e rb : pieces (GenericBinder t ps l e rb) =
    T t :: T (gen LeftBracket) :: comma_list (map param_pieces ps) ++ T (gen RightBracket) :: (match l with [] => [] | _ => args_pieces l end) ++
    Sp :: T (gen LeftBrace) :: Sp :: pieces e ++ [Sp; T (gen RightBrace)].
Proof. reflexivity. Qed.
Lemma pieces_match t s cases rb : pieces (Match t s cases rb) =
    T (gen Match_) :: Sp :: pieces s ++ Sp :: T (gen LeftBrace) :: flat_map case_pieces cases ++ [Sp; T (gen RightBrace)].
Proof. reflexivity. Qed.

Lemma toks_app p q : toks_of (p ++ q) = toks_of p ++ toks_of q.
Proof. apply flat_map_app. Qed.
Lemma toks_t t q : toks_of (T t :: q) = t :: toks_of q.
Proof. reflexivity. Qed.
Lemma toks_sp q : toks_of (Sp :: q) = toks_of q.
Proof. reflexivity. Qed.
Lemma toks_nil : toks_of [] = [].
Proof. reflexivity. Qed.
Lemma toks_commas l : toks_of (comma_list l) = commas (map toks_of l).
Proof.
  induction l as [|x [|y l] IH]; [reflexivity|reflexivity|].
  change (comma_list (x :: y :: l)) with (x ++ T (gen Comma) :: Sp :: comma_list (y :: l)). rewrite toks_app, toks_t, toks_sp, IH. reflexivity.
Qed.
Lemma comma_neat l : l <> [] -> Forall (fun p => exists h l, neat p h l /\ closes (fst l) = true) l -> exists h l', neat (comma_list l) h l' /\ closes (fst l') = true.
Proof.
  intros N F. induction F as [|x l (h & m & Nx & Cx) F IH]; [congruence|]. destruct l as [|y l]; [exists h, m; auto|].
  destruct IH as (h' & l' & N' & C'); [discriminate|]. exists h, l'. split; [|exact C'].
  change (comma_list (x :: y :: l)) with (x ++ T (gen Comma) :: Sp :: comma_list (y :: l)).
  apply (neat_app x _ h m (gen Comma) l' Nx); [apply (neat_cons_sp _ _ _ _ N')|apply apart_soft; reflexivity].
Qed.

Section Tidy.
Context (P : tok -> Prop) (Pgen : forall ty, match ty with Identifier | Invalid | Numeral | NewLine | DocComment => false | _ => true end = true -> P (gen ty)).
Definition Q (t : tok) : Prop := P t /\ real (fst t) = true.
Lemma Qgen ty : match ty with Identifier | Invalid | Numeral | NewLine | DocComment => false | _ => true end = true -> Q (gen ty).
Proof. intros H. split; [apply Pgen; exact H|]. destruct ty; try discriminate; reflexivity. Qed.
Definition tidy (e : expr) : Prop :=
  toks_of (pieces e) = flat e /\ Forall Q (flat e) /\ exists h l, neat (pieces e) h l /\ opens (fst h) = true /\ closes (fst l) = true.
Definition dtidy (d : declaration expr) : Prop :=
  toks_of (decl_pieces d) = decl_flat d /\ Forall Q (decl_flat d) /\ exists h l, neat (decl_pieces d) h l /\ closes (fst l) = true.
Definition ptidy (p : type_param expr) : Prop :=
  toks_of (param_pieces p) = param_flat p /\ Forall Q (param_flat p) /\ exists h l, neat (param_pieces p) h l /\ closes (fst l) = true.

Lemma tidy_single t : Q t -> opens (fst t) = true -> closes (fst t) = true -> tidy (Singleton t).
Proof. intros A B C. split; [reflexivity|]. split; [repeat constructor; apply A|]. exists t, t. split; [apply neat_one|auto]. Qed.
Lemma tidy_head e : tidy e -> exists h r, flat e = h :: r /\ opens (fst h) = true.
Proof.
  intros (A & _ & h & l & (_ & (p' & E) & _) & O & _). rewrite E in A. rewrite toks_t in A. exists h, (toks_of p'). auto.
Qed.
Lemma tidy_prefix t e : Q t -> is_unary (fst t) = true -> tidy e -> tidy (Unary t e).
Proof.
  intros Ht Hu (A & B & h & l & N & O & C). assert (Np : is_postfix (fst t) = false) by (destruct (fst t); try discriminate Hu; reflexivity).
  unfold tidy. cbn [pieces flat]. rewrite Np. destruct (tt_eqb (fst t) Minus) eqn:Em.
  - apply tt_eqb_eq in Em. split; [rewrite toks_t, A; reflexivity|]. split; [constructor; assumption|]. exists t, l. split; [|split; [rewrite Em; reflexivity|exact C]].
    apply (neat_cons _ _ _ _ N). rewrite Em. destruct (fst h); try discriminate O; reflexivity.
  - split; [rewrite toks_t, toks_sp, A; reflexivity|]. split; [constructor; assumption|]. exists t, l. split; [apply (neat_cons_sp _ _ _ _ N)|].
    split; [destruct (fst t); try discriminate Hu; reflexivity|exact C].
Qed.
Lemma tidy_postfix t e : Q t -> is_postfix (fst t) = true -> tidy e -> tidy (Unary t e).
Proof.
  intros Ht Hu (A & B & h & l & N & O & C). unfold tidy. cbn [pieces flat]. rewrite Hu.
  split; [rewrite toks_app, A; reflexivity|]. split; [apply Forall_app; split; [exact B|repeat constructor; apply Ht]|]. exists h, t. split; [|split; [exact O|]].
  - apply (neat_app _ _ _ _ _ _ N (neat_one t)). apply apart_soft. destruct (fst t); try discriminate Hu; reflexivity.
  - destruct (fst t); try discriminate Hu; reflexivity.
Qed.
Lemma tidy_binary l t r : Q t -> tidy l -> tidy r -> tidy (Binary l t r).
Proof.
  intros Ht (A1 & B1 & h1 & l1 & N1 & O1 & C1) (A2 & B2 & h2 & l2 & N2 & O2 & C2). unfold tidy. cbn [pieces flat]. split; [|split].
  - rewrite toks_app, A1. destruct (left_space (fst t)), (right_space (fst t)); cbn [app]; rewrite ?toks_sp, ?toks_t, ?toks_sp, A2; reflexivity.
  - apply Forall_app. split; [exact B1|constructor; assumption].
  - exists h1, l2. split; [|auto].
    assert (R : neat (T t :: (if right_space (fst t) then [Sp] else []) ++ pieces r) t l2).
    { destruct (right_space (fst t)) eqn:Er; cbn [app]; [apply (neat_cons_sp _ _ _ _ N2)|]. apply (neat_cons _ _ _ _ N2). destruct (fst t); try discriminate Er; reflexivity. }
    destruct (left_space (fst t)) eqn:El; cbn [app]; [apply (neat_sp _ _ _ _ _ _ N1 R)|]. apply (neat_app _ _ _ _ _ _ N1 R). apply apart_soft. destruct (fst t); try discriminate El; reflexivity.
Qed.
Lemma tidy_concat l r : tidy l -> tidy r -> (forall h q, flat r = h :: q -> bracket (fst h) = true) -> tidy (Concatenation l r).
Proof.
  intros (A1 & B1 & h1 & l1 & N1 & O1 & C1) (A2 & B2 & h2 & l2 & N2 & O2 & C2) Hb. unfold tidy. cbn [pieces flat]. split; [rewrite toks_app, A1, A2; reflexivity|].
  split; [apply Forall_app; auto|]. exists h1, l2. split; [|auto]. apply (neat_app _ _ _ _ _ _ N1 N2). apply apart_soft.
  destruct N2 as (_ & (p' & E) & _). rewrite E in A2. rewrite toks_t in A2. specialize (Hb _ _ (eq_sym A2)). destruct (fst h2); try discriminate Hb; reflexivity.
Qed.
Definition pair (a b : token_type) : Prop := (a = LeftParen /\ b = RightParen) \/ (a = LeftBracket /\ b = RightBracket) \/ (a = LessThan /\ b = GreaterThan).
Lemma tidy_group lt e rt : Q lt -> Q rt -> pair (fst lt) (fst rt) -> tidy e -> tidy (Grouping lt e rt).
Proof.
  intros Hl Hr Hp (A & B & h & l & N & O & C). unfold tidy. cbn [pieces flat]. split; [rewrite toks_t, toks_app, A; reflexivity|].
  split; [constructor; [exact Hl|]; apply Forall_app; split; [exact B|repeat constructor; apply Hr]|]. exists lt, rt. split.
  - assert (R : neat (pieces e ++ [T rt]) h rt).
    { apply (neat_app _ _ _ _ _ _ N (neat_one rt)). destruct Hp as [[_ ->]|[[_ ->]|[_ ->]]]; [apply apart_soft; reflexivity|apply apart_soft; reflexivity|apply apart_greater; exact C]. }
    apply (neat_cons _ _ _ _ R). destruct Hp as [[-> _]|[[-> _]|[-> _]]]; [reflexivity|reflexivity|]. destruct (fst h); try discriminate O; reflexivity.
  - destruct Hp as [[-> ->]|[[-> ->]|[-> ->]]]; split; reflexivity.
Qed.
(** an operator in parentheses *)
Lemma tidy_operator lt op rt : Q lt -> Q op -> Q rt -> fst lt = LeftParen -> fst rt = RightParen -> tidy (Grouping lt (Singleton op) rt).
Proof.
  intros Hl Ho Hr El Er. unfold tidy. cbn [pieces flat app]. split; [reflexivity|]. split; [repeat constructor; assumption || apply Hl || apply Ho || apply Hr|].
  exists lt, rt. split; [|rewrite El, Er; split; reflexivity]. apply (neat_cons _ _ op); [|rewrite El; reflexivity]. apply (neat_cons _ _ rt); [apply neat_one|]. apply apart_soft. rewrite Er. reflexivity.
Qed.
Ltac qs := repeat first [assumption | apply Forall_app; split | apply Forall_cons | apply Forall_nil | apply Qgen; reflexivity].
Ltac ts := repeat rewrite ?toks_t, ?toks_sp, ?toks_app, ?toks_nil.
Lemma tidy_args l : Forall dtidy l -> toks_of (args_pieces l) = args_flat l /\ Forall Q (args_flat l) /\ neat (args_pieces l) (gen LeftParen) (gen RightParen).
Proof.
  intros F. unfold args_pieces, args_flat. split; [|split].
  - ts. rewrite toks_commas, map_map. enough (X : map (fun x => toks_of (decl_pieces x)) l = map decl_flat l) by (rewrite X; reflexivity). induction F as [|d l (A & _) F IH]; [reflexivity|]. cbn [map]. rewrite A, IH. reflexivity.
  - qs. induction F as [|d l (_ & A & _) F IH]; [constructor|]. destruct l as [|d' l]; [exact A|]. change (map decl_flat (d :: d' :: l)) with (decl_flat d :: map decl_flat (d' :: l)).
    rewrite commas_cons by discriminate. qs.
  - destruct l as [|d l]; [apply (neat_cons _ _ (gen RightParen)); [apply neat_one|reflexivity]|].
    destruct (comma_neat (map decl_pieces (d :: l))) as (h & m & N & C); [discriminate| |].
    { apply Forall_map. eapply Forall_impl; [|exact F]. intros a (_ & _ & h & m & X). exists h, m. exact X. }
    apply (neat_cons _ _ h); [|reflexivity]. apply (neat_app _ _ _ _ _ _ N (neat_one _)). apply apart_soft. reflexivity.
Qed.
Lemma tidy_block e q h l : tidy e -> neat q h l -> neat (q ++ Sp :: T (gen LeftBrace) :: Sp :: pieces e ++ [Sp; T (gen RightBrace)]) h (gen RightBrace).
Proof.
  intros (_ & _ & h' & l' & N & _) Nq. eapply neat_sp; [exact Nq|]. eapply neat_cons_sp. eapply neat_sp; [exact N|apply neat_one].
Qed.
Lemma tidy_binder t l e rb : Q t -> Forall dtidy l -> tidy e -> match fst t with ForAll | Exists | Function_ | Choose => true | _ => false end = true -> tidy (Binder t l e rb).
Proof.
  intros Ht F He Hb. destruct (tidy_args l F) as (A1 & A2 & A3). unfold tidy. rewrite pieces_binder, flat_binder. pose proof He as (B1 & B2 & _). split; [|split].
  - ts. rewrite A1, B1. reflexivity.
  - qs.
  - exists t, (gen RightBrace). split; [|destruct (fst t); try discriminate Hb; split; reflexivity].
    rewrite app_comm_cons. apply (tidy_block e _ t (gen RightParen) He). apply (neat_cons _ _ _ _ A3). apply apart_soft. reflexivity.
Qed.
Lemma tidy_generic t ps l e rb : Q t -> ps <> [] -> Forall ptidy ps -> Forall dtidy l -> tidy e -> fst t = Function_ -> tidy (GenericBinder t ps l e rb).
Proof.
  intros Ht Np Fp F He Hb. destruct (tidy_args l F) as (A1 & A2 & A3). unfold tidy. rewrite pieces_generic, flat_generic. pose proof He as (B1 & B2 & _). split; [|split].
  - ts. rewrite B1, toks_commas, map_map.
    assert (X : map (fun x => toks_of (param_pieces x)) ps = map param_flat ps).
    { clear Np. induction Fp as [|p ps (Y & _) Fp IH]; [reflexivity|]. cbn [map]. rewrite Y, IH. reflexivity. }
    rewrite X. destruct l as [|d l]; [ts; reflexivity|]. rewrite A1. reflexivity.
  - assert (X : Forall Q (commas (map param_flat ps))).
    { clear Np. induction Fp as [|p ps (_ & Y & _) Fp IH]; [constructor|]. destruct ps as [|p' ps]; [exact Y|]. change (map param_flat (p :: p' :: ps)) with (param_flat p :: map param_flat (p' :: ps)).
      rewrite commas_cons by discriminate. qs. }
    qs. destruct l; [constructor|exact A2].
  - exists t, (gen RightBrace). split; [|rewrite Hb; split; reflexivity].
    destruct (comma_neat (map param_pieces ps)) as (h & m & N & C); [destruct ps; [congruence|discriminate]| |].
    { apply Forall_map. eapply Forall_impl; [|exact Fp]. intros a (_ & _ & h & m & X). exists h, m. exact X. }
    assert (X : exists l', neat (T t :: T (gen LeftBracket) :: comma_list (map param_pieces ps) ++ T (gen RightBracket) :: match l with [] => [] | _ => args_pieces l end) t l').
    { assert (Y : exists l', neat (T (gen RightBracket) :: match l with [] => [] | _ => args_pieces l end) (gen RightBracket) l').
      { destruct l; [eexists; apply neat_one|]. eexists. eapply neat_cons; [exact A3|reflexivity]. }
      destruct Y as (l' & Y). exists l'. apply (neat_cons _ _ (gen LeftBracket)); [|apply apart_soft; reflexivity]. apply (neat_cons _ _ h); [|reflexivity].
      apply (neat_app _ _ _ _ _ _ N Y). apply apart_soft. reflexivity. }
    destruct X as (l' & X). pose proof (tidy_block e _ _ _ He X) as Z. repeat (rewrite <- ?app_assoc in Z; cbn [app] in Z). exact Z.
Qed.
Lemma tidy_if t c a b rb : tidy c -> tidy a -> match b with Some b => tidy b | None => True end -> tidy (IfThenElse t c a b rb).
Proof.
  intros Hc Ha Hb. pose proof Hc as (A1 & A2 & h & l & N & _). pose proof Ha as (B1 & B2 & _). unfold tidy. cbn [pieces flat]. split; [|split].
  - ts. rewrite A1, B1. destruct b as [b|]; [|reflexivity]. destruct Hb as (C1 & _). ts. rewrite C1. reflexivity.
  - qs. destruct b as [b|]; [|constructor]. destruct Hb as (_ & C2 & _). qs.
  - exists (gen If_), (gen RightBrace). split; [|split; reflexivity].
    pose proof (tidy_block a _ _ _ Ha (neat_cons_sp (gen If_) _ _ _ N)) as X.
    destruct b as [b|].
    + assert (Y : neat (T (gen Else_) :: Sp :: T (gen LeftBrace) :: Sp :: pieces b ++ [Sp; T (gen RightBrace)]) (gen Else_) (gen RightBrace)).
      { apply (tidy_block b [T (gen Else_)] (gen Else_) (gen Else_) Hb). apply neat_one. }
      pose proof (neat_sp _ _ _ _ _ _ X Y) as Z. repeat (rewrite <- ?app_assoc in Z; cbn [app] in Z). exact Z.
    + repeat (rewrite <- ?app_assoc in X; cbn [app] in X). exact X.
Qed.
Lemma tidy_cases q h l cases : neat q h l -> Forall (fun c => tidy (fst c) /\ tidy (snd c)) cases -> exists l', neat (q ++ flat_map case_pieces cases) h l'.
Proof.
  intros N F. revert q l N. induction F as [|[p e] cases [Hp He] F IH]; intros q l N; [exists l; rewrite app_nil_r; exact N|]. cbn [flat_map case_pieces fst snd] in *.
  pose proof Hp as (_ & _ & hp & lp & Np & _).
  assert (X : neat (q ++ Sp :: pieces p ++ Sp :: T (gen LeftBrace) :: Sp :: pieces e ++ [Sp; T (gen RightBrace)]) h (gen RightBrace)).
  { apply (neat_sp _ _ _ _ _ _ N (tidy_block e _ _ _ He Np)). }
  destruct (IH _ _ X) as (l' & Y). exists l'. repeat (rewrite <- ?app_assoc in Y; cbn [app] in Y). repeat (rewrite <- ?app_assoc; cbn [app]). exact Y.
Qed.
Lemma tidy_match t s cases rb : tidy s -> Forall (fun c => tidy (fst c) /\ tidy (snd c)) cases -> tidy (Match t s cases rb).
Proof.
  intros Hs F. pose proof Hs as (A1 & A2 & h & l & N & _). unfold tidy. rewrite pieces_match, flat_match. split; [|split].
  - ts. rewrite A1. enough (X : toks_of (flat_map case_pieces cases) = flat_map case_flat cases) by (rewrite X; reflexivity). induction F as [|[p e] cases [(B1 & _) (C1 & _)] F IH]; [reflexivity|]. cbn [flat_map case_pieces case_flat fst snd] in *. rewrite toks_app. ts. rewrite B1, C1.
    rewrite <- IH. repeat (rewrite <- ?app_assoc; cbn [app]). ts. reflexivity.
  - qs. induction F as [|[p e] cases [(_ & B1 & _) (_ & C1 & _)] F IH]; [constructor|]. cbn [flat_map case_flat fst snd] in *. qs.
  - exists (gen Match_), (gen RightBrace). split; [|split; reflexivity].
    assert (X : neat (T (gen Match_) :: Sp :: pieces s ++ Sp :: [T (gen LeftBrace)]) (gen Match_) (gen LeftBrace)).
    { eapply neat_cons_sp. eapply neat_sp; [exact N|apply neat_one]. }
    destruct (tidy_cases _ _ _ cases X F) as (l' & Y). pose proof (neat_sp _ _ _ _ _ _ Y (neat_one (gen RightBrace))) as Z.
    repeat (rewrite <- ?app_assoc in Z; cbn [app] in Z). exact Z.
Qed.

(** ** Combining *)
Fixpoint linked (ps : list partial) : Prop :=
  match ps with
  | [] => True
  | PImplicit _ :: r => match r with PExpr (Grouping lt _ _) :: _ => bracket (fst lt) = true | _ => False end /\ linked r
  | _ :: r => linked r
  end.
Lemma linked_app a b : linked a -> linked b -> linked (a ++ b).
Proof.
  intros A B. induction a as [|p a IH]; [exact B|]. destruct p; cbn [app linked] in *; auto. destruct A as [A1 A2]. split; [|auto]. destruct a as [|[]]; try contradiction. exact A1.
Qed.
Lemma linked_right a b : linked (a ++ b) -> linked b.
Proof. induction a as [|p a IH]; [auto|]. intros H. apply IH. destruct p; cbn [app linked] in H; tauto. Qed.
Lemma linked_left a x b : linked (a ++ x :: b) -> (forall e, x <> PExpr e) -> linked a.
Proof.
  intros H N. induction a as [|p a IH]; [exact I|]. destruct p; cbn [app linked] in *; auto. destruct H as [A1 A2]. split; [|auto].
  destruct a as [|q a]; [|exact A1]. cbn [app] in A1. destruct x; try contradiction. destruct (N e). reflexivity.
Qed.
Definition pt (p : partial) : Prop :=
  match p with
  | PExpr e => tidy e /\ (forall lt x rt, e = Grouping lt x rt -> bracket (fst lt) = true)
  | PUnary t => Q t /\ is_unary (fst t) = true
  | PPostfix t => Q t /\ is_postfix (fst t) = true
  | PBinary t => Q t
  | PImplicit _ => True
  end.
Lemma pt_pok ps : Forall pt ps -> Forall pok ps.
Proof.
  intros F. eapply Forall_impl; [|exact F]. intros [] H; cbn in *; auto; [|tauto]. destruct H as [_ H]. destruct (fst t); try discriminate; reflexivity.
Qed.
Lemma apply_groups_tidy ps : forall a e, apply_groups a ps = Ok e -> Forall pt ps -> tidy a -> tidy e.
Proof.
  induction ps as [|p ps IH]; intros a e H F A; cbn in H; [injection H as <-; exact A|]. destruct p; try discriminate. destruct (is_grouping e0) eqn:Eg; [|discriminate].
  inversion F as [|? ? F1 F2]; subst. destruct e0; try discriminate. destruct F1 as [F1 F3]. apply (IH _ _ H F2). apply tidy_concat; [exact A|exact F1|]. intros h q X. cbn in X. injection X as <- _.
  exact (F3 _ _ _ eq_refl).
Qed.
Lemma combine_tidy n : forall ety ps e, combine n ety ps = Ok e -> Forall pt ps -> linked ps -> tidy e.
Proof.
  induction n as [|n IH]; intros ety ps e H F L; [discriminate|]. cbn [combine] in H.
  destruct ps as [|p [|q ps]]; [discriminate| |].
  - destruct p; try discriminate. injection H as <-. inversion F as [|? ? F1 F2]; subst. apply F1.
  - assert (H' : pbind (find_last_operator (p :: q :: ps)) (fun o => match o with
      | Some index =>
        if Nat.eqb index 0 then
          match p with
          | PUnary t => let* e := combine n ety (q :: ps) in Ok (Unary t e)
          | _ => Err
          end
        else if Nat.eqb index (length (p :: q :: ps) - 1) then
          match back (p :: q :: ps) with
          | Some (PPostfix t) => let* e := combine n ety (removelast (p :: q :: ps)) in Ok (Unary t e)
          | _ => Err
          end
        else
          match skipn index (p :: q :: ps) with
          | PBinary t :: others =>
            if (match ety with Value => true | _ => false end) && tt_eqb (fst t) RightArrow then Err
            else
              let* l := combine n ety (firstn index (p :: q :: ps)) in
              let* r := combine n ety others in
              Ok (Binary l t r)
          | PImplicit _ :: others =>
            let* l := combine n ety (firstn index (p :: q :: ps)) in
            let* r := combine n ety others in
            Ok (Concatenation l r)
          | _ => Err
          end
      | None =>
        match p with
        | PExpr e => apply_groups e (q :: ps)
        | _ => Err
        end
      end) = Ok e) by (destruct p; exact H). clear H. rename H' into H.
    set (l := p :: q :: ps) in *. pb H. rename a into o. destruct o as [index|].
    + destruct (Nat.eqb index 0).
      { destruct p; try discriminate. pb H. injection H as <-. inversion F as [|? ? F1 F2]; subst. apply tidy_prefix; [apply F1|apply F1|]. apply (IH _ _ _ E0 F2). exact L. }
      destruct (Nat.eqb index (length l - 1)).
      { destruct (back l) as [[| |t| |]|] eqn:Eb; try discriminate. pb H. injection H as <-. apply back_last in Eb. rewrite Eb in F, L. apply Forall_app in F. destruct F as [F1 F2].
        inversion F2 as [|? ? F3 _]; subst. apply tidy_postfix; [apply F3|apply F3|]. apply (IH _ _ _ E0 F1). apply (linked_left _ _ _ L). discriminate. }
      assert (El : l = firstn index l ++ skipn index l) by (symmetry; apply firstn_skipn).
      destruct (skipn index l) as [|x others] eqn:Es; [discriminate|]. destruct x; try discriminate.
      * destruct (_ && _); [discriminate|]. pb H. pb H. injection H as <-. rewrite El in F, L. apply Forall_app in F. destruct F as [F1 F2]. inversion F2 as [|? ? F3 F4]; subst.
        apply tidy_binary; [exact F3| |].
        -- apply (IH _ _ _ E0 F1). apply (linked_left _ _ _ L). discriminate.
        -- apply (IH _ _ _ E1 F4). apply linked_right in L. exact L.
      * pb H. pb H. injection H as <-. rewrite El in F, L. apply Forall_app in F. destruct F as [F1 F2]. inversion F2 as [|? ? F3 F4]; subst. pose proof (linked_right _ _ L) as L2. cbn [linked] in L2.
        apply tidy_concat.
        -- apply (IH _ _ _ E0 F1). apply (linked_left _ _ _ L). discriminate.
        -- apply (IH _ _ _ E1 F4). apply L2.
        -- intros h r X. rewrite (combine_flat _ _ _ _ E1 (pt_pok _ F4)) in X. destruct L2 as [L2 _]. destruct others as [|[[]| | | |] others]; try contradiction. cbn in X. injection X as <- _. exact L2.
    + destruct p; try discriminate. inversion F as [|? ? F1 F2]; subst. apply (apply_groups_tidy _ _ _ H F2). apply F1.
Qed.
Lemma find_brackets ps : forall i j, find_type_params ps = Some (i, j) -> exists t u, nth_error ps i = Some (PBinary t) /\ fst t = LessThan /\ nth_error ps j = Some (PBinary u) /\ fst u = GreaterThan.
Proof.
  induction ps as [|p ps IH]; intros i j H; [discriminate|]. cbn [find_type_params] in H.
  assert (N : option_map (fun '(i, j) => (S i, S j)) (find_type_params ps) = Some (i, j) ->
    exists t u, nth_error (p :: ps) i = Some (PBinary t) /\ fst t = LessThan /\ nth_error (p :: ps) j = Some (PBinary u) /\ fst u = GreaterThan).
  { intros X. destruct (find_type_params ps) as [[a b]|]; [|discriminate]. injection X as <- <-. cbn [nth_error]. eapply IH. reflexivity. }
  destruct p; auto. destruct (tt_eqb (fst t) LessThan) eqn:Et; auto. destruct (looks_like_type_params ps) as [k|] eqn:Ek; auto. injection H as <- <-. apply tt_eqb_eq in Et.
  assert (X : forall ps k, looks_like_type_params ps = Some k -> exists u, nth_error ps k = Some (PBinary u) /\ fst u = GreaterThan).
  { clear. induction ps as [|p ps IH]; intros k H; [discriminate|]. cbn [looks_like_type_params] in H.
    assert (N : option_map S (looks_like_type_params ps) = Some k -> exists u, nth_error (p :: ps) k = Some (PBinary u) /\ fst u = GreaterThan).
    { intros X. destruct (looks_like_type_params ps) as [k'|]; [|discriminate]. injection X as <-. apply IH. reflexivity. }
    destruct p; try discriminate; [destruct (could_be_part_of_type e); [auto|discriminate]|]. destruct (fst t) eqn:E; try discriminate; auto. injection H as <-. exists t. auto. }
  destruct (X _ _ Ek) as (u & U1 & U2). exists t, u. auto.
Qed.
Lemma group_tidy n : forall ps ps', group_type_parameters n ps = Ok ps' -> Forall pt ps -> linked ps -> Forall pt ps' /\ linked ps'.
Proof.
  induction n as [|n IH]; intros ps ps' H F L; [discriminate|]. cbn [group_type_parameters] in H.
  destruct (find_type_params ps) as [[i j]|] eqn:Ef; [|injection H as <-; auto].
  destruct (find_brackets _ _ _ Ef) as (opening & closing & Ei & To & Ej & Tc). rewrite Ei, Ej in H.
  destruct (find_type_params_lt _ _ _ Ef) as [Hij _]. pose proof (two_positions _ _ _ _ _ Hij Ei Ej) as E.
  cbv zeta in H. destruct (combine_partials Typ _) as [params| | |] eqn:Ec; try discriminate. cbn [pbind] in H.
  rewrite E in F, L. apply Forall_app in F. destruct F as [F1 F]. inversion F as [|? ? Fo F']; subst. apply Forall_app in F'. destruct F' as [F2 F']. inversion F' as [|? ? Fc F3]; subst.
  change (Forall pt (skipn (S j) ps)) in F3. change (Forall pt (skipn (S i) (firstn j ps))) in F2.
  assert (L1 : linked (firstn i ps)) by (apply (linked_left _ _ _ L); discriminate).
  pose proof (linked_right _ _ L) as L'. cbn [linked] in L'.
  assert (L2 : linked (skipn (S i) (firstn j ps))) by (apply (linked_left _ _ _ L'); discriminate).
  pose proof (linked_right _ _ L') as L3. cbn [linked] in L3.
  pose proof (combine_tidy _ _ _ _ Ec F2 L2) as Tp.
  assert (Tg : tidy (Grouping opening params closing)) by (apply tidy_group; auto; right; right; auto).
  apply (IH _ _ H).
  - apply Forall_app. split; [exact F1|]. constructor; [exact I|]. constructor.
    + split; [exact Tg|]. intros lt x rt X. injection X as <- _ _. rewrite To. reflexivity.
    + apply Forall_app. split; [|exact F3]. destruct (skipn (S j) ps) as [|p r]; [constructor|]. destruct (p_is_grouping p); repeat constructor.
  - apply linked_app; [exact L1|]. cbn [app linked]. rewrite To. split; [reflexivity|].
    destruct (skipn (S j) ps) as [|p r]; [exact I|]. destruct (p_is_grouping p) eqn:Eg; [|exact L3]. cbn [app linked]. split; [|exact L3].
    destruct p; try discriminate. destruct e; try discriminate. pose proof (Forall_inv F3) as [_ F4]. exact (F4 _ _ _ eq_refl).
Qed.

(** ** Parsing *)
Notation allp := (Forall P).
Definition tidies (n : nat) : Prop :=
  (forall ety tm ts e t rest, parse n ety tm ts = Ok (e, t, rest) -> allp ts -> tidy e /\ matches tm (fst t) = true /\ P t /\ allp rest) /\
  (forall ety tm acc ts ps t rest, partials n ety tm acc ts = Ok (ps, t, rest) -> allp ts -> Forall pt acc -> linked acc ->
    Forall pt ps /\ linked ps /\ matches tm (fst t) = true /\ P t /\ allp rest) /\
  (forall ts l rest, declarations n ts = Ok (l, rest) -> allp ts -> Forall dtidy l /\ allp rest) /\
  (forall close ts l rest, type_params n close ts = Ok (l, rest) -> allp ts -> Forall ptidy l /\ l <> [] /\ allp rest) /\
  (forall ts e t rest, value_block n ts = Ok (e, t, rest) -> allp ts -> tidy e /\ allp rest) /\
  (forall ts l t rest, match_cases n ts = Ok (l, t, rest) -> allp ts -> Forall (fun c => tidy (fst c) /\ tidy (snd c)) l /\ allp rest).
Lemma allp_skip ts : allp ts -> allp (skip_newlines ts).
Proof. induction 1 as [|t ts H F IH]; [constructor|]. cbn [skip_newlines]. destruct (tt_eqb (fst t) NewLine); [exact IH|constructor; assumption]. Qed.
Lemma allp_expect ty ts t r : expect ty ts = Ok (t, r) -> allp ts -> P t /\ fst t = ty /\ allp r.
Proof. intros H F. destruct ts as [|x ts]; [discriminate|]. cbn in H. destruct (tt_eqb (fst x) ty) eqn:E; [|discriminate]. injection H as <- <-. apply tt_eqb_eq in E. inversion F; subst. auto. Qed.
Lemma allp_tl ts : allp ts -> allp (tl ts).
Proof. intros F. destruct F; [constructor|assumption]. Qed.
Lemma one_match ty t : matches [ty] t = true -> t = ty.
Proof. unfold matches. cbn [existsb]. rewrite orb_false_r. apply tt_eqb_eq. Qed.
Lemma Qt t ty : P t -> fst t = ty -> real ty = true -> Q t.
Proof. intros A B C. split; [exact A|]. rewrite B. exact C. Qed.
Lemma pt_add acc p : Forall pt acc -> pt p -> Forall pt (acc ++ [p]).
Proof. intros A B. apply Forall_app. auto. Qed.
Lemma linked_add acc p : linked acc -> (forall t, p <> PImplicit t) -> linked (acc ++ [p]).
Proof. intros A B. apply linked_app; [exact A|]. destruct p; cbn; auto. destruct (B t). reflexivity. Qed.
Lemma tidy_word t : Q t -> (opens (fst t) && closes (fst t)) = true -> tidy (Singleton t).
Proof. intros A B. apply andb_true_iff in B. destruct B. apply tidy_single; assumption. Qed.

Lemma tidying n : tidies n.
Proof.
  induction n as [|n (I1 & I2 & I3 & I4 & I5 & I6)]; [repeat split; discriminate|].
  split; [|split; [|split; [|split; [|split]]]].
  - intros ety tm ts e t rest H F. rewrite parse_S in H. unfold parse_step in H. pb H. destruct a as [[ps t0] r]. pb H. destruct (_ && _); [|discriminate]. pb H.
    injection H as <- <- <-. destruct (I2 _ _ _ _ _ _ _ E F (Forall_nil _) I) as (A1 & A2 & A3 & A4 & A5). destruct (group_tidy _ _ _ E0 A1 A2) as [B1 B2].
    split; [exact (combine_tidy _ _ _ _ E1 B1 B2)|auto].
  - intros ety tm acc ts ps t rest H F Fa La. rewrite partials_S in H. unfold partials_step in H. destruct ts as [|t0 ts]; [discriminate|]. cbv zeta in H. inversion F as [|? ? P0 Fs]; subst.
    set (G := Forall pt ps /\ linked ps /\ matches tm (fst t) = true /\ P t /\ allp rest).
    assert (Add : forall p ts', partials n ety tm (acc ++ [p]) ts' = Ok (ps, t, rest) -> allp ts' -> pt p -> (forall t, p <> PImplicit t) -> G).
    { intros p ts' X Ft Hp Np. apply (I2 _ _ _ _ _ _ _ X Ft); [apply pt_add; assumption|apply linked_add; assumption]. }
    assert (Word : forall ts', partials n ety tm (acc ++ [PExpr (Singleton t0)]) ts' = Ok (ps, t, rest) -> allp ts' -> (real (fst t0) && (opens (fst t0) && closes (fst t0))) = true -> G).
    { intros ts' X Ft Y. apply andb_true_iff in Y. destruct Y as [Y1 Y2]. apply (Add _ _ X Ft); [|discriminate]. split; [|discriminate]. apply tidy_word; [split; assumption|exact Y2]. }
    assert (Brk : forall close, (let* (e, rt, ts) := parse n TypeArg [close] ts in partials n ety tm (acc ++ [PImplicit t0; PExpr (Grouping t0 e rt)]) ts) = Ok (ps, t, rest) ->
      pair (fst t0) close -> bracket (fst t0) = true -> G).
    { intros close X Hp Hb. pb X. destruct a as [[e rt] r]. destruct (I1 _ _ _ _ _ _ E Fs) as (A1 & A2 & A3 & A4). apply one_match in A2.
      assert (Tg : tidy (Grouping t0 e rt)).
      { apply tidy_group; [split; [exact P0|]|split; [exact A3|]|rewrite A2; exact Hp|exact A1]; [destruct (fst t0); try discriminate Hb; reflexivity|]. rewrite A2.
        destruct Hp as [[_ ->]|[[_ ->]|[_ ->]]]; reflexivity. }
      apply (I2 _ _ _ _ _ _ _ X A4).
      - apply Forall_app. split; [exact Fa|]. constructor; [exact I|]. constructor; [|constructor]. split; [exact Tg|]. intros lt x rt' Y. injection Y as <- _ _. exact Hb.
      - apply linked_app; [exact La|]. cbn. auto. }
    destruct (matches tm (fst t0)) eqn:Em; [injection H as <- <- <-; unfold G; auto|].
    destruct (tt_eqb (fst t0) LeftBracket) eqn:Elb; [apply tt_eqb_eq in Elb; apply (Brk _ H); [right; left; auto|rewrite Elb; reflexivity]|].
    destruct (tt_eqb (fst t0) LessThan && negb (in_value ety)) eqn:Elt.
    { apply andb_true_iff in Elt. destruct Elt as [Elt _]. apply tt_eqb_eq in Elt. apply (Brk _ H); [right; right; auto|rewrite Elt; reflexivity]. }
    destruct (is_binary (fst t0)) eqn:Eb.
    { assert (Hq : Q t0) by (split; [exact P0|destruct (fst t0); try discriminate Eb; reflexivity]).
      destruct (negb (binary_allowed ety (fst t0))); [discriminate|]. destruct (is_unary (fst t0) && negb (ends_with_expr acc)) eqn:Eu.
      - apply andb_true_iff in Eu. apply (Add _ _ H Fs); [split; [exact Hq|apply Eu]|discriminate].
      - apply (Add _ _ H); [destruct (continues _); [apply allp_skip|]; exact Fs|exact Hq|discriminate]. }
    destruct (is_unary (fst t0)) eqn:Eu.
    { apply (Add _ _ H Fs); [|discriminate]. split; [|exact Eu]. split; [exact P0|destruct (fst t0); try discriminate Eu; reflexivity]. }
    destruct (is_postfix (fst t0)) eqn:Ep.
    { apply (Add _ _ H Fs); [|discriminate]. split; [|exact Ep]. split; [exact P0|destruct (fst t0); try discriminate Ep; reflexivity]. }
    assert (B : (let* (params, ts) := params_part n (fst t0) ts in
        let* (args, ts) := args_part n params ts in
        let* (_, ts) := expect LeftBrace ts in
        let* (e, rb, ts) := value_block n ts in
        partials n ety tm (acc ++ [PExpr (match params with [] => Binder t0 args e rb | _ => GenericBinder t0 params args e rb end)]) ts) = Ok (ps, t, rest) ->
        match fst t0 with ForAll | Exists | Function_ | Choose => true | _ => false end = true -> G).
    { intros X Hb. pb X. destruct a as [params ts1]. pb X. destruct a as [args ts2]. pb X. destruct a as [lb ts3]. pb X. destruct a as [[e rb] ts4].
      assert (L1 : allp ts1 /\ Forall ptidy params /\ (params <> [] -> fst t0 = Function_)).
      { unfold params_part in E. destruct (tt_eqb (fst t0) Function_) eqn:Ef; [|injection E as <- <-; repeat split; [exact Fs|constructor|congruence]]. apply tt_eqb_eq in Ef.
        destruct ts as [|d r]; [injection E as <- <-; repeat split; [exact Fs|constructor|congruence]|]. inversion Fs; subst.
        destruct (tt_eqb (fst d) LeftBracket); [destruct (I4 _ _ _ _ E) as (X1 & X2 & X3); auto|]. destruct (tt_eqb (fst d) LessThan); [destruct (I4 _ _ _ _ E) as (X1 & X2 & X3); auto|].
        injection E as <- <-. auto. }
      destruct L1 as (L1 & Fp & Hf).
      assert (L2 : allp ts2 /\ Forall dtidy args).
      { unfold args_part in E0. destruct (negb (match params with [] => true | _ => false end) && peeks LeftBrace ts1); [injection E0 as <- <-; auto|]. pb E0. destruct a as [lp r]. apply allp_expect in E3; [|exact L1]. destruct E3 as (_ & _ & E3). cbv zeta in E0.
        pose proof (allp_skip _ E3) as E4. destruct (peeks RightParen _); [injection E0 as <- <-; split; [apply allp_tl; exact E4|constructor]|]. apply I3 in E0; [|exact E4]. tauto. }
      destruct L2 as (L2 & Fd). apply allp_expect in E1; [|exact L2]. destruct E1 as (_ & _ & E1). destruct (I5 _ _ _ _ E2 E1) as [Te L4].
      assert (Hq : Q t0) by (split; [exact P0|destruct (fst t0); try discriminate Hb; reflexivity]).
      apply (Add _ _ X L4); [|discriminate]. destruct params as [|p params]; [split; [apply tidy_binder; assumption|discriminate]|]. split; [|discriminate].
      apply tidy_generic; auto; [discriminate|]. apply Hf. discriminate. }
    destruct (fst t0) eqn:Et; try discriminate H; try (apply (Word _ H Fs); reflexivity).
    all: try (destruct (in_type ety); [discriminate H|]; first [apply (Word _ H Fs); reflexivity | apply (B H); reflexivity]).
    + cbv zeta in H.
      assert (Grp : forall e rt ts', partials n ety tm (acc ++ (if ends_with_expr acc then [PImplicit t0] else []) ++ [PExpr (Grouping t0 e rt)]) ts' = Ok (ps, t, rest) -> allp ts' ->
        tidy (Grouping t0 e rt) -> G).
      { intros e rt ts' X Ft Tg. apply (I2 _ _ _ _ _ _ _ X Ft).
        - apply Forall_app. split; [exact Fa|]. apply Forall_app. split; [destruct (ends_with_expr acc); repeat constructor|]. constructor; [|constructor]. split; [exact Tg|].
          intros lt x rt' Y. injection Y as <- _ _. rewrite Et. reflexivity.
        - apply linked_app; [exact La|]. destruct (ends_with_expr acc); cbn; [rewrite Et|]; auto. }
      assert (Hq : Q t0) by (apply (Qt _ LeftParen); auto).
      destruct (if in_value ety then _ else None) as [[[op rp] r]|] eqn:Eo.
      * destruct (in_value ety); [|discriminate]. destruct ts as [|op' [|rp' ts1]]; try discriminate. destruct (is_operator_ref (fst op') && tt_eqb (fst rp') RightParen) eqn:Eq; [|discriminate]. injection Eo as -> -> ->.
        apply andb_true_iff in Eq. destruct Eq as [Eq1 Eq2]. apply tt_eqb_eq in Eq2. inversion Fs as [|? ? Fo Fs']; subst. inversion Fs' as [|? ? Fr Fs'']; subst.
        apply (Grp _ _ _ H Fs''). apply tidy_operator; auto; [split; [exact Fo|destruct (fst op); try discriminate Eq1; reflexivity]|apply (Qt _ RightParen); auto].
      * pb H. destruct a as [[e rt] r]. destruct (I1 _ _ _ _ _ _ E Fs) as (A1 & A2 & A3 & A4). apply one_match in A2. apply (Grp _ _ _ H A4). apply tidy_group; auto; [apply (Qt _ RightParen); auto|].
        left. auto.
    + exact (I2 _ _ _ _ _ _ _ H Fs Fa La).
    + destruct (in_type ety); [discriminate H|]. pb H. destruct a as [[c lb] ts1]. pb H. destruct a as [[a rb] ts2]. destruct (I1 _ _ _ _ _ _ E Fs) as (A1 & _ & _ & A4).
      destruct (I5 _ _ _ _ E0 A4) as [B1 B2].
      destruct (peeks Else_ ts2).
      * pb H. destruct a0 as [lb' ts3]. pb H. destruct a0 as [[b rb'] ts4]. apply allp_expect in E1; [|apply allp_tl; exact B2]. destruct E1 as (_ & _ & E1). destruct (I5 _ _ _ _ E2 E1) as [C1 C2].
        apply (Add _ _ H C2); [|discriminate]. split; [|discriminate]. apply tidy_if; assumption.
      * apply (Add _ _ H B2); [|discriminate]. split; [|discriminate]. apply tidy_if; auto.
    + destruct (ends_with_dot acc); [apply (Word _ H Fs); reflexivity|]. destruct (in_type ety); [discriminate H|]. pb H. destruct a as [[c lb] ts1]. pb H. destruct a as [[cases rb] ts2].
      destruct (I1 _ _ _ _ _ _ E Fs) as (A1 & _ & _ & A4). destruct (I6 _ _ _ _ E0 A4) as [B1 B2]. destruct cases; [discriminate H|]. apply (Add _ _ H B2); [|discriminate]. split; [|discriminate].
      apply tidy_match; assumption.
  - intros ts l rest H F. rewrite declarations_S in H. unfold declarations_step in H. destruct ts as [|name ts]; [discriminate|]. inversion F as [|? ? P0 Fs]; subst.
    destruct (negb (variable_name name)) eqn:Ev; [discriminate|]. apply negb_false_iff in Ev.
    assert (Hq : Q name /\ closes (fst name) = true) by (split; [split; [exact P0|]|]; unfold variable_name in Ev; destruct (fst name); try discriminate Ev; reflexivity). destruct Hq as [Hq Hc].
    pb H. destruct a as [[d last] ts1].
    assert (L : dtidy d /\ allp ts1).
    { destruct (str_eqb _ _).
      - destruct ts as [|x ts]; [discriminate|]. destruct (matches _ _); [|discriminate]. injection E as <- _ <-. inversion Fs; subst. split; [|assumption].
        split; [reflexivity|]. split; [constructor; [exact Hq|constructor]|]. exists name, name. split; [apply neat_one|exact Hc].
      - pb E. destruct a as [c ts2]. pb E. destruct a as [[e la] ts3]. apply allp_expect in E0; [|exact Fs]. destruct E0 as (_ & _ & E0). destruct (I1 _ _ _ _ _ _ E1 E0) as ((A1 & A2 & h & m & N & O & C) & _ & _ & A4).
        injection E as <- _ <-. split; [|exact A4]. unfold dtidy. cbn [decl_pieces decl_flat]. split; [ts; rewrite A1; reflexivity|]. split; [qs|]. exists name, m. split; [|exact C].
        apply (neat_cons _ _ (gen Colon)); [apply (neat_cons_sp _ _ _ _ N)|apply apart_soft; reflexivity]. }
    destruct L as [L1 L2].
    destruct (tt_eqb (fst last) RightParen); [injection H as <- <-; auto|]. pb H. destruct a as [ds ts2]. destruct (I3 _ _ _ E0 (allp_skip _ L2)) as [A1 A2]. injection H as <- <-. auto.
  - intros close ts l rest H F. rewrite type_params_S in H. unfold type_params_step in H. pb H. destruct a as [name ts1]. destruct (allp_expect _ _ _ _ E F) as (P0 & T0 & F1). pb H. destruct a as [ty ts2].
    assert (Hq : Q name) by (apply (Qt _ Identifier); auto).
    assert (L : match ty with Some e => tidy e | None => True end /\ allp ts2).
    { destruct (peeks LeftBracket ts1) eqn:Ek; [|injection E0 as <- <-; auto]. destruct ts1 as [|lb ts1]; [discriminate|]. inversion F1 as [|? ? Pl Fl]; subst. cbn in Ek. apply tt_eqb_eq in Ek.
      pb E0. destruct a as [[e rb] ts3]. destruct (I1 _ _ _ _ _ _ E1 Fl) as (A1 & A2 & A3 & A4). apply one_match in A2. injection E0 as <- <-. split; [|exact A4].
      apply tidy_concat; [apply tidy_word; [exact Hq|rewrite T0; reflexivity]| |intros h q X; injection X as <- _; rewrite Ek; reflexivity].
      apply tidy_group; [apply (Qt _ LeftBracket); auto|apply (Qt _ RightBracket); auto|right; left; auto|exact A1]. }
    destruct L as [Lt L]. destruct ts2 as [|x ts2]; [discriminate|]. inversion L as [|? ? Px Fx]; subst. pb H. destruct a as [[class last] ts3].
    assert (L2 : match class with Some e => tidy e | None => True end /\ allp ts3).
    { destruct (tt_eqb (fst x) Colon); [|injection E1 as <- _ <-; auto]. pb E1. destruct a as [[e la] ts4]. destruct (I1 _ _ _ _ _ _ E2 Fx) as (A1 & _ & _ & A4). injection E1 as <- _ <-. auto. }
    destruct L2 as [Lc L2].
    assert (Tp : ptidy (TParam name ty class)).
    { assert (B : toks_of (match ty with Some e => pieces e | None => [T name] end) = match ty with Some e => flat e | None => [name] end /\
        Forall Q (match ty with Some e => flat e | None => [name] end) /\ exists h m, neat (match ty with Some e => pieces e | None => [T name] end) h m /\ closes (fst m) = true).
      { destruct ty as [e|]; [destruct Lt as (A1 & A2 & h & m & N & O & C); eauto 8|]. split; [reflexivity|]. split; [qs|]. exists name, name. split; [apply neat_one|rewrite T0; reflexivity]. }
      destruct B as (B1 & B2 & h & m & N & C). unfold ptidy. cbn [param_pieces param_flat]. destruct class as [e|].
      - destruct Lc as (A1 & A2 & h' & m' & N' & O' & C'). split; [ts; rewrite B1, A1; reflexivity|]. split; [qs|]. exists h, m'. split; [|exact C'].
        apply (neat_app _ _ _ _ _ _ N (neat_cons_sp (gen Colon) _ _ _ N')). apply apart_soft. reflexivity.
      - rewrite !app_nil_r. eauto 8. }
    destruct (tt_eqb (fst last) close); [injection H as <- <-; repeat split; auto; discriminate|]. destruct (tt_eqb (fst last) Comma); [|discriminate]. pb H. destruct a as [l' ts4].
    destruct (I4 _ _ _ _ E2 L2) as (A1 & _ & A3). injection H as <- <-. repeat split; auto. discriminate.
  - intros ts e t rest H F. rewrite value_block_S in H. unfold value_block_step in H. cbv zeta in H. destruct (peeks Let _); [discriminate|]. destruct (I1 _ _ _ _ _ _ H (allp_skip _ F)) as (A1 & _ & _ & A4). auto.
  - intros ts l t rest H F. rewrite match_cases_S in H. unfold match_cases_step in H. pose proof (allp_skip _ F) as L. destruct (skip_newlines ts) as [|x r]; [discriminate|].
    destruct (tt_eqb (fst x) RightBrace); [injection H as <- _ <-; inversion L; subst; auto|]. pb H. destruct a as [[p lb] ts1]. pb H. destruct a as [[e rb] ts2]. pb H. destruct a as [[l' rb'] ts3].
    destruct (I1 _ _ _ _ _ _ E L) as (A1 & _ & _ & A4). destruct (I5 _ _ _ _ E0 A4) as [B1 B2]. destruct (I6 _ _ _ _ E1 B2) as [C1 C2]. injection H as <- _ <-. split; [constructor; auto|exact C2].
Qed.
End Tidy.
