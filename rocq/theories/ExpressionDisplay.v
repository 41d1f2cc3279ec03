(** Printing an expression on one line, from src/syntax/expression.rs and src/syntax/token.rs. *)
From Coq Require Import List NArith Bool.
Import ListNotations.
From Verif Require Import Scanner Expression.

(** src/syntax/token.rs:309-316 *)
Definition left_space (t : token_type) : bool := match t with Dot | Comma | Colon => false | _ => true end.
(** 319-324 *)
Definition right_space (t : token_type) : bool := match t with Dot => false | _ => true end.

(** A document without line breaks is a list of tokens and spaces. *)
Inductive piece := T (t : tok) | Sp.
Definition piece_text (p : piece) : str := match p with T t => snd t | Sp => [32%N] end.

(** 2033-2041, 1860-1867: the text [", "] between the elements *)
Fixpoint comma_list (l : list (list piece)) : list piece :=
  match l with [] => [] | [x] => x | x :: r => x ++ T (gen Comma) :: Sp :: comma_list r end.
(** src/syntax/expression.rs:1772-2057 [pretty_ref] with [flat = true], and 292-308 for type parameters; every [line()] is a space *)
Fixpoint pieces (e : expr) : list piece :=
  let decl d := match d with Typed name ty => T name :: T (gen Colon) :: Sp :: pieces ty | SelfDecl t => [T t] end in
  let param p := match p with TParam name ty class =>
    match ty with Some e => pieces e | None => [T name] end ++ match class with Some e => T (gen Colon) :: Sp :: pieces e | None => [] end end in
  let args l := T (gen LeftParen) :: comma_list (map decl l) ++ [T (gen RightParen)] in
  match e with
  | Singleton t => [T t]
  | Unary t e =>
    if is_postfix (fst t) then pieces e ++ [T t]
    else if tt_eqb (fst t) Minus then T t :: pieces e
    else T t :: Sp :: pieces e
  | Binary l t r => pieces l ++ (if left_space (fst t) then [Sp] else []) ++ T t :: (if right_space (fst t) then [Sp] else []) ++ pieces r
  | Concatenation l r => pieces l ++ pieces r
  | Grouping lt e rt => T lt :: pieces e ++ [T rt]
  | Binder t l e rb => T t :: args l ++ Sp :: T (gen LeftBrace) :: Sp :: pieces e ++ [Sp; T (gen RightBrace)]
  | GenericBinder t ps l e rb =>
    T t :: T (gen LeftBracket) :: comma_list (map param ps) ++ T (gen RightBracket) :: (match l with [] => [] | _ => args l end) ++
    Sp :: T (gen LeftBrace) :: Sp :: pieces e ++ [Sp; T (gen RightBrace)]
  | IfThenElse t c a b rb =>
    T (gen If_) :: Sp :: pieces c ++ Sp :: T (gen LeftBrace) :: Sp :: pieces a ++ Sp :: T (gen RightBrace) ::
    match b with Some b => Sp :: T (gen Else_) :: Sp :: T (gen LeftBrace) :: Sp :: pieces b ++ [Sp; T (gen RightBrace)] | None => [] end
  | Match t s cases rb =>
    T (gen Match_) :: Sp :: pieces s ++ Sp :: T (gen LeftBrace) ::
    flat_map (fun '(p, e) => Sp :: pieces p ++ Sp :: T (gen LeftBrace) :: Sp :: pieces e ++ [Sp; T (gen RightBrace)]) cases ++ [Sp; T (gen RightBrace)]
  end.
(** 184-193 [Display for Expression] *)
Definition display (e : expr) : str := flat_map piece_text (pieces e).
