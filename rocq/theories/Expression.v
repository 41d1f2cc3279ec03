(** Model of the expression parser and printer, src/syntax/expression.rs, with the operator tables of src/syntax/token.rs.

    A token is its type and its text; positions are left out.  Error values carry no message.  Recursion is bounded by
    fuel ([Fuel]).  Blocks with local lets need the statement parser, which is not modelled: the parser stops with
    [LocalLet] there.  The token iterator is the list of the tokens that are left. *)
From Coq Require Import List NArith ZArith Bool.
Import ListNotations.
From Verif Require Import Scanner.

Definition tok : Set := (token_type * str)%type.
(** equality of token types, by their position in the enumeration *)
Definition tt_index (t : token_type) : N :=
  match t with
  | Identifier => 0 | Invalid => 1 | LeftParen => 2 | RightParen => 3 | LeftBrace => 4 | RightBrace => 5 | LeftBracket => 6 | RightBracket => 7
  | NewLine => 8 | Comma => 9 | Colon => 10 | Dot => 11 | RightArrow => 12 | Not => 13 | Or => 14 | And => 15
  | Iff => 16 | Equals => 17 | NotEquals => 18 | GreaterThan => 19 | LessThan => 20 | GreaterThanOrEquals => 21 | LessThanOrEquals => 22 | Plus => 23
  | Minus => 24 | Let => 25 | Axiom_ => 26 | Define => 27 | Theorem_ => 28 | Type_ => 29 | ForAll => 30 | Exists => 31
  | If_ => 32 | By => 33 | Function_ => 34 | Structure_ => 35 | Import_ => 36 | True_ => 37 | False_ => 38 | Else_ => 39
  | Class_ => 40 | Attributes => 41 | Asterisk => 42 | Percent => 43 | Slash => 44 | Numeral => 45 | Numerals => 46 | From_ => 47
  | Solve => 48 | Satisfy => 49 | SelfToken => 50 | Inductive_ => 51 | Match_ => 52 | Choose => 53 | Constraint_ => 54 | Implies => 55
  | Local_ => 56 | Lemma_ => 57 | Typeclass_ => 58 | Instance_ => 59 | Extends => 60 | DocComment => 61 | Lib => 62 | Transport => 63
  | Union => 64 | Intersection => 65 | Backslash => 66 | ElemOf => 67 | NotElemOf => 68 | Contains => 69 | NotContains => 70 | SubsetEq => 71
  | SupersetEq => 72 | Subset => 73 | Superset => 74 | QuestionMark => 75
  end%N.
Definition tt_eqb (a b : token_type) : bool := N.eqb (tt_index a) (tt_index b).

(** src/syntax/token.rs:168-173 *)
Definition is_operator_ref (t : token_type) : bool := match t with Equals | Not | And | Or => true | _ => false end.
(** 175-182 *)
Definition is_unary (t : token_type) : bool := match t with Not | Minus | Transport => true | _ => false end.
(** 184-186 *)
Definition is_postfix (t : token_type) : bool := match t with QuestionMark => true | _ => false end.
(** 188-222 *)
Definition is_binary (t : token_type) : bool :=
  match t with
  | Plus | Minus | RightArrow | Or | And | Iff | Equals | NotEquals | GreaterThan | LessThan | GreaterThanOrEquals
  | LessThanOrEquals | Comma | Colon | Dot | Asterisk | Percent | Slash | Implies | Union | Intersection | Backslash
  | ElemOf | NotElemOf | Contains | NotContains | SubsetEq | SupersetEq | Subset | Superset => true
  | _ => false
  end.
(** 234-269 *)
Definition binary_precedence (t : token_type) : Z :=
  match t with
  | Dot => 14 | Asterisk => 12 | Slash => 12 | Plus => 11 | Minus => 11 | Percent => 10 | GreaterThan => 9 | LessThan => 8
  | GreaterThanOrEquals => 8 | LessThanOrEquals => 8 | Equals => 7 | NotEquals => 7 | Or => 5 | And => 5 | Iff => 4
  | RightArrow => 3 | Implies => 3 | Colon => 2 | Union => 11 | Intersection => 12 | Backslash => 11
  | ElemOf | NotElemOf | Contains | NotContains | SubsetEq | SupersetEq | Subset | Superset => 9
  | Comma => 1 | _ => 0
  end%Z.
(** 273-275 *)
Definition is_right_associative (t : token_type) : bool := match t with RightArrow => true | _ => false end.
(** 278-285 *)
Definition unary_precedence (t : token_type) : Z := match t with Not => 6 | Minus => 13 | Transport => 6 | _ => 0 end%Z.
(** 288-293 *)
Definition postfix_precedence (t : token_type) : Z := match t with QuestionMark => 13 | _ => 0 end%Z.
(** 484-487 [generate] *)
Definition gen (t : token_type) : tok := (t, to_str t).

(** src/syntax/expression.rs:17-25 *)
Inductive etype := Value | Typ | TypeArg.
(** 28-97, 201-208, 281-290; without [Block] *)
Inductive declaration (E : Type) : Type := Typed (name : tok) (ty : E) | SelfDecl (t : tok).
Arguments Typed {E}. Arguments SelfDecl {E}.
Inductive type_param (E : Type) : Type := TParam (name : tok) (ty : option E) (class : option E).
Arguments TParam {E}.
Inductive expr : Type :=
| Singleton (t : tok)
| Unary (t : tok) (e : expr)
| Binary (l : expr) (t : tok) (r : expr)
| Concatenation (l r : expr)
| Grouping (lt : tok) (e : expr) (rt : tok)
| Binder (t : tok) (args : list (declaration expr)) (e : expr) (rb : tok)
| GenericBinder (t : tok) (params : list (type_param expr)) (args : list (declaration expr)) (e : expr) (rb : tok)
| IfThenElse (t : tok) (c a : expr) (b : option expr) (rb : tok)
| Match (t : tok) (s : expr) (cases : list (expr * expr)) (rb : tok).

(** ** The result of parsing *)
Inductive pres (A : Type) : Type := Ok (a : A) | Err | Fuel | LocalLet.
Arguments Ok {A}. Arguments Err {A}. Arguments Fuel {A}. Arguments LocalLet {A}.
Definition pbind {A B} (x : pres A) (f : A -> pres B) : pres B :=
  match x with Ok a => f a | Err => Err | Fuel => Fuel | LocalLet => LocalLet end.
Notation "'let*' p := x 'in' y" := (pbind x (fun p => y)) (at level 200, p strict pattern, x at level 100, y at level 200).

(** 428-449: a terminator is the list of the types it matches *)
Definition matches (tm : list token_type) (t : token_type) : bool := existsb (tt_eqb t) tm.

(** ** Partial expressions *)
(** 1109-1125 *)
Inductive partial : Type :=
| PExpr (e : expr) | PUnary (t : tok) | PPostfix (t : tok) | PBinary (t : tok) | PImplicit (t : tok).
(** 508-510, 1153-1160 [is_grouping] *)
Definition is_grouping (e : expr) : bool := match e with Grouping _ _ _ => true | _ => false end.
Definition p_is_grouping (p : partial) : bool := match p with PExpr e => is_grouping e | _ => false end.
Definition back {A} (l : list A) : option A := match rev l with x :: _ => Some x | [] => None end.

(** 1036-1053 *)
Fixpoint could_be_part_of_type (e : expr) : bool :=
  match e with
  | Singleton _ => true
  | Grouping _ e _ => could_be_part_of_type e
  | Binary l op r =>
    match fst op with
    | Comma | RightArrow => could_be_part_of_type l && could_be_part_of_type r
    | Dot => could_be_part_of_type r
    | _ => false
    end
  | Concatenation l r => could_be_part_of_type l && could_be_part_of_type r
  | _ => false
  end.

(** 1443-1501 [find_last_operator]: keys of the operators, and the largest *)
Definition key : Set := (Z * Z)%type.
Definition key_of (len i : nat) (p : partial) : option key :=
  match p with
  | PUnary t => if Nat.eqb i 0 then Some (- unary_precedence (fst t), Z.of_nat i)%Z else None
  | PPostfix t => if Nat.eqb i (len - 1) then Some (- postfix_precedence (fst t), Z.of_nat i)%Z else None
  | PBinary t => Some (- binary_precedence (fst t), if is_right_associative (fst t) then - Z.of_nat i else Z.of_nat i)%Z
  | PImplicit _ => Some (- binary_precedence Dot, Z.of_nat i)%Z
  | PExpr _ => None
  end.
Definition key_le (a b : key) : bool := Z.ltb (fst a) (fst b) || (Z.eqb (fst a) (fst b) && Z.leb (snd a) (snd b)).
Definition max_key (a b : option key) : option key :=
  match a, b with
  | Some x, Some y => if key_le x y then b else a
  | None, _ => b
  | _, None => a
  end.
Fixpoint best_key (len i : nat) (ps : list partial) : option key :=
  match ps with
  | [] => None
  | p :: r => max_key (key_of len i p) (best_key len (S i) r)
  end.
Definition find_last_operator (ps : list partial) : pres (option nat) :=
  match best_key (length ps) 0 ps with
  | Some (p, i) => if Z.eqb p 0 then Err else Ok (Some (Z.abs_nat i))
  | None => Ok None
  end.

(** 1643-1741 [combine_partial_expressions] *)
Fixpoint apply_groups (answer : expr) (ps : list partial) : pres expr :=
  match ps with
  | [] => Ok answer
  | PExpr e :: r => if is_grouping e then apply_groups (Concatenation answer e) r else Err
  | _ => Err
  end.
Fixpoint combine (n : nat) (ety : etype) (ps : list partial) : pres expr :=
  match n with
  | O => Fuel
  | S n =>
    match ps with
    | [] => Err
    | [PExpr e] => Ok e
    | [_] => Err
    | first :: others =>
      let* o := find_last_operator ps in
      match o with
      | Some index =>
        if Nat.eqb index 0 then
          match first with
          | PUnary t => let* e := combine n ety others in Ok (Unary t e)
          | _ => Err
          end
        else if Nat.eqb index (length ps - 1) then
          match back ps with
          | Some (PPostfix t) => let* e := combine n ety (removelast ps) in Ok (Unary t e)
          | _ => Err
          end
        else
          match skipn index ps with
          | PBinary t :: others =>
            if (match ety with Value => true | _ => false end) && tt_eqb (fst t) RightArrow then Err
            else
              let* l := combine n ety (firstn index ps) in
              let* r := combine n ety others in
              Ok (Binary l t r)
          | PImplicit _ :: others =>
            let* l := combine n ety (firstn index ps) in
            let* r := combine n ety others in
            Ok (Concatenation l r)
          | _ => Err
          end
      | None =>
        match first with
        | PExpr e => apply_groups e others
        | _ => Err
        end
      end
    end
  end.
Definition combine_partials (ety : etype) (ps : list partial) : pres expr := combine (S (length ps)) ety ps.

(** 1503-1528 [looks_like_type_params]: the number of partials before the closing bracket *)
Fixpoint looks_like_type_params (ps : list partial) : option nat :=
  match ps with
  | [] => None
  | PBinary t :: r =>
    match fst t with
    | Comma | RightArrow | Dot | Colon => option_map S (looks_like_type_params r)
    | GreaterThan => Some O
    | _ => None
    end
  | PExpr e :: r => if could_be_part_of_type e then option_map S (looks_like_type_params r) else None
  | _ => None
  end.
(** 1530-1547 [find_type_params]: positions of the two brackets *)
Fixpoint find_type_params (ps : list partial) : option (nat * nat) :=
  match ps with
  | [] => None
  | p :: r =>
    let next := option_map (fun '(i, j) => (S i, S j)) (find_type_params r) in
    match p with
    | PBinary t =>
      if tt_eqb (fst t) LessThan then
        match looks_like_type_params r with Some k => Some (O, S k) | None => next end
      else next
    | _ => next
    end
  end.
(** 1549-1589 [group_type_parameters] *)
Fixpoint group_type_parameters (n : nat) (ps : list partial) : pres (list partial) :=
  match n with
  | O => Fuel
  | S n =>
    match find_type_params ps with
    | Some (i, j) =>
      match nth_error ps j, nth_error ps i with
      | Some (PBinary closing), Some (PBinary opening) =>
        let after := skipn (S j) ps in
        let* params := combine_partials Typ (skipn (S i) (firstn j ps)) in
        let grouped := Grouping opening params closing in
        group_type_parameters n (firstn i ps ++ [PImplicit opening; PExpr grouped] ++
          (match after with p :: _ => if p_is_grouping p then [PImplicit closing] else [] | [] => [] end) ++ after)
      | _, _ => Err
      end
    | None => Ok ps
    end
  end.

(** 1591-1617 [check_partial_expressions] *)
Fixpoint check_partials (ps : list partial) : bool :=
  match ps with
  | a :: ((b :: _) as r) =>
    match a, b with
    | PBinary t, PBinary _ => tt_eqb (fst t) GreaterThan
    | PUnary _, PBinary _ => false
    | _, _ => true
    end && check_partials r
  | _ => true
  end.
(** 1619-1640 [check_unparenthesized_implies] *)
Fixpoint check_implies (saw : bool) (ps : list partial) : bool :=
  match ps with
  | [] => true
  | PBinary t :: r =>
    match fst t with
    | Comma => check_implies false r
    | Implies => if saw then false else check_implies true r
    | _ => check_implies saw r
    end
  | _ :: r => check_implies saw r
  end.

(** src/syntax/token.rs:1003-1012 *)
Fixpoint skip_newlines (ts : list tok) : list tok :=
  match ts with
  | t :: r => if tt_eqb (fst t) NewLine then skip_newlines r else ts
  | [] => []
  end.
(** 962-971 *)
Definition expect (ty : token_type) (ts : list tok) : pres (tok * list tok) :=
  match ts with t :: r => if tt_eqb (fst t) ty then Ok (t, r) else Err | [] => Err end.
(** 974-994, with [numeral_ok = false] *)
Definition variable_name (t : tok) : bool :=
  match fst t with
  | SelfToken => true
  | Identifier => match snd t with c :: _ => (97 <=? c)%N && (c <=? 122)%N | [] => false end
  | _ => false
  end.
Definition peek (ts : list tok) : option token_type := match ts with t :: _ => Some (fst t) | [] => None end.
Definition peeks (ty : token_type) (ts : list tok) : bool := match ts with t :: _ => tt_eqb (fst t) ty | [] => false end.
(** 1228-1250: what may stand in a type *)
Definition binary_allowed (ety : etype) (t : token_type) : bool :=
  match ety with
  | Value | TypeArg => negb (tt_eqb t Colon)
  | Typ => match t with Comma | RightArrow | Dot | LessThan | GreaterThan => true | _ => false end
  end.
(** 1276-1288: newlines are skipped after these *)
Definition continues (t : token_type) : bool :=
  match t with Equals | NotEquals | Or | And | Plus | Minus | Asterisk | Slash => true | _ => false end.
Definition ends_with_expr (ps : list partial) : bool := match back ps with Some (PExpr _) => true | _ => false end.
Definition ends_with_dot (ps : list partial) : bool := match back ps with Some (PBinary t) => tt_eqb (fst t) Dot | _ => false end.
Definition in_type (ety : etype) : bool := match ety with Typ => true | _ => false end.
Definition in_value (ety : etype) : bool := match ety with Value => true | _ => false end.

(** One level of the recursion; the functions in the context are those of the next level. *)
Section Step.
Context (parse : etype -> list token_type -> list tok -> pres (expr * tok * list tok))
  (partials : etype -> list token_type -> list partial -> list tok -> pres (list partial * tok * list tok))
  (declarations : list tok -> pres (list (declaration expr) * list tok))
  (type_params : token_type -> list tok -> pres (list (type_param expr) * list tok))
  (value_block : list tok -> pres (expr * tok * list tok))
  (match_cases : list tok -> pres (list (expr * expr) * tok * list tok)).
(** 824-841 [parse] *)
Definition parse_step (ety : etype) (tm : list token_type) (ts : list tok) : pres (expr * tok * list tok) :=
  let* (ps, t, rest) := partials ety tm [] ts in
  let* ps := group_type_parameters (S (length ps)) ps in
  if (in_type ety || check_implies false ps) && check_partials ps then
    let* e := combine_partials ety ps in Ok (e, t, rest)
  else Err.
(** 1162-1441 [parse_partial_expressions]; [acc] are the partials so far *)
Definition partials_step (ety : etype) (tm : list token_type) (acc : list partial) (ts : list tok) : pres (list partial * tok * list tok) :=
  match ts with
  | [] => Err
  | t :: ts =>
    let ty := fst t in
    if matches tm ty then Ok (acc, t, ts)
    else if tt_eqb ty LeftBracket then
      let* (e, rt, ts) := parse TypeArg [RightBracket] ts in
      partials ety tm (acc ++ [PImplicit t; PExpr (Grouping t e rt)]) ts
    else if tt_eqb ty LessThan && negb (in_value ety) then
      let* (e, rt, ts) := parse TypeArg [GreaterThan] ts in
      partials ety tm (acc ++ [PImplicit t; PExpr (Grouping t e rt)]) ts
    else if is_binary ty then
      if negb (binary_allowed ety ty) then Err
      else if is_unary ty && negb (ends_with_expr acc) then partials ety tm (acc ++ [PUnary t]) ts
      else partials ety tm (acc ++ [PBinary t]) (if continues ty then skip_newlines ts else ts)
    else if is_unary ty then partials ety tm (acc ++ [PUnary t]) ts
    else if is_postfix ty then partials ety tm (acc ++ [PPostfix t]) ts
    else
      match ty with
      | LeftParen =>
        let implicit := if ends_with_expr acc then [PImplicit t] else [] in
        match (if in_value ety then match ts with
               | op :: rp :: ts' => if is_operator_ref (fst op) && tt_eqb (fst rp) RightParen then Some (op, rp, ts') else None
               | _ => None end else None) with
        | Some (op, rp, ts') => partials ety tm (acc ++ implicit ++ [PExpr (Grouping t (Singleton op) rp)]) ts'
        | None =>
          let* (e, rt, ts) := parse ety [RightParen] ts in
          partials ety tm (acc ++ implicit ++ [PExpr (Grouping t e rt)]) ts
        end
      | Identifier | Axiom_ | Lib | Constraint_ => partials ety tm (acc ++ [PExpr (Singleton t)]) ts
      | Numeral | True_ | False_ | SelfToken =>
        if in_type ety then Err else partials ety tm (acc ++ [PExpr (Singleton t)]) ts
      | ForAll | Exists | Function_ | Choose =>
        if in_type ety then Err else
        let* (params, ts) :=
          (if tt_eqb ty Function_ then
             match ts with
             | d :: r =>
               if tt_eqb (fst d) LeftBracket then type_params RightBracket r
               else if tt_eqb (fst d) LessThan then type_params GreaterThan r
               else Ok ([], ts)
             | [] => Ok ([], ts)
             end
           else Ok ([], ts)) in
        let* (args, ts) :=
          (if negb (match params with [] => true | _ => false end) && peeks LeftBrace ts then Ok ([], ts)
           else let* (_, ts) := expect LeftParen ts in
                let ts := skip_newlines ts in
                if peeks RightParen ts then Ok ([], tl ts) else declarations ts) in
        let* (_, ts) := expect LeftBrace ts in
        let* (e, rb, ts) := value_block ts in
        let binder := match params with [] => Binder t args e rb | _ => GenericBinder t params args e rb end in
        partials ety tm (acc ++ [PExpr binder]) ts
      | If_ =>
        if in_type ety then Err else
        let* (c, _, ts) := parse Value [LeftBrace] ts in
        let* (a, rb, ts) := value_block ts in
        if peeks Else_ ts then
          let* (_, ts) := expect LeftBrace (tl ts) in
          let* (b, rb, ts) := value_block ts in
          partials ety tm (acc ++ [PExpr (IfThenElse t c a (Some b) rb)]) ts
        else partials ety tm (acc ++ [PExpr (IfThenElse t c a None rb)]) ts
      | Match_ =>
        if ends_with_dot acc then partials ety tm (acc ++ [PExpr (Singleton t)]) ts
        else if in_type ety then Err else
        let* (s, _, ts) := parse Value [LeftBrace] ts in
        let* (cases, rb, ts) := match_cases ts in
        match cases with
        | [] => Err
        | _ => partials ety tm (acc ++ [PExpr (Match t s cases rb)]) ts
        end
      | NewLine => partials ety tm acc ts
      | _ => Err
      end
  end.
(** 231-277 [Declaration::parse] and the loop of [parse_list] *)
Definition declarations_step (ts : list tok) : pres (list (declaration expr) * list tok) :=
  match ts with
  | [] => Err
  | name :: ts =>
    if negb (variable_name name) then Err else
    let* (d, last, ts) :=
      (if str_eqb (snd name) (to_str SelfToken) then
         match ts with
         | last :: ts => if matches [Comma; RightParen] (fst last) then Ok (SelfDecl name, last, ts) else Err
         | [] => Err
         end
       else
         let* (_, ts) := expect Colon ts in
         let* (e, last, ts) := parse Typ [Comma; RightParen] ts in
         Ok (Typed name e, last, ts)) in
    if tt_eqb (fst last) RightParen then Ok ([d], ts)
    else let* (ds, ts) := declarations (skip_newlines ts) in Ok (d :: ds, ts)
  end.
(** 311-424 [TypeParamExpr::parse_list] after the opening bracket; [close] is the closing one *)
Definition type_params_step (close : token_type) (ts : list tok) : pres (list (type_param expr) * list tok) :=
  let* (name, ts) := expect Identifier ts in
  let* (ty, ts) :=
    (if peeks LeftBracket ts then
       match ts with
       | lb :: ts =>
         let* (e, rb, ts) := parse Typ [RightBracket] ts in
         Ok (Some (Concatenation (Singleton name) (Grouping lb e rb)), ts)
       | [] => Err
       end
     else Ok (None, ts)) in
  match ts with
  | [] => Err
  | last :: ts =>
    let* (class, last, ts) :=
      (if tt_eqb (fst last) Colon then
         let* (e, last, ts) := parse Typ [Comma; close] ts in Ok (Some e, last, ts)
       else Ok (None, last, ts)) in
    let p := TParam name ty class in
    if tt_eqb (fst last) close then Ok ([p], ts)
    else if tt_eqb (fst last) Comma then let* (l, ts) := type_params close ts in Ok (p :: l, ts)
    else Err
  end.
(** 853-875 [parse_value_block] *)
Definition value_block_step (ts : list tok) : pres (expr * tok * list tok) :=
  let ts := skip_newlines ts in
  if peeks Let ts then LocalLet else parse Value [RightBrace] ts.
(** 1384-1410: the cases of a match *)
Definition match_cases_step (ts : list tok) : pres (list (expr * expr) * tok * list tok) :=
  match skip_newlines ts with
  | [] => Err
  | t :: r =>
    if tt_eqb (fst t) RightBrace then Ok ([], t, r)
    else
      let* (p, _, ts) := parse Value [LeftBrace] (t :: r) in
      let* (e, _, ts) := value_block ts in
      let* (l, rb, ts) := match_cases ts in
      Ok ((p, e) :: l, rb, ts)
  end.
End Step.
Fixpoint parse (n : nat) (ety : etype) (tm : list token_type) (ts : list tok) {struct n} : pres (expr * tok * list tok) :=
  match n with O => Fuel | S n => parse_step (partials n) ety tm ts end
with partials (n : nat) (ety : etype) (tm : list token_type) (acc : list partial) (ts : list tok) {struct n} : pres (list partial * tok * list tok) :=
  match n with
  | O => Fuel
  | S n => partials_step (parse n) (partials n) (declarations n) (type_params n) (value_block n) (match_cases n) ety tm acc ts
  end
with declarations (n : nat) (ts : list tok) {struct n} : pres (list (declaration expr) * list tok) :=
  match n with O => Fuel | S n => declarations_step (parse n) (declarations n) ts end
with type_params (n : nat) (close : token_type) (ts : list tok) {struct n} : pres (list (type_param expr) * list tok) :=
  match n with O => Fuel | S n => type_params_step (parse n) (type_params n) close ts end
with value_block (n : nat) (ts : list tok) {struct n} : pres (expr * tok * list tok) :=
  match n with O => Fuel | S n => value_block_step (parse n) ts end
with match_cases (n : nat) (ts : list tok) {struct n} : pres (list (expr * expr) * tok * list tok) :=
  match n with O => Fuel | S n => match_cases_step (parse n) (value_block n) (match_cases n) ts end.

(** ** The printed tokens (1771-2057 [pretty_ref]) *)
Fixpoint commas (l : list (list tok)) : list tok :=
  match l with [] => [] | [x] => x | x :: r => x ++ gen Comma :: commas r end.
Fixpoint flat (e : expr) : list tok :=
  let decl d := match d with Typed name ty => name :: gen Colon :: flat ty | SelfDecl t => [t] end in
  let param p := match p with TParam name ty class =>
    match ty with Some e => flat e | None => [name] end ++ match class with Some e => gen Colon :: flat e | None => [] end end in
  let args l := gen LeftParen :: commas (map decl l) ++ [gen RightParen] in
  match e with
  | Singleton t => [t]
  | Unary t e => if is_postfix (fst t) then flat e ++ [t] else t :: flat e
  | Binary l t r => flat l ++ t :: flat r
  | Concatenation l r => flat l ++ flat r
  | Grouping lt e rt => lt :: flat e ++ [rt]
  | Binder t l e rb => t :: args l ++ gen LeftBrace :: flat e ++ [gen RightBrace]
  | GenericBinder t ps l e rb =>
    t :: gen LeftBracket :: commas (map param ps) ++ gen RightBracket :: (match l with [] => [] | _ => args l end) ++
    gen LeftBrace :: flat e ++ [gen RightBrace]
  | IfThenElse t c a b rb =>
    gen If_ :: flat c ++ gen LeftBrace :: flat a ++ gen RightBrace ::
    match b with Some b => gen Else_ :: gen LeftBrace :: flat b ++ [gen RightBrace] | None => [] end
  | Match t s cases rb =>
    gen Match_ :: flat s ++ gen LeftBrace :: flat_map (fun '(p, e) => flat p ++ gen LeftBrace :: flat e ++ [gen RightBrace]) cases ++ [gen RightBrace]
  end.

(** ** Generated expressions *)
(** 743-765 [top_level_precedence]; [i8::MAX] is 127 *)
Definition top_level_precedence (unary_max : bool) (e : expr) : Z :=
  match e with
  | Unary t _ => if unary_max then 127%Z else unary_precedence (fst t)
  | Binary _ t _ => binary_precedence (fst t)
  | Concatenation _ _ => binary_precedence Dot
  | _ => 127%Z
  end.
Definition paren (e : expr) : expr := Grouping (gen LeftParen) e (gen RightParen).
(** 655-664 [generate_unary] *)
Definition generate_unary (op : token_type) (e : expr) : expr :=
  Unary (gen op) (if Z.ltb (top_level_precedence true e) (unary_precedence op) then paren e else e).
(** 667-687 [generate_binary] *)
Definition generate_binary (l : expr) (op : token_type) (r : expr) : expr :=
  Binary (if Z.ltb (top_level_precedence false l) (binary_precedence op) then paren l else l) (gen op)
    (if Z.leb (top_level_precedence true r) (binary_precedence op) then paren r else r).
(** 618-634 [generate_grouping]; [None] is the failed assertion on an empty list *)
Definition generate_grouping (es : list expr) (l r : token_type) : option expr :=
  match es with
  | [] => None
  | e :: es => Some (Grouping (gen l) (fold_left (fun a e => Binary a (gen Comma) e) es e) (gen r))
  end.
