(** Model of the scanner, src/syntax/token.rs.

    A character is its code point, a string a list of characters; indices count bytes of the UTF-8 encoding,
    as in Rust.  [None] is a panic (a slice off a character boundary).  [char::is_alphanumeric] is the table
    [alnum]. *)
From Coq Require Import List NArith Bool String Ascii.
Import ListNotations.
Local Open Scope N_scope.

Notation str := (list N).
Definition chars (s : string) : str := map N_of_ascii (list_ascii_of_string s).

(** [char::len_utf8], [char::len_utf16] *)
Definition utf8 (c : N) : N := if c <? 128 then 1 else if c <? 2048 then 2 else if c <? 65536 then 3 else 4.
Definition utf16 (c : N) : N := if c <? 65536 then 1 else 2.
Fixpoint bytes (s : str) : N := match s with [] => 0 | c :: r => utf8 c + bytes r end.
Fixpoint units (s : str) : N := match s with [] => 0 | c :: r => utf16 c + units r end.

(** [&s[n..]], [&s[..n]] and [&s[a..b]] *)
Fixpoint drop_bytes (n : N) (s : str) : option str :=
  match s with
  | [] => if n =? 0 then Some [] else None
  | c :: r => if n =? 0 then Some s else if n <? utf8 c then None else drop_bytes (n - utf8 c) r
  end.
Fixpoint take_bytes (n : N) (s : str) : option str :=
  match s with
  | [] => if n =? 0 then Some [] else None
  | c :: r => if n =? 0 then Some [] else if n <? utf8 c then None else option_map (cons c) (take_bytes (n - utf8 c) r)
  end.
Definition slice (s : str) (a b : N) : option str :=
  if b <? a then None else match drop_bytes a s with Some r => take_bytes (b - a) r | None => None end.

(** 8-85 *)
Inductive token_type : Set :=
  Identifier | Invalid | LeftParen | RightParen | LeftBrace | RightBrace | LeftBracket | RightBracket | NewLine | Comma
| Colon | Dot | RightArrow | Not | Or | And | Iff | Equals | NotEquals | GreaterThan | LessThan | GreaterThanOrEquals
| LessThanOrEquals | Plus | Minus | Let | Axiom_ | Define | Theorem_ | Type_ | ForAll | Exists | If_ | By | Function_
| Structure_ | Import_ | True_ | False_ | Else_ | Class_ | Attributes | Asterisk | Percent | Slash | Numeral | Numerals
| From_ | Solve | Satisfy | SelfToken | Inductive_ | Match_ | Choose | Constraint_ | Implies | Local_ | Lemma_
| Typeclass_ | Instance_ | Extends | DocComment | Lib | Transport | Union | Intersection | Backslash | ElemOf | NotElemOf
| Contains | NotContains | SubsetEq | SupersetEq | Subset | Superset | QuestionMark.

(** 88-132 [keyword_map] *)
Definition keywords : list (str * token_type) := map (fun p => (chars (fst p), snd p))
  [ ("let", Let); ("axiom", Axiom_); ("define", Define); ("theorem", Theorem_); ("type", Type_); ("forall", ForAll);
    ("exists", Exists); ("if", If_); ("by", By); ("function", Function_); ("structure", Structure_); ("import", Import_);
    ("true", True_); ("false", False_); ("else", Else_); ("class", Class_); ("attributes", Attributes);
    ("numerals", Numerals); ("from", From_); ("solve", Solve); ("satisfy", Satisfy); ("and", And); ("or", Or);
    ("not", Not); ("self", SelfToken); ("inductive", Inductive_); ("match", Match_); ("choose", Choose);
    ("constraint", Constraint_); ("implies", Implies); ("local", Local_); ("lemma", Lemma_); ("typeclass", Typeclass_);
    ("instance", Instance_); ("extends", Extends); ("iff", Iff); ("lib", Lib); ("transport", Transport) ]%string.
Fixpoint str_eqb (a b : str) : bool :=
  match a, b with
  | [], [] => true
  | x :: a, y :: b => (x =? y) && str_eqb a b
  | _, _ => false
  end.
Definition keyword (s : str) : option token_type :=
  option_map snd (find (fun p => str_eqb (fst p) s) keywords).

(** 393-472 [to_str] *)
Definition to_str (t : token_type) : str :=
  match t with
  | Identifier => chars "<identifier>" | Invalid => chars "<invalid>" | Numeral => chars "<numeral>"
  | LeftParen => chars "(" | RightParen => chars ")" | LeftBrace => chars "{" | RightBrace => chars "}"
  | LeftBracket => chars "[" | RightBracket => chars "]" | NewLine => [10] | Comma => chars "," | Colon => chars ":"
  | Dot => chars "." | RightArrow => chars "->" | Not => chars "not" | Or => chars "or" | And => chars "and"
  | Iff => chars "iff" | Equals => chars "=" | NotEquals => chars "!=" | GreaterThan => chars ">" | LessThan => chars "<"
  | GreaterThanOrEquals => chars ">=" | LessThanOrEquals => chars "<=" | Plus => chars "+" | Minus => chars "-"
  | Let => chars "let" | Axiom_ => chars "axiom" | Define => chars "define" | Theorem_ => chars "theorem"
  | Type_ => chars "type" | ForAll => chars "forall" | Exists => chars "exists" | If_ => chars "if" | By => chars "by"
  | Function_ => chars "function" | Structure_ => chars "structure" | Import_ => chars "import" | True_ => chars "true"
  | False_ => chars "false" | Else_ => chars "else" | Class_ => chars "class" | Attributes => chars "attributes"
  | Asterisk => chars "*" | Percent => chars "%" | Slash => chars "/" | Numerals => chars "numerals" | From_ => chars "from"
  | Solve => chars "solve" | Satisfy => chars "satisfy" | SelfToken => chars "self" | Inductive_ => chars "inductive"
  | Match_ => chars "match" | Choose => chars "choose" | Constraint_ => chars "constraint" | Implies => chars "implies"
  | Local_ => chars "local" | Lemma_ => chars "lemma" | Typeclass_ => chars "typeclass" | Instance_ => chars "instance"
  | Extends => chars "extends" | DocComment => chars "///" | Lib => chars "lib" | Transport => chars "transport"
  | Union => [8746] | Intersection => [8745] | Backslash => [8726] | ElemOf => [8712] | NotElemOf => [8713]
  | Contains => [8715] | NotContains => [8716] | SubsetEq => [8838] | SupersetEq => [8839] | Subset => [8834]
  | Superset => [8835] | QuestionMark => chars "?"
  end.

(** 490-507; the fields [start], [len] and [line_number] are [u32] *)
Record token := Token { t_type : token_type; t_line : str; t_number : N; t_start : N; t_len : N }.
Definition u32 (n : N) : N := n mod 4294967296.

(** 531-535; [None] also when the addition overflows *)
Definition text (t : token) : option str :=
  if t_start t + t_len t <? 4294967296 then slice (t_line t) (t_start t) (t_start t + t_len t) else None.
(** 561-579 [start_pos], [end_pos]: line and UTF-16 offset *)
Definition start_pos (t : token) : option (N * N) :=
  option_map (fun s => (t_number t, u32 (units s))) (take_bytes (t_start t) (t_line t)).
Definition end_pos (t : token) : option (N * N) :=
  if t_start t + t_len t <? 4294967296
  then option_map (fun s => (t_number t, u32 (units s))) (take_bytes (t_start t + t_len t) (t_line t))
  else None.

(** [str::lines]: pieces up to a newline, which is cut off, with a carriage return before it *)
Fixpoint split_lines (s : str) : list (str * bool) :=
  match s with
  | [] => []
  | c :: r =>
    if c =? 10 then ([], true) :: split_lines r
    else match split_lines r with
         | [] => [([c], false)]
         | (l, e) :: ls => (c :: l, e) :: ls
         end
  end.
Fixpoint strip_return (s : str) : str :=
  match s with
  | [] => []
  | c :: r => match r with [] => if c =? 13 then [] else s | _ => c :: strip_return r end
  end.
Definition lines (s : str) : list str := map (fun p => if snd p : bool then strip_return (fst p) else fst p) (split_lines s).

(** [str::char_indices] *)
Fixpoint char_indices (pos : N) (s : str) : list (N * N) :=
  match s with [] => [] | c :: r => (pos, c) :: char_indices (pos + utf8 c) r end.

Section Scan.
Context (alnum : N -> bool).

(** 600-602 *)
Definition identifierish (c : N) : bool := alnum c || (c =? 95).
Definition is_digit (c : N) : bool := (48 <=? c) && (c <=? 57).

(** [Peekable::next_if_eq] *)
Definition next_if_eq (p : N * N) (it : list (N * N)) : option (list (N * N)) :=
  match it with
  | q :: r => if (fst q =? fst p) && (snd q =? snd p) then Some r else None
  | [] => None
  end.
(** 807-814, 818-826: skip while the next character satisfies [f] *)
Fixpoint skip_while (f : N -> bool) (it : list (N * N)) : list (N * N) :=
  match it with
  | (i, c) :: r => if f c then skip_while f r else it
  | [] => []
  end.
(** 793-797: up to and including a newline *)
Fixpoint skip_line (it : list (N * N)) : list (N * N) :=
  match it with
  | (i, c) :: r => if c =? 10 then r else skip_line r
  | [] => []
  end.
(** 836-840 *)
Definition position_of (line : str) (it : list (N * N)) : N :=
  match it with (p, _) :: _ => p | [] => bytes line end.

(** 743-834: the type of the token that starts with [c] at [i], and the rest.  [None] is the panic of the
    slice; [Some None] is a skipped character. *)
Definition scan_char (line : str) (white : bool) (i c : N) (it : list (N * N))
  : option (option (token_type * list (N * N))) :=
  let two d yes no := match next_if_eq (i + 1, d) it with Some r => Some (Some (yes, r)) | None => Some (Some (no, it)) end in
  let one t := Some (Some (t, it)) in
  match c with
  | 32 | 9 => Some None
  | 40 => one LeftParen | 41 => one RightParen | 123 => one LeftBrace | 125 => one RightBrace
  | 91 => one LeftBracket | 93 => one RightBracket | 10 => one NewLine | 44 => one Comma | 58 => one Colon | 46 => one Dot
  | 33 => two 61 NotEquals Invalid
  | 61 => one Equals | 43 => one Plus | 42 => one Asterisk | 37 => one Percent
  | 8746 => one Union | 8745 => one Intersection | 8726 => one Backslash | 8712 => one ElemOf | 8713 => one NotElemOf
  | 8715 => one Contains | 8716 => one NotContains | 8838 => one SubsetEq | 8839 => one SupersetEq | 8834 => one Subset
  | 8835 => one Superset | 63 => one QuestionMark
  | 45 => two 62 RightArrow Minus
  | 60 => two 61 LessThanOrEquals LessThan
  | 62 => two 61 GreaterThanOrEquals GreaterThan
  | 47 =>
    match next_if_eq (i + 1, 47) it with
    | None => one Slash
    | Some it1 =>
      let (doc, it2) := match next_if_eq (i + 2, 47) it1 with Some r => (true, r) | None => (false, it1) end in
      Some (Some (if doc && white then DocComment else NewLine, skip_line it2))
    end
  | _ =>
    if is_digit c then Some (Some (Numeral, skip_while is_digit it))
    else if identifierish c then
      let rest := skip_while identifierish it in
      match slice line i (position_of line rest) with
      | None => None
      | Some word => Some (Some (match keyword word with Some t => t | None => Identifier end, rest))
      end
    else one Invalid
  end.

(** 738-858: one line.  [fuel] bounds the number of characters. *)
Fixpoint scan_line (fuel : nat) (line : str) (number : N) (white : bool) (it : list (N * N)) : option (list token) :=
  match fuel, it with
  | S fuel, (i, c) :: it =>
    match scan_char line white i c it with
    | None => None
    | Some None => scan_line fuel line number white it
    | Some (Some (t, rest)) =>
      option_map (cons (Token t line number (u32 i) (u32 (position_of line rest - i))))
        (scan_line fuel line number false rest)
    end
  | _, _ => Some [Token NewLine line number (u32 (bytes line)) 0]
  end.

Fixpoint scan_lines (number : N) (ls : list str) : option (list token) :=
  match ls with
  | [] => Some []
  | l :: r =>
    match scan_line (List.length l) l (u32 number) true (char_indices 0 l), scan_lines (number + 1) r with
    | Some a, Some b => Some (a ++ b)
    | _, _ => None
    end
  end.
(** 731-861 [scan_with_start_line] *)
Definition scan (start : N) (input : str) : option (list token) := scan_lines start (lines input).
End Scan.
