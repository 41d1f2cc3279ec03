(** Model of src/goal_partition.rs.  A string is a list of Unicode code points.  The SHA-256
    digest is an arbitrary function returning a natural number (its first eight bytes). *)
From Coq Require Import List NArith Bool.
Import ListNotations.
Open Scope N_scope.

Definition char := N.
Definition str := list char.

(** Rust's [char::is_whitespace] (Unicode White_Space), used by [str::trim]. *)
Definition is_ws (c : char) : bool :=
  ((9 <=? c) && (c <=? 13)) || (c =? 32) || (c =? 133) || (c =? 160) || (c =? 5760) ||
  ((8192 <=? c) && (c <=? 8202)) || (c =? 8232) || (c =? 8233) || (c =? 8239) ||
  (c =? 8287) || (c =? 12288).

Fixpoint trim_start (s : str) : str :=
  match s with
  | [] => []
  | c :: r => if is_ws c then trim_start r else s
  end.
Definition trim (s : str) : str := rev (trim_start (rev (trim_start s))).

Definition comma : char := 44.
Definition dash : char := 45.
Definition plus : char := 43.

(** [str::split(sep)]: always at least one piece. *)
Fixpoint split (sep : char) (s : str) : list str :=
  match s with
  | [] => [[]]
  | c :: r =>
    if c =? sep then [] :: split sep r
    else match split sep r with
         | p :: ps => (c :: p) :: ps
         | [] => [[c]]
         end
  end.

(** [str::split_once(sep)] *)
Fixpoint split_once (sep : char) (s : str) : option (str * str) :=
  match s with
  | [] => None
  | c :: r =>
    if c =? sep then Some ([], r)
    else match split_once sep r with
         | Some (a, b) => Some (c :: a, b)
         | None => None
         end
  end.

Definition digit (c : char) : option N :=
  if (48 <=? c) && (c <=? 57) then Some (c - 48) else None.

(** [u8::from_str]: optional [+], at least one digit, no overflow past 255. *)
Fixpoint parse_digits (acc : N) (s : str) : option N :=
  match s with
  | [] => Some acc
  | c :: r =>
    match digit c with
    | None => None
    | Some d => let v := acc * 10 + d in if 255 <? v then None else parse_digits v r
    end
  end.
Definition parse_u8 (s : str) : option N :=
  match s with
  | [] => None
  | c :: r =>
    if c =? plus then match r with [] => None | _ => parse_digits 0 r end
    else parse_digits 0 s
  end.

(** goal_partition.rs:6 *)
Definition bucket_count : N := 100.

(** 110-123 *)
Definition parse_bucket (raw : str) : option N :=
  match parse_u8 (trim raw) with
  | None => None
  | Some b => if bucket_count <=? b then None else Some b
  end.

(** 26-36 *)
Record range := Range { start : N; end_ : N }.
Definition range_contains (r : range) (b : N) : bool := (start r <=? b) && (b <=? end_ r).

(** 38-45 *)
Definition filter_ := list range.
Definition contains (f : filter_) (b : N) : bool := existsb (fun r => range_contains r b) f.

(** 47-55; [None] models the assertion failure. *)
Definition single (b : N) : option filter_ :=
  if b <? bucket_count then Some [Range b b] else None.

(** Display of a [u8] *)
Definition show_u8 (n : N) : str :=
  if n <? 10 then [48 + n]
  else if n <? 100 then [48 + n / 10; 48 + n mod 10]
  else [48 + n / 100; 48 + (n / 10) mod 10; 48 + n mod 10].

(** 64-68 *)
Definition show_range (r : range) : str :=
  if start r =? end_ r then show_u8 (start r)
  else show_u8 (start r) ++ [dash] ++ show_u8 (end_ r).

(** 58-72: Display, entries joined by commas *)
Fixpoint show (f : filter_) : str :=
  match f with
  | [] => []
  | [r] => show_range r
  | r :: rest => show_range r ++ [comma] ++ show rest
  end.

(** 84-105: one entry *)
Definition parse_part (part : str) : option range :=
  let part := trim part in
  match part with
  | [] => None
  | _ =>
    match (match split_once dash part with
           | Some (a, b) =>
             match parse_bucket a with
             | None => None
             | Some s => match parse_bucket b with None => None | Some e => Some (s, e) end
             end
           | None =>
             match parse_bucket part with None => None | Some b => Some (b, b) end
           end) with
    | None => None
    | Some (s, e) => if e <? s then None else Some (Range s e)
    end
  end.

Fixpoint parse_parts (ps : list str) : option filter_ :=
  match ps with
  | [] => Some []
  | p :: r =>
    match parse_part p with
    | None => None
    | Some x => match parse_parts r with None => None | Some l => Some (x :: l) end
    end
  end.

(** 75-108: from_str *)
Definition parse (raw : str) : option filter_ :=
  match trim raw with
  | [] => None
  | raw' => parse_parts (split comma raw')
  end.

(** 14-24; [sha module goal] is the digest of "{module}\t{goal}", its first 8 bytes. *)
Definition goal_bucket (sha : str -> str -> N) (module goal : str) : N :=
  sha module goal mod bucket_count.
