(** Model of how the command line names a target and lines: [parse_target_and_line] (src/bin/acorn.rs 59-120).

    Simplified: strings are lists of code points (GoalPartition.v), which have the same colons and dashes as the UTF-8 bytes; the numbers
    of [line_positional] and [line_flag] are parsed by clap.  Errors have no text. *)
From Coq Require Import List NArith Bool.
Import ListNotations.
From Verif Require Import GoalPartition.
Open Scope N_scope.

Definition colon : char := 58.
Definition max_u32 : N := 4294967295.
(** [u32::from_str]: optional [+], at least one digit, no overflow *)
Fixpoint parse_digits32 (acc : N) (s : str) : option N :=
  match s with
  | [] => Some acc
  | c :: r =>
    match digit c with
    | None => None
    | Some d => let v := acc * 10 + d in if max_u32 <? v then None else parse_digits32 v r
    end
  end.
Definition parse_u32 (s : str) : option N :=
  match s with
  | [] => None
  | c :: r =>
    if c =? plus then match r with [] => None | _ => parse_digits32 0 r end
    else parse_digits32 0 s
  end.
(** [str::rfind] with the parts before and behind (acorn.rs 66-68) *)
Fixpoint split_last (sep : char) (s : str) : option (str * str) :=
  match s with
  | [] => None
  | c :: r => match split_last sep r with
              | Some (a, b) => Some (c :: a, b)
              | None => if c =? sep then Some ([], r) else None
              end
  end.

Inductive selection := Single (line : N) | Range (start stop : N).
Inductive parsed := Parsed (target : option str) (lines : option selection) | Refused.
Definition has {A} (o : option A) : bool := match o with Some _ => true | None => false end.
(** acorn.rs 110-119 *)
Definition parse_rest (target : option str) (pos flag : option N) : parsed :=
  if has pos && has flag then Refused
  else Parsed target (option_map Single (match pos with Some l => Some l | None => flag end)).
(** acorn.rs 101-108 *)
Definition parse_single (target : option str) (pos flag : option N) (m l : str) : parsed :=
  match parse_u32 l with Some n => Parsed (Some m) (Some (Single n)) | None => parse_rest target pos flag end.
(** acorn.rs 59-120 *)
Definition parse_target_and_line (target : option str) (pos flag : option N) : parsed :=
  match target with
  | None => parse_rest target pos flag
  | Some t =>
      match split_last colon t with
      | None => parse_rest target pos flag
      | Some (m, l) =>
          if (has pos || has flag) && (has (parse_u32 l) || existsb (fun c => c =? dash) l) then Refused
          else match split_once dash l with
            | Some (a, b) =>
                match parse_u32 a, parse_u32 b with
                | Some x, Some y => if y <? x then Refused else Parsed (Some m) (Some (Range x y))
                | _, _ => parse_single target pos flag m l
                end
            | None => parse_single target pos flag m l
            end
      end
  end.
