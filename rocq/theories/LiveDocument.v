(** Model of src/server/live_document.rs.  Text is the list of its Unicode code points.  Line numbers are unbounded here, 32 bits in the code. *)
From Coq Require Import List NArith ZArith Bool.
Import ListNotations.

Notation text := (list N).
Definition push (c : N) (ls : list text) : list text := match ls with l :: r => (c :: l) :: r | [] => [[c]] end.
(** 10-13: split at every match of [\r\n|\n] *)
Fixpoint split_lines (t : text) : list text :=
  match t with
  | [] => [[]]
  | c :: r =>
    if N.eqb c 10 then [] :: split_lines r
    else if N.eqb c 13 then
      match r with
      | d :: r' => if N.eqb d 10 then [] :: split_lines r' else push c (split_lines r)
      | [] => push c (split_lines r)
      end
    else push c (split_lines r)
  end.
(** 29-38; text and saved index *)
Notation line := (text * option nat)%type.
(** 18-26 *)
Record doc := Doc { lines : list line; live_version : Z; saved_version : Z }.
(** 41-49, 52-59 *)
Definition numbered_lines (t : text) : list line := let ls := split_lines t in combine ls (map Some (seq 0 (length ls))).
Definition nonnumbered_lines (t : text) : list line := map (fun l => (l, None)) (split_lines t).
(** 63-69 *)
Definition new (t : text) (v : Z) : doc := Doc (numbered_lines t) v v.
(** [lsp_types::Range]: start line, start character, end line, end character *)
Record range := Range { start_line : nat; start_char : nat; end_line : nat; end_char : nat }.
Definition line_text (d : doc) (i : nat) : text := match nth_error (lines d) i with Some l => fst l | None => [] end.
(** 75-130; [false] is an error *)
Definition change (d : doc) (r : option range) (t : text) (v : Z) : doc * bool :=
  match r with
  | None => (Doc (nonnumbered_lines t) v (saved_version d), true)
  | Some r =>
    if Nat.ltb (end_line r) (start_line r) || Nat.leb (length (lines d)) (end_line r) then (Doc (lines d) v (saved_version d), false)
    else
      let prefix := firstn (start_char r) (line_text d (start_line r)) in
      let suffix := skipn (end_char r) (line_text d (end_line r)) in
      (Doc (firstn (start_line r) (lines d) ++ nonnumbered_lines (prefix ++ t ++ suffix) ++ skipn (S (end_line r)) (lines d)) v (saved_version d), true)
  end.
(** 134-138 *)
Definition save (d : doc) (t : text) : doc := Doc (numbered_lines t) (live_version d) (live_version d).
(** 160-166 *)
Definition get_prefix (d : doc) (l c : nat) : text := firstn c (line_text d l).
(** 171-180; [None] is a panic: [im::Vector::take] asserts that it has so many elements *)
Fixpoint first_saved (ls : list line) : nat :=
  match ls with [] => 0 | (_, Some i) :: _ => i | (_, None) :: r => first_saved r end.
Definition get_env_line (d : doc) (current : nat) : option nat :=
  if Nat.leb (S current) (length (lines d)) then Some (first_saved (rev (firstn (S current) (lines d)))) else None.
