(** Model of src/syntax/token_map.rs:8-121.  The B-tree is the list of its entries in key order. *)
From Coq Require Import List NArith Bool.
Import ListNotations.
Local Open Scope N_scope.

Definition u32 (n : N) : N := n mod 4294967296.
(** 8-13 [TokenKey]; the derived order compares line, start and length in this order *)
Record key := Key { k_line : N; k_start : N; k_len : N }.
Definition key_cmp (a b : key) : comparison :=
  match N.compare (k_line a) (k_line b) with
  | Eq => match N.compare (k_start a) (k_start b) with Eq => N.compare (k_len a) (k_len b) | c => c end
  | c => c
  end.
Definition key_lt (a b : key) : bool := match key_cmp a b with Lt => true | _ => false end.
(** 24-28; sums wrap *)
Definition contains (k : key) (line position : N) : bool :=
  N.eqb (k_line k) line && N.leb (k_start k) position && N.ltb position (u32 (k_start k + k_len k)).

Section Map.
Context {V : Type}.
(** [BTreeMap::insert] *)
Fixpoint tinsert (k : key) (v : V) (m : list (key * V)) : list (key * V) :=
  match m with
  | [] => [(k, v)]
  | (j, u) :: r =>
    match key_cmp k j with
    | Lt => (k, v) :: m
    | Eq => (k, v) :: r
    | Gt => (j, u) :: tinsert k v r
    end
  end.
(** 72-93 *)
Definition build (l : list (key * V)) : list (key * V) := fold_left (fun m e => tinsert (fst e) (snd e) m) l [].
(** [range(..key).last()] *)
Fixpoint last_before (k : key) (m : list (key * V)) : option (key * V) :=
  match m with
  | [] => None
  | e :: r => match last_before k r with
              | Some x => Some x
              | None => if key_lt (fst e) k then Some e else None
              end
  end.
(** 104-121 *)
Definition get (m : list (key * V)) (line position : N) : option (key * V) :=
  match last_before (Key line (u32 (position + 1)) 0) m with
  | Some e => if contains (fst e) line position then Some e else None
  | None => None
  end.
End Map.
