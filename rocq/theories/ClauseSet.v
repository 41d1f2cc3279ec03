(** Model of src/kernel/clause_set.rs.  Hash sets are duplicate-free lists, hash maps association
    lists; nothing depends on their order except where a parameter says so. *)
From Coq Require Import List Arith NArith Bool.
Import ListNotations.
From Verif Require Import Kbo Literal.

(** 8-28, 58-63: term and group ids are numbers *)
Record litid := LitId { lleft : N; lright : N; lpos : bool }.
Definition litid_eq_dec (a b : litid) : {a = b} + {a <> b}.
Proof. decide equality; [apply Bool.bool_dec|apply N.eq_dec|apply N.eq_dec]. Defined.
Definition litid_eqb (a b : litid) : bool := if litid_eq_dec a b then true else false.

(** 66-81 [LiteralId::new] *)
Definition litid_new (l r : N) (p : bool) : litid := if N.leb l r then LitId l r p else LitId r l p.

(** derived order, 57: left, right, positive *)
Definition litid_cmp (a b : litid) : comparison :=
  lexc (N.compare (lleft a) (lleft b))
    (lexc (N.compare (lright a) (lright b)) (bool_cmp (lpos a) (lpos b))).

Definition clauseid := list litid.
Definition clauseid_eq_dec (a b : clauseid) : {a = b} + {a <> b} := list_eq_dec litid_eq_dec a b.

(** 117-121 *)
Inductive normalization := NTrue | NFalse | NClause (c : clauseid).

(** 169-180: the loop with early return; [None] is the return of [True] *)
Fixpoint filter_reflexive (l : list litid) : option (list litid) :=
  match l with
  | [] => Some []
  | x :: r =>
    if N.eqb (lleft x) (lright x) then
      if lpos x then None else filter_reflexive r
    else option_map (cons x) (filter_reflexive r)
  end.
(** 189-197 *)
Definition opposite (a b : litid) : bool :=
  N.eqb (lleft a) (lleft b) && N.eqb (lright a) (lright b) && negb (Bool.eqb (lpos a) (lpos b)).
Fixpoint has_opposites (l : list litid) : bool :=
  match l with
  | [] => false
  | x :: r => existsb (opposite x) r || has_opposites r
  end.
(** 161-201 [ClauseId::new] *)
Definition clauseid_new (l : list litid) : normalization :=
  match filter_reflexive (dedup litid_eqb (sort litid_cmp l)) with
  | None => NTrue
  | Some [] => NFalse
  | Some l' => if has_opposites l' then NTrue else NClause l'
  end.

(** maps and sets *)
Section Maps.
Context {K X : Type} (keqb : K -> K -> bool).
Fixpoint map_get (m : list (K * X)) (k : K) : option X :=
  match m with [] => None | (k', x) :: r => if keqb k k' then Some x else map_get r k end.
Fixpoint map_remove (m : list (K * X)) (k : K) : list (K * X) :=
  match m with [] => [] | (k', x) :: r => if keqb k k' then map_remove r k else (k', x) :: map_remove r k end.
Definition map_set (m : list (K * X)) (k : K) (x : X) : list (K * X) := (k, x) :: map_remove m k.
End Maps.

Definition set := list clauseid.
Definition set_mem (c : clauseid) (s : set) : bool := if in_dec clauseid_eq_dec c s then true else false.
Definition set_insert (c : clauseid) (s : set) : set := if set_mem c s then s else c :: s.
Definition set_remove (c : clauseid) (s : set) : set :=
  filter (fun d => if clauseid_eq_dec c d then false else true) s.

(** 237-241 *)
Record clauseset := CS {
  cs_clauses : set;
  cs_group : list (N * set);
  cs_literal : list (litid * set)
}.
Definition cs_new : clauseset := CS [] [] [].

(** [entry(k).or_insert_with(HashSet::new).insert(c)] *)
Definition index_add {K} (keqb : K -> K -> bool) (m : list (K * set)) (k : K) (c : clauseid) : list (K * set) :=
  map_set keqb m k (set_insert c (match map_get keqb m k with Some s => s | None => [] end)).
(** [if let Some(s) = get_mut(k) { s.remove(c); if s.is_empty() { remove(k) } }] *)
Definition index_del {K} (keqb : K -> K -> bool) (m : list (K * set)) (k : K) (c : clauseid) : list (K * set) :=
  match map_get keqb m k with
  | None => m
  | Some s => match set_remove c s with [] => map_remove keqb m k | s' => map_set keqb m k s' end
  end.

(** 252-272 [insert] *)
Definition cs_insert (s : clauseset) (c : clauseid) : clauseset :=
  if set_mem c (cs_clauses s) then s else
  CS (c :: cs_clauses s)
     (fold_left (fun m l => index_add N.eqb (index_add N.eqb m (lleft l) c) (lright l) c) c (cs_group s))
     (fold_left (fun m l => index_add litid_eqb m l c) c (cs_literal s)).

(** 279-309 [remove] *)
Definition cs_remove (s : clauseset) (c : clauseid) : clauseset * bool :=
  if set_mem c (cs_clauses s) then
    (CS (set_remove c (cs_clauses s))
        (fold_left (fun m l => index_del N.eqb (index_del N.eqb m (lleft l) c) (lright l) c) c (cs_group s))
        (fold_left (fun m l => index_del litid_eqb m l c) c (cs_literal s)), true)
  else (s, false).

(** 313-327 [remove_literal], 331-345 [remove_group]: the set to remove, and its removal in some
    iteration order *)
Definition literal_entry (s : clauseset) (l : litid) : set :=
  match map_get litid_eqb (cs_literal s) l with Some x => x | None => [] end.
Definition group_entry (s : clauseset) (g : N) : set :=
  match map_get N.eqb (cs_group s) g with Some x => x | None => [] end.
Definition cs_remove_all (s : clauseset) (order : list clauseid) : clauseset :=
  fold_left (fun s c => fst (cs_remove s c)) order s.

(** 349-435 [validate]; [false] is a panic *)
Definition mentions (g : N) (c : clauseid) : bool := existsb (fun l => N.eqb (lleft l) g || N.eqb (lright l) g) c.
Definition cs_validate (s : clauseset) : bool :=
  forallb (fun c => forallb (fun l =>
      set_mem c (group_entry s (lleft l)) && set_mem c (group_entry s (lright l)) &&
      set_mem c (literal_entry s l)) c) (cs_clauses s) &&
  forallb (fun e => forallb (fun c => set_mem c (cs_clauses s) && mentions (fst e) c) (snd e)) (cs_group s) &&
  forallb (fun e => forallb (fun c => set_mem c (cs_clauses s) && existsb (litid_eqb (fst e)) c) (snd e)) (cs_literal s).
