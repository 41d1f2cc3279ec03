(** Model of src/proof_order.rs ([unit_support_order], lines 10-103).

    Literals are modelled by a sign and a body of an arbitrary type with decidable equality
    (the code only compares and negates them). [HashMap]/[HashSet]/[BTreeSet] are modelled by
    lists with the same lookup results; [BTreeSet] by an ascending list. *)
From Coq Require Import List Arith Bool.
Import ListNotations.

Section Order.
Context {A : Type} (eqb : A -> A -> bool).

Record lit := Lit { positive : bool; body : A }.
Definition clause := list lit.

Definition lit_eqb (x y : lit) : bool := Bool.eqb (positive x) (positive y) && eqb (body x) (body y).

(** literal.rs:78 [negate]. *)
Definition negate (l : lit) : lit := Lit (negb (positive l)) (body l).

Definition indexed {B} (l : list B) : list (nat * B) := combine (seq 0 (length l)) l.

(** 11-19: indices of the positive unit clauses made of exactly [l]. *)
Definition positive_units (cs : list clause) (l : lit) : list nat :=
  map fst (filter (fun ic => match snd ic with
                             | [u] => positive u && lit_eqb u l
                             | _ => false
                             end) (indexed cs)).

(** 40-43 / 63-66: record an edge once.  The pair is (support, dependent). *)
Definition add_edge (seen : list (nat * nat)) (e : nat * nat) : list (nat * nat) :=
  if existsb (fun x => Nat.eqb (fst x) (fst e) && Nat.eqb (snd x) (snd e)) seen
  then seen else seen ++ [e].

(** 24-46: long clauses waiting for positive units. *)
Definition edges_to_long (cs : list clause) (seen : list (nat * nat)) : list (nat * nat) :=
  fold_left (fun seen ic =>
    let '(dep, c) := ic in
    if Nat.leb (length c) 1 then seen else
    fold_left (fun seen l =>
      if positive l then seen else
      fold_left (fun seen sup => if Nat.leb sup dep then seen else add_edge seen (sup, dep))
                (positive_units cs (negate l)) seen) c seen)
  (indexed cs) seen.

(** 47-68: unit clauses waiting for long clauses that contain them. *)
Definition edges_to_units (cs : list clause) (seen : list (nat * nat)) : list (nat * nat) :=
  fold_left (fun seen ic =>
    let '(dep, c) := ic in
    match c with
    | [u] =>
      fold_left (fun seen jc =>
        let '(sup, sc) := jc in
        if Nat.leb sup dep || Nat.leb (length sc) 1 then seen else
        if existsb (fun l => lit_eqb l u) sc then add_edge seen (sup, dep) else seen)
      (indexed cs) seen
    | _ => seen
    end) (indexed cs) seen.

(** 21-68: all edges, in insertion order. *)
Definition all_edges (cs : list clause) : list (nat * nat) :=
  edges_to_units cs (edges_to_long cs []).

(** 41: [edges[support]]. *)
Definition edges_of (es : list (nat * nat)) (s : nat) : list nat :=
  map snd (filter (fun e => Nat.eqb (fst e) s) es).

(** 42: [indegree[dependent]] after the construction. *)
Definition indegree0 (es : list (nat * nat)) (n : nat) : list nat :=
  map (fun d => length (filter (fun e => Nat.eqb (snd e) d) es)) (seq 0 n).

Fixpoint update {B} (l : list B) (i : nat) (f : B -> B) : list B :=
  match l, i with
  | [], _ => []
  | x :: r, 0 => f x :: r
  | x :: r, S k => x :: update r k f
  end.

(** BTreeSet::insert on an ascending list. *)
Fixpoint set_insert (x : nat) (l : list nat) : list nat :=
  match l with
  | [] => [x]
  | y :: r => if Nat.ltb x y then x :: l else if Nat.eqb x y then l else y :: set_insert x r
  end.

(** 83-88: process the dependents of one popped index. *)
Definition relax (st : list nat * list nat) (d : nat) : list nat * list nat :=
  let '(indeg, ready) := st in
  let indeg' := update indeg d pred in
  (indeg', if Nat.eqb (nth d indeg' 1) 0 then set_insert d ready else ready).

(** 81-89: the main loop; [fuel] bounds the number of iterations. *)
Fixpoint kahn (fuel : nat) (es : list (nat * nat)) (indeg ready out : list nat) : option (list nat) :=
  match ready with
  | [] => Some out
  | i :: rest =>
    match fuel with
    | 0 => None
    | S fuel' =>
      let '(indeg', ready') := fold_left relax (edges_of es i) (indeg, rest) in
      kahn fuel' es indeg' ready' (out ++ [i])
    end
  end.

(** 73-78 *)
Definition ready0 (indeg : list nat) : list nat :=
  map fst (filter (fun x => Nat.eqb (snd x) 0) (indexed indeg)).

Inductive result := OutOfFuel | NoOrder | Order (l : list nat).

(** 10-103 *)
Definition unit_support_order (cs : list clause) : result :=
  let es := all_edges cs in
  match es with
  | [] => NoOrder
  | _ =>
    let n := length cs in
    let indeg := indegree0 es n in
    match kahn n es indeg (ready0 indeg) [] with
    | None => OutOfFuel
    | Some out =>
      if negb (Nat.eqb (length out) n) then NoOrder
      else if list_eq_dec Nat.eq_dec out (seq 0 n) then NoOrder
      else Order out
    end
  end.

End Order.
