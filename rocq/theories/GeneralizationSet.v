(** Model of src/kernel/generalization_set.rs.

    Comparisons answer [None] for a panic in the type lookup, [Some None] for "not comparable". *)
From Coq Require Import List Arith NArith Bool.
Import ListNotations.
From Verif Require Import Term LocalContext Kbo TermNorm Literal Clause Typing Fingerprint Pdt.

Section Set_.
Context (big_endian : bool) (K : kctx).
Context (match_instance : lctx -> term -> lctx -> term -> bool).

(** 105-114: the values left out of the ordering *)
Definition unordered (t : term) : bool :=
  match t with TBind KLam _ _ | TBind KAll _ _ | TBind KEx _ _ => true | _ => false end.
(** term.rs:2661-2668 *)
Definition has_free_variable (t : term) : bool := match vars t with [] => false | _ => true end.

(** 80-195 [sub_invariant_term_cmp] *)
Fixpoint sub_cmp (c : lctx) (l : term) (lneg : bool) (r : term) (rneg : bool) {struct l}
  : option (option comparison) :=
  match bool_cmp lneg rneg with
  | Eq =>
    if is_variable (head_atom l) || is_variable (head_atom r) then Some None
    else if unordered l || unordered r then Some None
    else
      match get_type K c l, get_type K c r with
      | Some lt, Some rt =>
        if has_free_variable lt || has_free_variable rt then Some None
        else
          match term_cmp lt rt with
          | Eq =>
            match l, r with
            | TAtom a, TAtom b => Some (Some (atom_cmp a b))
            | TApp f a, TApp g b =>
              match sub_cmp c f false g false with
              | Some (Some Eq) => sub_cmp c a false b false
              | x => x
              end
            | TBind KPi A x, TBind KPi B y =>
              match sub_cmp c A false B false with
              | Some (Some Eq) => sub_cmp c x false y false
              | z => z
              end
            | TAtom _, TApp _ _ => Some (Some Lt)
            | TApp _ _, TAtom _ => Some (Some Gt)
            | TBind KPi _ _, _ => Some (Some Lt)
            | _, TBind KPi _ _ => Some (Some Gt)
            | _, _ => Some None
            end
          | x => Some (Some x)
          end
      | _, _ => None
      end
  | x => Some (Some x)
  end.

(** 45-75 [sub_invariant_literal_cmp] *)
Definition sub_literal_cmp (c : lctx) (a b : literal) : option (option comparison) :=
  match sub_cmp c (left a) (negb (positive a)) (left b) (negb (positive b)) with
  | Some (Some Eq) => sub_cmp c (right a) (negb (positive a)) (right b) (negb (positive b))
  | x => x
  end.

(** literal.rs [flip] *)
Definition flip (l : literal) : literal := Lit (positive l) (right l) (left l).

(** 197-236 [all_generalized_forms]: every choice of directions, in the order of the recursion.
    The code changes the clause in place and changes it back. *)
Fixpoint directions (c : lctx) (ls : list literal) : option (list (list literal)) :=
  match ls with
  | [] => Some [[]]
  | l :: r =>
    match sub_cmp c (left l) true (right l) true, directions c r with
    | Some cmp, Some ds =>
      Some ((match cmp with Some Lt => [] | _ => map (cons l) ds end) ++
            (match cmp with None | Some Lt => map (cons (flip l)) ds | _ => [] end))
    | _, _ => None
    end
  end.

(** 262-267: the unused literals, each with the others *)
Fixpoint picks {A} (l : list A) : list (A * list A) :=
  match l with
  | [] => []
  | x :: r => (x, r) :: map (fun p => (fst p, x :: snd p)) (picks r)
  end.
(** 238-312 [all_generalized_orders]: the orders in which no literal is less than the next.  The flags of
    used literals are the list of unused ones; [n] is their number. *)
Fixpoint orders (c : lctx) (n : nat) (last : option literal) (unused : list literal)
  : option (list (list literal)) :=
  match n with
  | 0 => Some [[]]
  | S n =>
    (fix go (ps : list (literal * list literal)) : option (list (list literal)) :=
       match ps with
       | [] => Some []
       | (x, others) :: ps =>
         let skip := match last with None => Some (Some Gt) | Some y => sub_literal_cmp c y x end in
         match skip with
         | None => None
         | Some (Some Lt) => go ps
         | _ =>
           match orders c n (Some x) others, go ps with
           | Some os, Some rest => Some (map (cons x) os ++ rest)
           | _, _ => None
           end
         end
       end) (picks unused)
  end.

Fixpoint concat_options {A} (l : list (option (list A))) : option (list A) :=
  match l with
  | [] => Some []
  | Some x :: r => option_map (app x) (concat_options r)
  | None :: _ => None
  end.
Fixpoint all_some {A} (l : list (option A)) : option (list A) :=
  match l with
  | [] => Some []
  | Some x :: r => option_map (cons x) (all_some r)
  | None :: _ => None
  end.

(** the clauses stored for one clause *)
Definition generalized_forms (cl : clause) : option (list clause) :=
  match directions (context cl) (literals cl) with
  | None => None
  | Some ds =>
    match concat_options (map (fun ls => orders (context cl) (length ls) None ls) ds) with
    | None => None
    | Some os => all_some (map (fun ls => normalize_var_ids_types_last (Clause ls (context cl))) os)
    end
  end.

(** 24-31 [insert]; [None] is a panic *)
Fixpoint insert_forms (p : pdt nat) (id : nat) (cs : list clause) : option (pdt nat) :=
  match cs with
  | [] => Some p
  | x :: r => match insert_clause big_endian p x id with Some p => insert_forms p id r | None => None end
  end.
Definition gset_insert (p : pdt nat) (cl : clause) (id : nat) : option (pdt nat) :=
  match generalized_forms cl with Some cs => insert_forms p id cs | None => None end.

(** 319-334: the larger term to the left; [None] is the panic of [expect] *)
Definition orient (c : lctx) (l : literal) : option literal :=
  match sub_cmp c (left l) true (right l) true with
  | Some (Some Lt) => Some (flip l)
  | Some (Some _) => Some l
  | _ => None
  end.
(** 336-342: the comparison of the sort; a panic when it is called on literals that do not compare.
    Which pairs a sort compares is not specified; here it panics if there is any such pair. *)
Definition comparable (c : lctx) (a b : literal) : bool :=
  match sub_literal_cmp c a b, sub_literal_cmp c b a with Some (Some _), Some (Some _) => true | _, _ => false end.
Fixpoint all_pairs {A} (f : A -> A -> bool) (l : list A) : bool :=
  match l with [] => true | x :: r => forallb (f x) r && all_pairs f r end.
Definition decreasing_cmp (c : lctx) (a b : literal) : comparison :=
  match sub_literal_cmp c a b with Some (Some x) => CompOpp x | _ => Eq end.

(** 314-346 [specialized_form] *)
Definition specialized_form (cl : clause) : option clause :=
  let c := context cl in
  match all_some (map (orient c) (literals cl)) with
  | None => None
  | Some ls =>
    if all_pairs (comparable c) ls then compact_var_ids (Clause (sort (decreasing_cmp c) ls) c) else None
  end.

(** 33-43 [find_generalization] *)
Definition gset_find (p : pdt nat) (cl : clause) : answer nat :=
  match specialized_form cl with
  | None => Pdt.Panics _
  | Some s => find_clause big_endian K match_instance p s
  end.
End Set_.
