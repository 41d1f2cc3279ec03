(** Meaning of literals and clauses.  Specification, not model of code. *)
From Coq Require Import List Arith NArith Bool.
Import ListNotations.
From Verif Require Import Term LocalContext Semantics Literal Clause.

Section Sem.
Context (M : Model).

(** A literal states that its sides have the same value (or, negated, different ones). *)
Definition lit_holds (rho : nat -> D M) (l : literal) : Prop :=
  if positive l then ev M rho (left l) = ev M rho (right l)
  else ev M rho (left l) <> ev M rho (right l).
Definition lit_wt (rho : nat -> D M) (l : literal) : Prop :=
  wt M rho (left l) /\ wt M rho (right l).

Definition cholds (rho : nat -> D M) (ls : list literal) : Prop :=
  exists l, In l ls /\ lit_holds rho l.

(** A clause holds if every assignment that respects the types of its variables satisfies some
    literal; if one of the types is empty there is no such assignment. *)
Definition valid (c : clause) : Prop :=
  forall rho, valid_env M (context c) rho -> cholds rho (literals c).

Definition clause_wt (c : clause) : Prop :=
  forall rho, valid_env M (context c) rho -> forall l, In l (literals c) -> lit_wt rho l.

(** The free variables that matter to a list of literals: those occurring, and those in the types of
    the ones that matter. *)
Inductive relevant (c : lctx) (ls : list literal) : nat -> Prop :=
| rel_left l v : In l ls -> In v (vars (left l)) -> relevant c ls v
| rel_right l v : In l ls -> In v (vars (right l)) -> relevant c ls v
| rel_type v T w : relevant c ls v -> get_var_type c v = Some T -> In w (vars T) -> relevant c ls w.

(** Every assignment that respects the types of the variables in [S] can be completed to one that
    respects all types: the types of the other variables are not empty. *)
Definition completable (c : lctx) (S : nat -> Prop) : Prop :=
  forall rho, (forall i T, S i -> get_var_type c i = Some T -> mem M (rho i) (ev M rho T)) ->
  exists rho', (forall i, S i -> rho' i = rho i) /\ valid_env M c rho'.
End Sem.
