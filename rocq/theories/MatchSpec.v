(** Specification: match eliminators, their metadata and their values, and the terms whose matches are
    clausified with the same meaning. *)
From Coq Require Import List Arith NArith Bool.
Import ListNotations.
From Verif Require Import Term LocalContext Semantics TermProofs Typing Monomorphic PolyTyped Clausifier ClausifierConv.

(** ** what a match eliminator is *)
Definition dapps (M : Model) (f : D M) (l : list (D M)) : D M := fold_left (dapp M) l f.
Fixpoint okapps (M : Model) (f : D M) (l : list (D M)) : Prop :=
  match l with [] => True | a :: l => appok M f a /\ okapps M (dapp M f a) l end.
(** the fields of a constructor, when its data type has [k] parameters *)
Definition fields (K : kctx) (k : nat) (ctor : symbol) : nat := length (pi_inputs (symbol_type K ctor)) - k.
(** Each value of the data type is a constructor applied to fields, and the eliminator applied to it is
    the case of this constructor applied to these fields. *)
Definition eliminators_compute (K : kctx) (ME : symbol -> option (list symbol)) (M : Model) : Prop :=
  forall s ctors, ME s = Some ctors ->
  forall As R d fs, S (length As) = count_type_params (symbol_type K s) -> length fs = length ctors ->
  okapps M (dsym M s) (As ++ R :: d :: fs) ->
  (exists ctor ds, In ctor ctors /\ length ds = fields K (length As) ctor /\ okapps M (dsym M ctor) (As ++ ds) /\
     d = dapps M (dsym M ctor) (As ++ ds)) /\
  (forall j ctor f ds, nth_error ctors j = Some ctor -> nth_error fs j = Some f -> length ds = fields K (length As) ctor ->
     okapps M (dsym M ctor) (As ++ ds) -> d = dapps M (dsym M ctor) (As ++ ds) ->
     okapps M f ds /\ dapps M (dsym M s) (As ++ R :: d :: fs) = dapps M f ds).

(** the type [T] of a symbol with its first parameters set to [l] *)
Fixpoint instance (T : term) (l : list term) : term :=
  match l, T with
  | A :: l, TBind KPi _ B => instance (open_at 0 A B) l
  | _, _ => T
  end.
(** The metadata lists the constructors of a data type in the order of the cases of its eliminator, whose type is that
    of a match on this data type with any type of results. *)
Definition match_metadata (K : kctx) (ME : symbol -> option (list symbol)) : Prop :=
  forall s ctors, ME s = Some ctors -> value_symbol s = true /\
  exists k, count_type_params (symbol_type K s) = S k /\
  Forall (fun ctor => value_symbol ctor = true /\ ME ctor = None /\
    firstn k (pi_inputs (symbol_type K ctor)) = firstn k (pi_inputs (symbol_type K s))) ctors /\
  forall g As R, length As = k -> Forall (fun A => ptm K g 0 A = true) As -> ptm K g 0 R = true ->
  exists Da fss, ptm K g 0 Da = true /\ pi_inputs Da = [] /\ Da <> tbool /\ Forall (Forall (fun F => ptm K g 0 F = true)) fss /\
    instance (symbol_type K s) (As ++ [R]) = arrows (Da :: map (fun Fs => arrows Fs R) fss) R /\
    Forall2 (fun ctor Fs => length Fs = fields K k ctor /\ instance (symbol_type K ctor) As = arrows Fs Da) ctors fss.
(** eliminators and constructors are in their types *)
Definition match_symbols_typed (K : kctx) (ME : symbol -> option (list symbol)) (M : Model) : Prop :=
  forall s ctors x, ME s = Some ctors -> x = s \/ In x ctors -> forall rho, mem M (dsym M x) (ev M rho (symbol_type K x)).

Section Tidy.
Context (K : kctx) (ME : symbol -> option (list symbol)).
Definition eliminator (a : atom) : bool :=
  match a with Sym s => match ME s with Some _ => true | None => false end | _ => false end.
(** no match, and no equation of functions *)
Fixpoint plain (t : term) : bool :=
  match t with
  | TAtom a => negb (eliminator a)
  | TApp f a => plain f && plain a && negb (match f, a with TAtom (Sym SEq), TBind KPi _ _ => true | _, _ => false end)
  | TBind _ _ b => plain b
  end.
Definition atomic (t : term) : bool := match t with TAtom _ => true | _ => false end.
(** Only atoms are applied, nothing is matched that is itself a match, and conditions are plain. *)
Fixpoint tidy (t : term) : bool :=
  match t with
  | TAtom _ => true
  | TApp f a =>
    tidy f && tidy a && atomic (spine_head f) &&
    match spine_head f with
    | TAtom (Sym s) =>
      (negb (eliminator (Sym s) && Nat.eqb (length (args f)) (count_type_params (symbol_type K s))) || negb (eliminator (head_atom a))) &&
      (match s with SIte => negb (Nat.eqb (length (args f)) 1) | _ => true end || plain a)
    | _ => true
    end
  | TBind _ _ b => tidy b
  end.
End Tidy.
