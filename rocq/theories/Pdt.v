(** Model of src/kernel/pdt.rs: the keys of the discrimination tree, the search, and [LiteralSet].
    The rewriting helpers at the end of the file (1184 onwards) and [insert_or_append] (550-573) are not modelled.

    Simplifications: the [qp_trie] map is an association list with distinct keys, a subtrie the
    sublist of entries whose key starts with a prefix; ids and module ids are unbounded numbers and
    are cut to two bytes where the code has [u16]; [Unifier::match_instance], called on types only,
    is a parameter. *)
From Coq Require Import List Arith NArith Bool.
Import ListNotations.
From Verif Require Import Term LocalContext Kbo Literal Clause Typing VariableMap.

(** 46-62 *)
Inductive patom := PVar (i : nat) | PSym (s : symbol) | PTrue | PFalse | PBound (i : nat).
(** 66-89; the four binders carry their [bkind] *)
Inductive edge := EApp | EBind (k : bkind) | EAtom (a : patom) | ELit (positive : bool).

Notation byte := N (only parsing).
Notation key := (list N) (only parsing).

Section Bytes.
(** [to_ne_bytes]: the byte order of the machine *)
Context (big_endian : bool).

Definition u16_bytes (n : N) : list N :=
  let lo := N.modulo n 256 in
  let hi := N.modulo (N.div n 256) 256 in
  if big_endian then [hi; lo] else [lo; hi].
(** [from_ne_bytes] *)
Definition u16_value (a b : N) : N :=
  (if big_endian then a * 256 + b else b * 256 + a)%N.

(** 91-146 [discriminant] *)
Definition discriminant (e : edge) : N :=
  (match e with
  | EApp => 0
  | EBind KPi => 14
  | EBind KLam => 21
  | EBind KAll => 22
  | EBind KEx => 23
  | ELit true => 1
  | ELit false => 2
  | EAtom (PVar _) => 3
  | EAtom PTrue => 4
  | EAtom PFalse => 5
  | EAtom (PBound _) => 20
  | EAtom (PSym s) =>
    match s with
    | STrue => 4
    | SFalse => 5
    | SBool => 10
    | SType0 => 11
    | SType _ _ => 12
    | STypeclass _ _ => 13
    | SNot => 15
    | SAnd => 16
    | SOr => 17
    | SEq => 18
    | SIte => 19
    | SGlobal _ _ => 6
    | SScoped _ => 7
    end
  end)%N.

(** 148-193 [append_to], without the vector in front *)
Definition edge_bytes (e : edge) : list N :=
  discriminant e ::
  match e with
  | EAtom (PVar i) | EAtom (PBound i) => u16_bytes (N.of_nat i)
  | EAtom (PSym (SType m i)) | EAtom (PSym (STypeclass m i)) | EAtom (PSym (SGlobal m i)) =>
    u16_bytes m ++ u16_bytes i
  | EAtom (PSym (SScoped i)) => u16_bytes i
  | _ => u16_bytes 0
  end.

(** [bytes[1], bytes[2]] and so on; [None] is the index panic *)
Definition read2 (f : N -> edge) (r : list N) : option (edge * nat) :=
  match r with a :: b :: _ => Some (f (u16_value a b), 3) | _ => None end.
Definition read4 (f : N -> N -> edge) (r : list N) : option (edge * nat) :=
  match r with a :: b :: c :: d :: _ => Some (f (u16_value a b) (u16_value c d), 5) | _ => None end.

(** 196-266 [from_bytes]; [None] is a panic *)
Definition from_bytes (bytes : list N) : option (edge * nat) :=
  match bytes with
  | [] => None
  | d :: r =>
    match d with
    | 0 => Some (EApp, 3%nat)
    | 14 => Some (EBind KPi, 3%nat)
    | 21 => Some (EBind KLam, 3%nat)
    | 22 => Some (EBind KAll, 3%nat)
    | 23 => Some (EBind KEx, 3%nat)
    | 1 => Some (ELit true, 3%nat)
    | 2 => Some (ELit false, 3%nat)
    | 3 => read2 (fun i => EAtom (PVar (N.to_nat i))) r
    | 4 => Some (EAtom PTrue, 3%nat)
    | 5 => Some (EAtom PFalse, 3%nat)
    | 20 => read2 (fun i => EAtom (PBound (N.to_nat i))) r
    | 6 => read4 (fun m i => EAtom (PSym (SGlobal m i))) r
    | 7 => read2 (fun i => EAtom (PSym (SScoped i))) r
    | 10 => Some (EAtom (PSym SBool), 3%nat)
    | 11 => Some (EAtom (PSym SType0), 3%nat)
    | 15 => Some (EAtom (PSym SNot), 3%nat)
    | 16 => Some (EAtom (PSym SAnd), 3%nat)
    | 17 => Some (EAtom (PSym SOr), 3%nat)
    | 18 => Some (EAtom (PSym SEq), 3%nat)
    | 19 => Some (EAtom (PSym SIte), 3%nat)
    | 12 => read4 (fun m i => EAtom (PSym (SType m i))) r
    | 13 => read4 (fun m i => EAtom (PSym (STypeclass m i))) r
    | _ => None
    end%N
  end.

(** 268-286 [debug_bytes], the loop that reads a whole key; the second component is the bytes left
    over.  Each round consumes at least one byte, so the length bounds the rounds. *)
Fixpoint read_edges (n : nat) (bytes : list N) : option (list edge * list N) :=
  match n with
  | 0 => Some ([], bytes)
  | S n =>
    if Nat.leb 3 (length bytes) then
      match from_bytes bytes with
      | None => None
      | Some (e, used) =>
        option_map (fun p => (e :: fst p, snd p)) (read_edges n (skipn used bytes))
      end
    else Some ([], bytes)
  end.
Definition debug_bytes (bytes : list N) : option (list edge * list N) := read_edges (length bytes) bytes.

(** 292-304: the atom of a key; [None] is the typeclass panic *)
Definition edge_atom (a : atom) : option patom :=
  match a with
  | FreeVar i => Some (PVar i)
  | BoundVar i => Some (PBound i)
  | Sym STrue => Some PTrue
  | Sym SFalse => Some PFalse
  | Sym (STypeclass _ _) => None
  | Sym s => Some (PSym s)
  end.

(** 289-335 [key_from_term_structure]: what is appended *)
Fixpoint key_from_term (t : term) : option (list N) :=
  match t with
  | TAtom a => option_map (fun p => edge_bytes (EAtom p)) (edge_atom a)
  | TApp f a =>
    match key_from_term f, key_from_term a with
    | Some x, Some y => Some (edge_bytes EApp ++ x ++ y) | _, _ => None
    end
  | TBind k A b =>
    match key_from_term A, key_from_term b with
    | Some x, Some y => Some (edge_bytes (EBind k) ++ x ++ y) | _, _ => None
    end
  end.

(** the keys of several terms one after the other *)
Fixpoint key_from_terms (l : list term) : option (list N) :=
  match l with
  | [] => Some []
  | t :: r =>
    match key_from_term t, key_from_terms r with
    | Some x, Some y => Some (x ++ y) | _, _ => None
    end
  end.
(** 344-350 [key_from_pair] *)
Definition key_from_pair (a b : term) : option (list N) := key_from_terms [a; b].
(** 355-357 and 522-525: the signs *)
Definition sign_key (l : list literal) : list N := flat_map (fun x => edge_bytes (ELit (positive x))) l.
(** 358-361 and 515-519: the terms *)
Definition literal_terms (l : list literal) : list term := flat_map (fun x => [left x; right x]) l.
(** 352-363 [key_from_clause] *)
Definition key_from_clause (cl : clause) : option (list N) :=
  option_map (app (sign_key (literals cl))) (key_from_terms (literal_terms (literals cl))).
End Bytes.

(** [starts_with] on keys *)
Fixpoint prefixb (p k : list N) : bool :=
  match p, k with
  | [], _ => true
  | x :: p, y :: k => N.eqb x y && prefixb p k
  | _ :: _, [] => false
  end.
Definition key_eq_dec (a b : list N) : {a = b} + {a <> b} := list_eq_dec N.eq_dec a b.

Notation trie := (list (list N * nat)) (only parsing).
(** [Trie::subtrie] *)
Definition subtrie (t : trie) (k : list N) : trie := filter (fun e => prefixb k (fst e)) t.
(** [get] *)
Fixpoint trie_get (t : trie) (k : list N) : option nat :=
  match t with
  | [] => None
  | (k', v) :: r => if key_eq_dec k k' then Some v else trie_get r k
  end.
(** [Trie::insert]: an existing entry is overwritten *)
Fixpoint trie_insert (t : trie) (k : list N) (v : nat) : trie :=
  match t with
  | [] => [(k, v)]
  | (k', v') :: r => if key_eq_dec k k' then (k, v) :: r else (k', v') :: trie_insert r k v
  end.

Section Search.
Context (big_endian : bool) (K : kctx).
(** [Unifier::match_instance] of a variable's type in the pattern's context and the type of the
    bound term in the query's context (850-856) *)
Context (match_instance : lctx -> term -> lctx -> term -> bool).

(** 715-731: the type of the bound term; [None] is a panic, [Some None] a return of [false] *)
Definition bound_type (t : term) (q : lctx) : option (option term) :=
  match t with
  | TBound i =>
    if Nat.leb (S i) (length q) then
      match get_var_type q (length q - S i) with Some T => Some (Some T) | None => Some None end
    else Some None
  | _ => option_map Some (get_type K q t)
  end.

(** 733-763: a variable for a type takes types only *)
Definition type_level (t : term) : bool :=
  match head_atom t with
  | Sym (SType _ _) | Sym SBool | FreeVar _ => true
  | _ => false
  end.

(** 680-857 [types_compatible]; [None] is a panic *)
Definition types_compatible (t ptype : term) (pctx qctx : lctx) : option bool :=
  match bound_type t qctx with
  | None => None
  | Some None => Some false
  | Some (Some T) =>
    if match ptype with TSym SType0 => negb (type_level t) | _ => false end then Some false
    else if term_eqb T ptype then Some true
    else
      Some (match ptype with
            | TSym (STypeclass m i) => satisfies_typeclass K t qctx (m, i)
            | TVar v =>
              match get_var_type pctx v with
              | Some (TSym (STypeclass m i)) => satisfies_typeclass K T qctx (m, i)
              | Some (TSym SType0) => negb (match T with TSym SType0 => true | _ => false end)
              | _ => match_instance pctx ptype qctx T
              end
            | _ => match_instance pctx ptype qctx T
            end)
  end.

(** 1153-1186 [verify_type_compatibility], from the [i]-th replacement on *)
Fixpoint verify_from (i : nat) (repl : list term) (pctx qctx : lctx) : option bool :=
  match repl with
  | [] => Some true
  | t :: r =>
    if has_escaping_bound_variable t then Some false else
    match get_var_type pctx i with
    | None => verify_from (S i) r pctx qctx
    | Some T =>
      match types_compatible t T pctx qctx with
      | None => None
      | Some false => Some false
      | Some true => verify_from (S i) r pctx qctx
      end
    end
  end.

(** The outcome of a search whose callback stops at the first match (491-500, 541-544):
    a match, nothing here, the stack limit, or a panic. *)
Inductive outcome := Found (id : nat) (repl : list term) | Continue | Limit | Crash.
Definition seq (a b : outcome) : outcome := match a with Continue => b | _ => a end.

(** 917-937: the loop over the variables already bound *)
Fixpoint back (go : nat -> outcome) (first : term) (i : nat) (rs : list term) : outcome :=
  match rs with
  | [] => Continue
  | r :: rs => seq (if term_eqb first r then go i else Continue) (back go first (S i) rs)
  end.

(** 863-1151 [find_matches_while]; [n] is the stack limit *)
Fixpoint find_matches (n : nat) (metas : list lctx) (t : trie) (k : list N) (terms : list term)
  (q : lctx) (repl : list term) {struct n} : outcome :=
  match t with
  | [] => Continue
  | _ =>
    match n with
    | 0 => Limit
    | S n =>
      let go e terms' q' repl' :=
        let k' := k ++ edge_bytes big_endian e in
        match subtrie t k' with
        | [] => Continue
        | t' => find_matches n metas t' k' terms' q' repl'
        end in
      match terms with
      | [] =>
        match trie_get t k with
        | None => Crash
        | Some id =>
          match nth_error metas id with
          | None => Crash
          | Some pctx =>
            match verify_from 0 repl pctx q with
            | None => Crash
            | Some true => Found id repl
            | Some false => Continue
            end
          end
        end
      | first :: rest =>
        seq
          (back (fun i => go (EAtom (PVar i)) rest q repl) first 0 repl)
          (seq (go (EAtom (PVar (length repl))) rest q (repl ++ [first]))
             (match first with
              | TAtom (FreeVar _) => Continue
              | TAtom a =>
                match edge_atom a with
                | None => Continue
                | Some p => go (EAtom p) rest q repl
                end
              | TApp f a => go EApp (f :: a :: rest) q repl
              | TBind b A body => go (EBind b) (A :: body :: rest) (push_type q A) repl
              end))
      end
    end
  end.

(** 391-402 [Pdt] *)
Record pdt (T : Type) := Pdt { entries : trie; values : list T; metas : list lctx }.
Arguments Pdt {T}. Arguments entries {T}. Arguments values {T}. Arguments metas {T}.
(** 405-411 *)
Definition pdt_new {T} : pdt T := Pdt [] [] [].
(** 416-420 and 426-429: the common part of the insertions *)
Definition insert_key {T} (p : pdt T) (k : list N) (v : T) (c : lctx) : pdt T :=
  Pdt (trie_insert (entries p) k (length (values p))) (values p ++ [v]) (metas p ++ [c]).
(** 413-421 [insert_pair]; [None] is the typeclass panic *)
Definition insert_pair {T} (p : pdt T) (a b : term) (v : T) (c : lctx) : option (pdt T) :=
  option_map (fun k => insert_key p k v c) (key_from_pair big_endian a b).
(** 423-430 [insert_clause] *)
Definition insert_clause {T} (p : pdt T) (cl : clause) (v : T) : option (pdt T) :=
  option_map (fun k => insert_key p k v (context cl)) (key_from_clause big_endian cl).

(** What a lookup returns: an answer or a panic. *)
Inductive answer (T : Type) := Hit (v : T) | Miss | Panics.
Arguments Hit {T}. Arguments Miss {T}. Arguments Panics {T}.
(** [&self.values[id]] after the search *)
Definition answer_of {T X} (p : pdt T) (f : T -> list term -> X) (o : outcome) : answer X :=
  match o with
  | Found id repl =>
    match nth_error (values p) id with Some v => Hit (f v repl) | None => Panics end
  | Continue | Limit => Miss
  | Crash => Panics
  end.

(** 459, 538: the stack limit *)
Definition stack_limit : nat := 500.
(** 476-505 [find_pair_with_replacements] *)
Definition find_pair {T} (p : pdt T) (a b : term) (q : lctx) : answer (T * list term) :=
  answer_of p pair (find_matches stack_limit (metas p) (entries p) [] [a; b] q []).
(** 507-547 [find_clause] *)
Definition find_clause {T} (p : pdt T) (cl : clause) : answer T :=
  let k := sign_key big_endian (literals cl) in
  answer_of p (fun v _ => v)
    (find_matches stack_limit (metas p) (subtrie (entries p) k) k (literal_terms (literals cl)) (context cl) []).

(** 582-591 *)
Record lit_entry := LitEntry { e_sign : bool; e_id : nat; e_flipped : bool; e_var_ids : list nat }.

(** 598-626 [LiteralSet::insert]; [None] is a panic *)
Definition lit_insert (p : pdt lit_entry) (l : literal) (id : nat) (c : lctx) : option (pdt lit_entry) :=
  match insert_pair p (left l) (right l) (LitEntry (positive l) id false []) c with
  | None => None
  | Some p =>
    match kbo_cmp (left l) (right l) with
    | Lt => None
    | Gt => Some p
    | Eq =>
      match normalized_reversed c l with
      | None => None
      | Some (r, a, c', ids) => insert_pair p r a (LitEntry (positive l) id true ids) c'
      end
    end
  end.

(** 628-642 [find_generalization] *)
Definition find_generalization (p : pdt lit_entry) (l : literal) (q : lctx) : answer (bool * nat * bool) :=
  match find_pair p (left l) (right l) q with
  | Hit (e, _) => Hit (Bool.eqb (e_sign e) (positive l), e_id e, e_flipped e)
  | Miss => Miss
  | Panics => Panics
  end.

(** 661-671: the map of variables; [None] is the early return of [None] *)
Fixpoint set_all (ids : list nat) (repl : list term) (m : vmap) : option vmap :=
  match repl with
  | [] => Some m
  | t :: repl =>
    match ids with
    | [] => None
    | i :: ids => set_all ids repl (vset m i t)
    end
  end.
(** 644-678 [find_generalization_with_map] *)
Definition find_generalization_with_map (p : pdt lit_entry) (l : literal) (q : lctx)
  : answer (bool * nat * bool * vmap) :=
  match find_pair p (left l) (right l) q with
  | Hit (e, repl) =>
    match (if e_flipped e then set_all (e_var_ids e) repl [] else Some (map Some repl)) with
    | None => Miss
    | Some m => Hit (Bool.eqb (e_sign e) (positive l), e_id e, e_flipped e, m)
    end
  | Miss => Miss
  | Panics => Panics
  end.
End Search.
