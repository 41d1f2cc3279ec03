(** Model of lowered modules: how the nodes of a module become items (src/elaborator/environment/mod.rs 900-1052), which
    facts a goal may use (src/elaborator/lowered_module.rs 285-325), and how the builder walks over the items
    (src/builder.rs 2760-2850).

    Simplified: facts and goals are any values; lowering them succeeds (an error makes the module fail to load); imports,
    kernel contexts, lines, the goal filter, evaluation runs and stopping at the first warning are left out.  A processor
    is the list of the facts that were added to it. *)
From Coq Require Import List Arith Bool.
Import ListNotations.

Section Lowered.
  Context {F G : Type}.

  (** node.rs: structural facts, claims and blocks; the flag of a fact says whether its source is importable *)
  Inductive lnode :=
  | NStruct (f : F) (importable : bool)
  | NClaim (g : G) (f : F) (importable : bool)
  | NBlock (ns : list lnode) (ext : option (F * bool)).

  (** lowered_module.rs 39-56 *)
  Inductive litem :=
  | IFact (fact : nat)
  | IClaim (goal post : nat)
  | IBlock (items : list litem) (ext : option nat).

  (** lowered_module.rs 155-165; [l_exports] is [module_fact_ids] *)
  Record lmodule := LMOD { l_facts : list F; l_goals : list G; l_exports : list nat }.
  Definition empty_module := LMOD [] [] [].

  (** lowered_module.rs 181-195 and the test of [top_level] and [importable] of environment/mod.rs *)
  Definition add_fact (top importable : bool) (f : F) (m : lmodule) : nat * lmodule :=
    let id := length (l_facts m) in
    (id, LMOD (l_facts m ++ [f]) (l_goals m) (if top && importable then l_exports m ++ [id] else l_exports m)).
  Definition add_goal (g : G) (m : lmodule) : nat * lmodule :=
    (length (l_goals m), LMOD (l_facts m) (l_goals m ++ [g]) (l_exports m)).

  Definition lower_list (f : lnode -> lmodule -> litem * lmodule) : list lnode -> lmodule -> list litem * lmodule :=
    fix go ns m := match ns with
      | [] => ([], m)
      | n :: ns => let (i, m) := f n m in let (is, m) := go ns m in (i :: is, m)
      end.
  (** environment/mod.rs 903-1052 *)
  Fixpoint lower_node (top : bool) (n : lnode) (m : lmodule) : litem * lmodule :=
    match n with
    | NStruct f imp => let (id, m) := add_fact top imp f m in (IFact id, m)
    | NClaim g f imp => let (gid, m) := add_goal g m in let (id, m) := add_fact top imp f m in (IClaim gid id, m)
    | NBlock ns ext =>
        let (is, m) := lower_list (lower_node false) ns m in
        match ext with
        | Some (f, imp) => let (id, m) := add_fact top imp f m in (IBlock is (Some id), m)
        | None => (IBlock is None, m)
        end
    end.
  Definition lower_nodes (top : bool) := lower_list (lower_node top).

  (** lowered_module.rs 285-325: [inl] is the return with the facts of the goal, [inr] the end of the loop with the facts so far *)
  Definition visible_list (f : litem -> list nat -> list nat + list nat) : list litem -> list nat -> list nat + list nat :=
    fix go is acc := match is with
      | [] => inr acc
      | i :: is => match f i acc with inl r => inl r | inr acc => go is acc end
      end.
  Fixpoint visible_item (goal : nat) (i : litem) (acc : list nat) : list nat + list nat :=
    match i with
    | IFact f => inr (acc ++ [f])
    | IClaim g f => if g =? goal then inl acc else inr (acc ++ [f])
    | IBlock is ext =>
        match visible_list (visible_item goal) is acc with
        | inl r => inl r
        | inr _ => inr (match ext with Some f => acc ++ [f] | None => acc end)
        end
    end.
  (** lowered_module.rs 236-239 *)
  Definition visible_fact_ids_for (goal : nat) (items : list litem) : option (list nat) :=
    match visible_list (visible_item goal) items [] with inl r => Some r | inr _ => None end.

  (** builder.rs 2760-2850: the state is the processor and the goals that were verified so far, each with the facts of the
      processor it was verified with *)
  Fixpoint verify_item (top : bool) (i : litem) (st : list nat * list (nat * list nat)) : list nat * list (nat * list nat) :=
    let (proc, log) := st in
    match i with
    | IFact f => (proc ++ [f], log)
    | IClaim g f => (proc ++ [f], log ++ [(g, proc)])
    | IBlock is ext =>
        let log := if match is with [] => true | _ => false end && top then log
                   else snd (fold_left (fun st i => verify_item false i st) is (proc, log)) in
        (match ext with Some f => proc ++ [f] | None => proc end, log)
    end.
  Definition verify_items (top : bool) (is : list litem) (st : list nat * list (nat * list nat)) :=
    fold_left (fun st i => verify_item top i st) is st.

  (** The claims of the items in the order of the source *)
  Fixpoint claims (i : litem) : list (nat * nat) :=
    match i with
    | IFact _ => []
    | IClaim g f => [(g, f)]
    | IBlock is _ => flat_map claims is
    end.
End Lowered.
Arguments lnode : clear implicits.
Arguments lmodule : clear implicits.
