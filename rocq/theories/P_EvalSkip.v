(** C71: an evaluation that skips claims searches for each goal with exactly its visible facts but those of the claims that it skips. *)
From Coq Require Import List Arith Bool Lia.
Import ListNotations.
From Verif Require Import LoweredModule LoweredModuleProofs P_LoweredModule EvalSkip EvalSkipProofs.

(** The goals of a lowered module are evaluated in order.  For each, [d] has the items before it in its own list.  Without a skip it is searched for with its visible facts; with a skip of [k] only if the
    last [k] items before it are anonymous claims, and then with the visible facts but the facts of these. *)
Theorem eval_skip_exact (max_skip : nat) (plain : nat -> bool) {F G} (ns : list (lnode F G)) items m :
  lower_nodes true ns empty_module = (items, m) ->
  let log := snd (eval_items max_skip plain true items ([], [], [])) in
  map (fun e => fst (fst e)) log = seq 0 (length (l_goals m)) /\
  Forall2 (fun s e => let '(d, g) := s in fst (fst e) = g /\
    exists V, visible_fact_ids_for g items = Some V /\ search_facts e 0 = Some V /\
      forall k W, 1 <= k -> (search_facts e k = Some W <->
        k <= max_skip /\ exists d0 seg, d = d0 ++ map (fun c => IClaim (fst c) (snd c)) seg /\ length seg = k /\ Forall (fun c => plain (fst c) = true) seg /\ V = W ++ map snd seg))
    (sites [] items) log.
Proof.
  intros Hl log. destruct (items_run max_skip plain items true [] [] [] []) as (p & c & L & A1 & _ & A3 & A4); [apply inv_barrier; intros [|? ?] ?; discriminate|].
  assert (log = L) as -> by (unfold log; rewrite A1; auto). destruct (builder_uses_visible_facts ns items m Hl) as (B1 & B2 & _). rewrite A4 in B1, B2. simpl in B1, B2.
  split; [rewrite <- B1, map_map; auto|]. assert (B3 : forall e, In e L -> visible_fact_ids_for (fst (fst e)) items = Some (snd (fst e))).
  { intros [[g V] cps] Hi. simpl. apply B2. apply in_map_iff. exists (g, V, cps). auto. }
  clear - A3 B3. induction A3 as [|[d g] [[g' V] cps] S L [H1 H2] A IH]; constructor; [|apply IH; intros; apply B3; right; auto].
  simpl in H1, H2. subst g'. split; [auto|]. exists V. split; [apply (B3 (g, V, cps)); left; auto|]. split; [auto|]. intros k W Hk. unfold search_facts. destruct (k =? 0) eqn:E; [apply Nat.eqb_eq in E; lia|].
  rewrite (inv_checkpoint max_skip plain d V cps k W H2). split; [intros [X Y]; split; [lia|exact Y]|intros [X Y]; split; [lia|exact Y]].
Qed.

Print Assumptions eval_skip_exact.

(** A fact, a block with two anonymous claims, a theorem (goal 2) and four anonymous claims; at most two are skipped. *)
Definition es_nodes : list (lnode nat nat) := [NStruct 5 true; NBlock [NClaim 6 6 false; NClaim 7 7 false] None; NClaim 8 8 true; NClaim 9 9 false; NClaim 10 10 false; NClaim 11 11 false; NClaim 12 12 false].
Definition es_items := fst (lower_nodes true es_nodes empty_module).
Definition es_log := snd (eval_items 2 (fun g => negb (g =? 2)) true es_items ([], [], [])).
Example eval_skip_exact_case :
  es_items = [IFact 0; IBlock [IClaim 0 1; IClaim 1 2] None; IClaim 2 3; IClaim 3 4; IClaim 4 5; IClaim 5 6; IClaim 6 7] /\
  map (fun e => (fst (fst e), search_facts e 0, search_facts e 1, search_facts e 2, search_facts e 3)) es_log =
  [(0, Some [0], None, None, None); (1, Some [0; 1], Some [0], None, None); (2, Some [0], None, None, None); (3, Some [0; 3], None, None, None); (4, Some [0; 3; 4], Some [0; 3], None, None);
   (5, Some [0; 3; 4; 5], Some [0; 3; 4], Some [0; 3], None); (6, Some [0; 3; 4; 5; 6], Some [0; 3; 4; 5], Some [0; 3; 4], None)].
Proof. split; reflexivity. Qed.
