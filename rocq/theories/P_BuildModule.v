(** C68: a module is recorded as good only if every one of its goals was verified, from the facts that are visible to it. *)
From Coq Require Import List Arith Bool Lia.
Import ListNotations.
From Verif Require Import LoweredModule LoweredModuleProofs P_LoweredModule BuildModule BuildModuleProofs.

Section Property.
  Context {Cert : Type}.
  Context (cert_goal : Cert -> nat) (goal_name : nat -> nat).
  Context (check : Cert -> nat -> list nat -> bool) (trim : Cert -> nat -> list nat -> Cert).
  Context (search : nat -> list nat -> found) (make : nat -> list nat -> option Cert) (cancelled : nat -> bool).
  Context (set : settings Cert).
  Notation verify_module := (verify_module cert_goal goal_name check trim search make cancelled set).

(** The module has a record with the hash, and the status was good before if the builder stops at warnings: then every goal was verified from exactly its visible facts,
    and without a given certificate the used certificates are those of the goals, in order. *)
Theorem good_record_verified {F G} (ns : list (lnode F G)) items m s0 store st certs used :
  lower_nodes true ns empty_module = (items, m) -> (b_exit set = true -> s0 = Good) ->
  verify_module s0 store items = Some (st, Some (certs, used, true)) ->
  st_status st = s0 /\
  exists es, Forall2 (fun g e => exists V, visible_fact_ids_for g items = Some V /\ evidence cert_goal goal_name check trim search make set g V e) (seq 0 (length (l_goals m))) es /\
    firstn used certs = kept es /\ (b_override set = None -> used = length (l_goals m)).
Proof.
  intros Hl Hs. unfold BuildModule.verify_module. set (st0 := BST s0 true [] _).
  assert (Hb : match items with [] => Some st0 | _ => option_map snd (build_items cert_goal goal_name check trim search make cancelled set true items ([], st0)) end =
    option_map snd (build_items cert_goal goal_name check trim search make cancelled set true items ([], st0))) by (destruct items; auto). rewrite Hb. clear Hb.
  destruct (build_items _ _ _ _ _ _ _ _ true items ([], st0)) as [[p st1]|] eqn:E; [|discriminate]. simpl option_map. cbv iota.
  destruct (b_filter set) eqn:Ef; [discriminate|]. intros [= <- <- <- Hg].
  destruct (items_sound _ _ _ _ _ _ _ _ _ _ _ _ _ _ E Hg) as (A1 & L & es & A2 & A3 & A4); [auto|]. split; [auto|]. simpl in A3.
  destruct (builder_uses_visible_facts ns items m Hl) as (B1 & B2 & _). rewrite A2 in B1, B2. simpl in B1, B2.
  exists es. assert (Hf : filter (fun l => wanted set (fst l)) L = L).
  { unfold wanted. rewrite Ef. clear. induction L; simpl; congruence. }
  unfold log_ok in A4. rewrite Hf in A4.
  split; [|split].
  - rewrite <- B1. assert (B3 : forall g V, In (g, V) L -> visible_fact_ids_for g items = Some V) by (intros g V Hi; apply B2, Hi). clear - A4 B3.
    induction A4 as [|[g V] e L es H H1 IH]; simpl; constructor; [exists V; split; [apply B3; left; auto|exact H]|]. apply IH. intros x U Hi. apply B3. right. auto.
  - rewrite firstn_app, Nat.sub_diag, firstn_all. simpl. rewrite app_nil_r. auto.
  - intros Ho. rewrite A3. assert (length L = length (l_goals m)) as <- by (rewrite <- (map_length fst), B1, seq_length; auto). clear - A4 Ho.
    induction A4 as [|[g V] e L es H H1 IH]; simpl; auto. destruct e as [c|]; [simpl; f_equal; exact IH|]. destruct H as (d & X & _). congruence.
Qed.

(** A run that ends with a good status has verified every goal that the filter wants, and then the record has the hash. *)
Theorem good_status_verified {F G} (ns : list (lnode F G)) items m s0 store st rec :
  lower_nodes true ns empty_module = (items, m) ->
  verify_module s0 store items = Some (st, rec) -> st_status st = Good ->
  (forall g, g < length (l_goals m) -> wanted set g = true -> exists V e, visible_fact_ids_for g items = Some V /\ evidence cert_goal goal_name check trim search make set g V e) /\
  (forall certs used h, rec = Some (certs, used, h) -> h = true).
Proof.
  intros Hl. unfold BuildModule.verify_module. set (st0 := BST s0 true [] _).
  assert (Hb : match items with [] => Some st0 | _ => option_map snd (build_items cert_goal goal_name check trim search make cancelled set true items ([], st0)) end =
    option_map snd (build_items cert_goal goal_name check trim search make cancelled set true items ([], st0))) by (destruct items; auto). rewrite Hb. clear Hb.
  destruct (build_items _ _ _ _ _ _ _ _ true items ([], st0)) as [[p st1]|] eqn:E; [|discriminate]. simpl option_map. cbv iota. intros H Hs.
  assert (st1 = st /\ forall certs used h, rec = Some (certs, used, h) -> h = st_good st1) as [-> Hr] by (destruct (b_filter set); injection H as <- <-; split; auto; intros; congruence).
  destruct (items_worse _ _ _ _ _ _ _ _ _ _ _ _ E) as [W1 W2]. simpl in W1, W2.
  assert (Hg : st_good st = true) by (destruct (st_good st); auto; exfalso; apply W1; auto; discriminate).
  split; [|intros certs used h X; rewrite (Hr _ _ _ X); auto].
  destruct (items_sound _ _ _ _ _ _ _ _ _ _ _ _ _ _ E Hg) as (A1 & L & es & A2 & A3 & A4); [auto|].
  destruct (builder_uses_visible_facts ns items m Hl) as (B1 & B2 & _). rewrite A2 in B1, B2. simpl in B1, B2.
  intros g Hgl Hw. assert (Hi : In g (map fst L)) by (rewrite B1; apply in_seq; lia). apply in_map_iff in Hi. destruct Hi as ([g' V] & X & Hi). simpl in X. subst g'.
  exists V. assert (Hi2 : In (g, V) (filter (fun l => wanted set (fst l)) L)) by (apply filter_In; auto).
  assert (exists e, evidence cert_goal goal_name check trim search make set g V e) as [e He].
  { clear - A4 Hi2. unfold log_ok in A4. induction A4 as [|l e L' es H H1 IH]; [destruct Hi2|]. destruct Hi2 as [->|Hi2]; [exists e; exact H|auto]. }
  exists e. split; auto. apply B2. auto.
Qed.

(** In check mode nothing is searched for: every goal of a good module has a stored or given certificate that checks. *)
Theorem check_mode_checked {F G} (ns : list (lnode F G)) items m s0 store st certs used :
  b_check set = true -> lower_nodes true ns empty_module = (items, m) -> (b_exit set = true -> s0 = Good) ->
  verify_module s0 store items = Some (st, Some (certs, used, true)) ->
  forall g, g < length (l_goals m) -> exists V c, visible_fact_ids_for g items = Some V /\ check c g V = true.
Proof.
  intros Hc Hl Hs H g Hg. destruct (good_record_verified ns items m s0 store st certs used Hl Hs H) as (_ & es & A & _).
  assert (Hi : In g (seq 0 (length (l_goals m)))) by (apply in_seq; lia). revert Hi. clear - A Hc. induction A as [|x e l es H A IH]; [intros []|].
  intros [->|Hi]; [|auto]. destruct H as (V & Hv & He). exists V. destruct e as [c|]; simpl in He.
  - destruct He as [_ [(d & _ & Hd & _)|(X & _)]]; [exists d; auto|congruence].
  - destruct He as (d & _ & Hd). exists d. auto.
Qed.
End Property.

(** What a saved record with the hash should mean: every goal of the module was verified, from its visible facts. *)
Definition work_verified {Cert} (cert_goal : Cert -> nat) (set : settings Cert) {G F} (w : work Cert) (m : lmodule F G) : Prop :=
  forall g, g < length (l_goals m) -> exists V e, visible_fact_ids_for g (w_items w) = Some V /\
    evidence cert_goal (w_name w) (w_check w) (w_trim w) (w_search w) (w_make w) set g V e.

(** A verification that does not stop at warnings, or has one batch, saves the hash only of modules all of whose goals were verified. *)
Theorem saved_records_verified {Cert} (cert_goal : Cert -> nat) (set : settings Cert) batches w certs used {F G} (ns : list (lnode F G)) m :
  b_exit set = false \/ length batches <= 1 ->
  In (w, (certs, used, true)) (saved cert_goal set batches) -> lower_nodes true ns empty_module = (w_items w, m) ->
  In w (concat batches) /\ work_verified cert_goal set w m.
Proof.
  intros Hb Hi Hl. unfold saved in Hi. destruct (stream cert_goal set Good batches) as [s recs] eqn:E. destruct (is_error s); [destruct Hi|].
  assert (A : In w (concat batches) /\ exists s1, (b_exit set = true -> s1 = Good) /\ made cert_goal set s1 w (certs, used, true)).
  { destruct (b_exit set) eqn:Ex.
    - destruct Hb as [Hb|Hb]; [discriminate|]. destruct batches as [|b [|b' bs]]; simpl in Hb, E; [injection E as <- <-; destruct Hi| |lia].
      unfold process_batch in E. simpl in E. destruct (process_modules cert_goal set Good b) as [s1 recs1] eqn:E1.
      assert (recs = recs1) as -> by (destruct (is_error s1); injection E as <- <-; auto using app_nil_r).
      destruct (modules_made cert_goal set b Good s1 recs1 ltac:(auto) E1 w _ Hi) as (A & s2 & B & C). simpl. rewrite app_nil_r. split; [auto|]. exists s2. split; [intros _; apply B; auto|auto].
    - destruct (stream_made cert_goal set batches Good s recs Ex E w _ Hi) as (A & s1 & B). split; [auto|]. exists s1. split; [discriminate|auto]. }
  destruct A as (A & s1 & B & st & C). split; [auto|]. intros g Hg.
  destruct (good_record_verified _ _ _ _ _ _ _ _ ns (w_items w) m s1 (w_store w) st certs used Hl B C) as (_ & es & D & _).
  assert (Hs : In g (seq 0 (length (l_goals m)))) by (apply in_seq; lia). revert Hs. clear - D. induction D as [|x e l es H D IH]; [intros []|].
  intros [->|Hs]; [|auto]. destruct H as (V & H1 & H2). exists V, e. auto.
Qed.

(** A search finds nothing for goal 0 of both modules and there are no certificates; the first item of the second one is a fact. *)
Definition warned_work : work nat := WORK (fun g => g) (fun _ _ _ => false) (fun c _ _ => c) (fun _ _ => NotFound) (fun _ _ => None) (fun _ => false) [] [IClaim 0 0].
Definition unproved_work : work nat := WORK (fun g => g) (fun _ _ _ => false) (fun c _ _ => c) (fun _ _ => NotFound) (fun _ _ => None) (fun _ => false) [] [IFact 0; IClaim 0 1].
(** With two batches and a stop at warnings the hash of a module is saved whose goal nothing proves: its verification stops behind the first item, because of the warning before. *)
Theorem saved_records_refuted :
  ~ (forall (cert_goal : nat -> nat) set batches w certs used (ns : list (lnode nat nat)) m,
      In (w, (certs, used, true)) (saved cert_goal set batches) -> lower_nodes true ns empty_module = (w_items w, m) -> work_verified cert_goal set w m).
Proof.
  intros H. specialize (H (fun c => c) (SET false false None None true) [[warned_work]; [unproved_work]] unproved_work [] 0 [NStruct 5 true; NClaim 6 6 true] (LMOD [5; 6] [6] [0; 1])).
  destruct (H ltac:(simpl; auto) eq_refl 0 ltac:(simpl; lia)) as (V & e & _ & He). destruct e as [c|]; simpl in He.
  - destruct He as [_ [(d & _ & X & _)|(_ & X & _)]]; discriminate.
  - destruct He as (d & X & _). discriminate.
Qed.
(** Both are saved, the first without the hash; in one batch the second is not saved. *)
Example saved_records_refuted_case :
  saved (fun c => c) (SET false false None None true) [[warned_work]; [unproved_work]] = [(warned_work, ([], 0, false)); (unproved_work, ([], 0, true))] /\
  saved (fun c => c) (SET false false None None true) [[warned_work; unproved_work]] = [(warned_work, ([], 0, false))] /\
  saved (fun c => c) (SET false false None None false) [[warned_work]; [unproved_work]] = [(warned_work, ([], 0, false)); (unproved_work, ([], 0, false))].
Proof. repeat split; reflexivity. Qed.

Print Assumptions saved_records_verified.
Print Assumptions saved_records_refuted.
Print Assumptions good_record_verified.
Print Assumptions good_status_verified.
Print Assumptions check_mode_checked.

(** Certificates are the names of goals; the search finds nothing for goal 1. *)
Definition case_items2 : list litem := [IFact 0; IBlock [IClaim 0 1] (Some 2); IClaim 1 3].
Definition case_build (chk exit : bool) (s0 : status) (store : list nat) :=
  verify_module (fun c : nat => c) (fun g => g) (fun c g V => c =? g) (fun c _ _ => c) (fun g _ => if g =? 1 then NotFound else Success) (fun g _ => Some g) (fun _ => false)
    (SET chk false None None exit) s0 store case_items2.
Example case_lowered : lower_nodes true [NStruct 5 true; NBlock [NClaim 6 6 false] (Some (7, true)); NClaim 8 8 true] empty_module = (case_items2, LMOD [5; 6; 7; 8] [6; 8] [0; 2; 3]).
Proof. reflexivity. Qed.
Example good_record_verified_case : case_build false false Warning [1; 3] = Some (BST Warning true [0; 1] [(1, 3)], Some ([0; 1; 3], 2, true)).
Proof. reflexivity. Qed.
Example good_status_verified_case :
  case_build false false Good [1] = Some (BST Good true [0; 1] [], Some ([0; 1], 2, true)) /\
  case_build false false Good [] = Some (BST Warning false [0] [], Some ([0], 1, false)).
Proof. split; reflexivity. Qed.
Example check_mode_checked_case : case_build true true Good [0; 1] = Some (BST Good true [0; 1] [], Some ([0; 1], 2, true)) /\ case_build true true Good [0] = None.
Proof. split; reflexivity. Qed.
(** Why the status matters if the builder stops at warnings: after a warning of another module the goals are skipped and the record still has the hash. *)
Example skipped_if_warned : case_build false true Warning [1; 3] = Some (BST Warning true [] [(0, 1); (1, 3)], Some ([1; 3], 0, true)).
Proof. reflexivity. Qed.
(** A module that is good although the batch before had a warning, without a stop at warnings. *)
Definition good_work : work nat := WORK (fun g => g) (fun c g _ => c =? g) (fun c _ _ => c) (fun g _ => if g =? 1 then NotFound else Success) (fun g _ => Some g) (fun _ => false) [1; 3] case_items2.
Example saved_records_verified_case : saved (fun c => c) (SET false false None None false) [[warned_work]; [good_work]] = [(warned_work, ([], 0, false)); (good_work, ([0; 1; 3], 2, true))].
Proof. reflexivity. Qed.
