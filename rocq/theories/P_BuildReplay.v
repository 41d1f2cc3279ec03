(** C69: what a build leaves for a module that it verified is enough to verify or check the module again without a search. *)
From Coq Require Import List Arith Bool Lia.
Import ListNotations.
From Verif Require Import LoweredModule LoweredModuleProofs P_LoweredModule BuildModule BuildModuleProofs P_BuildModule BuildReplay BuildReplayProofs.

Section Property.
  Context {Cert : Type}.
  Context (cert_goal : Cert -> nat) (goal_name : nat -> nat).
  Context (check : Cert -> nat -> list nat -> bool) (trim : Cert -> nat -> list nat -> Cert).
  Context (search : nat -> list nat -> found) (make : nat -> list nat -> option Cert) (cancelled : nat -> bool).
  Context (search2 : nat -> list nat -> found) (make2 : nat -> list nat -> option Cert).
  Context (set set2 : settings Cert).
  (** Trimmed certificates check (C48) and are for the same goal; made certificates are for their goal and check. *)
  Definition trims_well : Prop := forall c g V, check c g V = true -> check (trim c g V) g V = true /\ cert_goal (trim c g V) = cert_goal c.
  Definition makes_well : Prop := forall c g V, search g V = Success -> make g V = Some c -> check c g V = true /\ cert_goal c = goal_name g.

(** The first build recorded the module with its hash.  The second one looks at certificates, has no filter and no given certificate; it may check or verify, and its searches may do anything.
    It gets the certificates that were used, in front of any others.  Then it uses them again, one for each goal, finds the module good and leaves the others unused. *)
Theorem recorded_module_replays {F G} (ns : list (lnode F G)) items m s0 store st certs used s2 extra :
  trims_well -> makes_well -> lower_nodes true ns empty_module = (items, m) ->
  (b_exit set = true -> s0 = Good) -> b_override set = None ->
  verify_module cert_goal goal_name check trim search make cancelled set s0 store items = Some (st, Some (certs, used, true)) ->
  (b_exit set2 = true -> s2 = Good) -> b_override set2 = None -> b_filter set2 = None -> b_force set2 = false ->
  exists cs work, length cs = used /\ used = length (l_goals m) /\
    verify_module cert_goal goal_name check trim search2 make2 (fun _ => false) set2 s2 (firstn used certs ++ extra) items = Some (BST s2 true cs work, Some (cs ++ extra, used, true)) /\
    ((forall c g V, check c g V = true -> trim (trim c g V) g V = trim c g V) -> (forall c g V, search g V = Success -> make g V = Some c -> trim c g V = c) -> cs = firstn used certs).
Proof.
  intros Ht Hm Hl Hs Ho H Hs2 Ho2 Hf2 Hn2.
  destruct (good_record_verified _ _ _ _ _ _ _ _ ns items m s0 store st certs used Hl Hs H) as (_ & es & A & B & C). specialize (C Ho).
  destruct (builder_uses_visible_facts ns items m Hl) as (D1 & D2 & _).
  destruct (items_replay cert_goal goal_name check trim search2 make2 (fun _ => false) set2 (fun _ => eq_refl) Ho2 Hf2 Hn2 items true []) as (L & p & E1 & E2).
  rewrite E1 in D1, D2. simpl in D1, D2.
  set (cs0 := firstn used certs) in *.
  assert (P : Forall2 (fun l c => cert_goal c = goal_name (fst l) /\ check c (fst l) (snd l) = true /\
     ((forall c g V, check c g V = true -> trim (trim c g V) g V = trim c g V) -> (forall c g V, search g V = Success -> make g V = Some c -> trim c g V = c) -> trim c (fst l) (snd l) = c)) L cs0).
  { rewrite B. rewrite <- D1 in A. assert (D3 : forall g V, In (g, V) L -> visible_fact_ids_for g items = Some V) by (intros g V Hi; apply D2, Hi).
    clear - A D3 Ho Ht Hm. revert es A. induction L as [|[g V] L IH]; intros es A; simpl in A; inversion A as [|x e l es' Hx Hr]; subst; simpl; [constructor|].
    destruct Hx as (V' & Hv & He). rewrite (D3 g V) in Hv by (left; auto). injection Hv as <-. destruct e as [c|]; simpl in He; [|destruct He as (d & X & _); congruence].
    simpl. constructor; [|apply IH; auto; intros; apply D3; right; auto]. simpl. destruct He as [_ [(d & X1 & X2 & ->)|(_ & X1 & X2)]].
    - destruct (Ht d g V X2) as [Y1 Y2]. rewrite Y2. split; [auto|]. split; [auto|]. intros Hi _. apply Hi. auto.
    - destruct (Hm c g V X1 X2). split; [auto|]. split; [auto|]. intros _ Hi. apply Hi; auto. }
  assert (Lc : length cs0 = used). { rewrite <- (Forall2_len _ _ _ P), <- (map_length fst), D1, seq_length. auto. }
  set (pre := combine (seq 0 used) cs0). set (rest := combine (seq used (length extra)) extra).
  assert (W : combine (seq 0 (length (cs0 ++ extra))) (cs0 ++ extra) = pre ++ rest).
  { assert (X : forall (a b : list Cert) k, combine (seq k (length (a ++ b))) (a ++ b) = combine (seq k (length a)) a ++ combine (seq (k + length a) (length b)) b).
    { clear. induction a as [|c a IH]; intros b k; simpl; [rewrite Nat.add_0_r; auto|]. f_equal. rewrite <- Nat.add_succ_comm. apply IH. }
    rewrite X, Lc. auto. }
  assert (Sn : map snd rest = extra). { unfold rest. clear. generalize used as k. induction extra as [|c cs IH]; intros k; simpl; auto. f_equal. apply IH. }
  assert (N : NoDup (map fst (pre ++ rest))).
  { rewrite <- W. assert (X : forall k (l : list Cert), map fst (combine (seq k (length l)) l) = seq k (length l)). { clear. intros k l. revert k. induction l; intros k; simpl; auto. f_equal. auto. }
    rewrite X. apply seq_NoDup. }
  assert (Fp : Forall2 (fits cert_goal goal_name check) L pre).
  { unfold pre. rewrite <- Lc. clear - P. generalize 0 as k. induction P as [|l c L cs [H1 [H2 _]] P IH]; intros k; simpl; constructor; auto. split; auto. }
  assert (T : length (trims trim L pre) = used). { unfold trims. rewrite map_length, combine_length, (Forall2_len _ _ _ Fp). unfold pre. rewrite combine_length, seq_length, Lc. lia. }
  exists (trims trim L pre), rest. split; [auto|]. split; [auto|]. split.
  - unfold verify_module. rewrite W.
    assert (Hb : match items with [] => Some (BST s2 true [] (pre ++ rest)) | _ => option_map snd (build_items cert_goal goal_name check trim search2 make2 (fun _ => false) set2 true items ([], BST s2 true [] (pre ++ rest))) end =
      option_map snd (build_items cert_goal goal_name check trim search2 make2 (fun _ => false) set2 true items ([], BST s2 true [] (pre ++ rest)))) by (destruct items; auto). rewrite Hb. clear Hb.
    rewrite (E2 s2 true [] pre rest Hs2 Fp N). simpl. rewrite Hf2, Sn, T. auto.
  - intros I1 I2. unfold trims, pre. rewrite <- Lc. clear - P I1 I2. generalize 0 as k. induction P as [|l c L cs [_ [_ H]] P IH]; intros k; simpl; auto. f_equal; auto.
Qed.

(** The file that a build writes for the module, trimmed or not depending on the status at the end, is enough: the next check accepts the module, and the next verification searches for nothing.
    If trimming does nothing more the second time, a good second build leaves exactly the used certificates, and so does every later one. *)
Theorem build_then_check {F G} (ns : list (lnode F G)) items m s0 store st certs used s_end :
  trims_well -> makes_well -> lower_nodes true ns empty_module = (items, m) ->
  (b_exit set = true -> s0 = Good) -> b_override set = None ->
  verify_module cert_goal goal_name check trim search make cancelled set s0 store items = Some (st, Some (certs, used, true)) ->
  b_override set2 = None -> b_filter set2 = None -> b_force set2 = false ->
  exists st2 r, verify_module cert_goal goal_name check trim search2 make2 (fun _ => false) set2 Good (trim_unused s_end (certs, used, true)) items = Some (st2, Some r) /\
    st_status st2 = Good /\ snd r = true /\ length (trim_unused Good r) = length (l_goals m) /\
    ((forall c g V, check c g V = true -> trim (trim c g V) g V = trim c g V) -> (forall c g V, search g V = Success -> make g V = Some c -> trim c g V = c) ->
     trim_unused Good r = trim_unused Good (certs, used, true)).
Proof.
  intros Ht Hm Hl Hs Ho H Ho2 Hf2 Hn2.
  assert (X : exists extra, trim_unused s_end (certs, used, true) = firstn used certs ++ extra).
  { simpl. destruct (is_good s_end); [exists []; rewrite app_nil_r; auto|exists (skipn used certs); rewrite firstn_skipn; auto]. }
  destruct X as (extra & X). rewrite X.
  destruct (recorded_module_replays ns items m s0 store st certs used Good extra Ht Hm Hl Hs Ho H (fun _ => eq_refl) Ho2 Hf2 Hn2) as (cs & work & A & B & C & D).
  assert (Y : firstn used (cs ++ extra) = cs) by (rewrite firstn_app, A, Nat.sub_diag, <- A, firstn_all; simpl; apply app_nil_r).
  exists (BST Good true cs work), (cs ++ extra, used, true). split; [exact C|]. split; [auto|]. split; [auto|]. simpl. rewrite Y. split; [congruence|auto].
Qed.
End Property.

Print Assumptions recorded_module_replays.
Print Assumptions build_then_check.

(** Certificates have a goal and a number of steps, of which two are needed and consumed.  Both goals have the same name, so that their order matters: a certificate is good for goals up to the number of its steps. *)
Definition rc_items : list litem := [IFact 0; IBlock [IClaim 0 1] (Some 2); IClaim 1 3].
Definition rc_run (chk : bool) (search : nat -> list nat -> found) (store : list (nat * nat)) :=
  verify_module (@fst nat nat) (fun _ => 7) (fun c g V => g + 2 <=? snd c) (fun c g V => (fst c, g + 2)) search (fun g _ => Some (7, g + 2)) (fun _ => false) (SET chk false None None false) Good store rc_items.
(** The first build finds a certificate with too many steps for the first goal and searches for the second; the check works with what it left and leaves the same.  In the other order the certificates do
    not check. *)
Example recorded_module_replays_case :
  rc_run false (fun _ _ => Success) [(7, 1); (7, 5); (8, 4)] = Some (BST Good true [(7, 2); (7, 3)] [(0, (7, 1)); (2, (8, 4))], Some ([(7, 2); (7, 3); (7, 1); (8, 4)], 2, true)) /\
  rc_run true (fun _ _ => NotFound) [(7, 2); (7, 3); (7, 1); (8, 4)] = Some (BST Good true [(7, 2); (7, 3)] [(2, (7, 1)); (3, (8, 4))], Some ([(7, 2); (7, 3); (7, 1); (8, 4)], 2, true)) /\
  rc_run true (fun _ _ => NotFound) [(7, 3); (7, 2)] = None /\
  rc_run true (fun _ _ => NotFound) [(7, 1); (7, 2); (7, 3)] = None.
Proof. repeat split; reflexivity. Qed.
Example build_then_check_case :
  rc_run true (fun _ _ => NotFound) (trim_unused Good ([(7, 2); (7, 3); (7, 1); (8, 4)], 2, true)) = Some (BST Good true [(7, 2); (7, 3)] [], Some ([(7, 2); (7, 3)], 2, true)) /\
  trims_well (@fst nat nat) (fun c g _ => g + 2 <=? snd c) (fun c g _ => (fst c, g + 2)) /\
  makes_well (@fst nat nat) (fun _ => 7) (fun c g _ => g + 2 <=? snd c) (fun _ _ => Success) (fun g _ => Some (7, g + 2)).
Proof. split; [reflexivity|]. split; [intros c g V _|intros c g V _ [= <-]]; simpl; rewrite Nat.leb_refl; auto. Qed.
