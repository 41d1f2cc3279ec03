(** C67: the simplifier only takes out lines of claims that nothing needs, every source it writes verifies, and it ends. *)
From Coq Require Import List Arith Bool Lia.
Import ListNotations.
From Verif Require Import LoweredModule LoweredModuleProofs P_LoweredModule Simplify SimplifyProofs.

(** Lines are cut after newlines, and removing a range of lines leaves all other lines as they are; it fails exactly when the range is empty or not in the source. *)
Theorem remove_line_range_exact s first last t :
  (concat (split_inclusive s) = s /\ lines_ok (split_inclusive s)) /\
  (remove_line_range s first last = Some t <->
   exists A M B, split_inclusive s = A ++ M ++ B /\ length A = first /\ length A + length M = S last /\ M <> [] /\ split_inclusive t = A ++ B) /\
  (remove_line_range s first last = None <-> last < first \/ length (split_inclusive s) <= last).
Proof.
  split; [split; [apply split_concat|apply split_ok]|]. split; [split|].
  - intros H. apply remove_lines in H. apply H.
  - intros (A & M & B & E1 & E2 & E3 & E4 & E5). assert (0 < length M) by (destruct M; [congruence|simpl; lia]).
    unfold remove_line_range. rewrite E1, !app_length. destruct (Nat.ltb_spec last first); [lia|]. destruct (Nat.leb_spec (length A + (length M + length B)) first); [lia|].
    destruct (Nat.leb_spec (length A + (length M + length B)) last); [lia|]. simpl orb. cbv iota. f_equal. rewrite <- (split_concat t), E5. f_equal. f_equal.
    + rewrite firstn_app, E2, Nat.sub_diag, <- E2, firstn_all. simpl. apply app_nil_r.
    + rewrite app_assoc, skipn_app, app_length, E3, Nat.sub_diag, <- E3, <- app_length, skipn_all. auto.
  - unfold remove_line_range. destruct (Nat.ltb_spec last first); [split; auto|]. destruct (Nat.leb_spec (length (split_inclusive s)) first); [split; auto; intros _; right; lia|].
    destruct (Nat.leb_spec (length (split_inclusive s)) last); split; auto; try discriminate. intros; lia.
Qed.

Section Property.
  Context (load : text -> option loaded) (prove : nat -> text -> nat -> list nat -> option bool) (verify : nat -> text -> bool).

(** The loop ends after at most as many candidates as the file has lines, if the lines of claims are in the file. *)
Theorem simplify_terminates dry s :
  (forall t l g p f la, load t = Some l -> below (SClaim g p f la) (ld_items l) -> f <= la < length (split_inclusive t)) ->
  exists ok st, run load prove verify (S (length (split_inclusive s))) dry (init s) = Some (ok, st) /\ st_considered st <= length (split_inclusive s).
Proof.
  intros HL. destruct (run_ends load prove verify dry HL (S (length (split_inclusive s))) (init s)) as (ok & st & E & K); [unfold lines_left, source; cbn [st_work st_file st_cursor init]; lia|].
  exists ok, st. split; auto. unfold lines_left, source in K. cbn [st_work st_file st_cursor st_considered init] in K. lia.
Qed.

(** At any time of a run, and at its end, also when it fails: the source comes from the first one by the reported removals, each of which is justified; a dry run has
    not changed the file, and otherwise the file is that source, so it is the first one or it loads and verifies. *)
Theorem simplify_safe dry s st : (reach load prove verify dry s st \/ exists fuel ok, run load prove verify fuel dry (init s) = Some (ok, st)) ->
  chain load prove verify s (st_removed st) (source st) /\
  (if dry then st_file st = s else st_file st = source st) /\
  (st_file st = s \/ load (st_file st) <> None /\ exists k, verify k (st_file st) = true).
Proof.
  intros H. assert (R : reach load prove verify dry s st) by (destruct H as [H|(fuel & ok & H)]; [auto|eapply run_reach; [apply reach_init|exact H]]).
  destruct (reach_ok _ _ _ _ _ _ R) as [C1 C2]. split; auto. split; auto. destruct dry; [auto|]. rewrite C2. inversion C1 as [|rs [[f la] n] t t' Ch J]; [auto|].
  right. destruct J as (l & g & p & k & _ & _ & _ & _ & _ & _ & _ & _ & J1 & J2). eauto.
Qed.

(** No candidate is skipped: every round takes one with the least first line behind the cursor; the cursor only goes behind it if a goal could not be proved without its
    fact, and goes to the line after the removed ones otherwise.  A run that succeeds ends when there are none left. *)
Theorem simplify_in_order dry st st' :
  (step load prove verify dry st = Next st' -> exists l c, load (source st) = Some l /\ In c (collect_candidates l (st_cursor st)) /\
     (forall d, In d (collect_candidates l (st_cursor st)) -> c_first c <= c_first d) /\
     (source st' = source st /\ st_cursor st' = S (c_last c) /\
        (exists k g V, visible_fact_ids_for g (map erase (ld_items l)) = Some V /\ In (c_post c) V /\ prove k (source st) g (filter (fun f => negb (f =? c_post c)) V) = Some false) \/
      exists A M B, split_inclusive (source st) = A ++ M ++ B /\ length A = c_first c /\ length A + length M = S (c_last c) /\ split_inclusive (source st') = A ++ B /\ st_cursor st' = length A)) /\
  (step load prove verify dry st = Done st' -> exists l, load (source st') = Some l /\ collect_candidates l (st_cursor st') = []).
Proof.
  unfold step. destruct (load (source st)) as [l|] eqn:El; [|split; discriminate].
  destruct (first_candidate (collect_candidates l (st_cursor st))) as [c|] eqn:Ec.
  - cbn zeta. split.
    + intros H. exists l, c. split; auto. split; [apply first_in; auto|]. split; [apply first_least; auto|].
      destruct (can_remove _ _ _ _ _ _) as [[]|] eqn:Er; [| |discriminate].
      * destruct (remove_line_range _ _ _) as [t|] eqn:Et; [|discriminate]. destruct (load t); [|discriminate]. destruct (verify _ t); [|discriminate]. injection H as <-. right.
        destruct (remove_lines _ _ _ _ Et) as (_ & A & M & B & S1 & S2 & S3 & S4 & S5). exists A, M, B. unfold source at 2. simpl. destruct dry; auto.
      * injection H as <-. left. split; auto. split; auto. apply can_remove_not in Er. destruct Er as (g & V & Hg & Hv & Hp). apply affected_spec in Hg. destruct Hg as (_ & U & Hu & Hi).
        exists (S (st_considered st)), g, V. split; auto. split; auto. congruence.
    + destruct (can_remove _ _ _ _ _ _) as [[]|]; try discriminate. destruct (remove_line_range _ _ _) as [t|]; [|discriminate]. destruct (load t); [|discriminate]. destruct (verify _ t); discriminate.
  - split; [discriminate|]. intros [= <-]. exists l. split; auto. destruct (collect_candidates l (st_cursor st)) as [|x cs]; auto. simpl in Ec. destruct (first_candidate cs); discriminate.
Qed.

(** A dry run reports what a run that writes does. *)
Theorem dry_run_predicts fuel s ok st : run load prove verify fuel true (init s) = Some (ok, st) ->
  exists st', run load prove verify fuel false (init s) = Some (ok, st') /\ st_removed st' = st_removed st /\ st_considered st' = st_considered st /\ st_file st' = source st.
Proof.
  intros H. pose proof (same_run load prove verify fuel (init s) (init s)) as X. rewrite H in X.
  destruct (run load prove verify fuel false (init s)) as [[ok' st']|]; [|destruct X; repeat split]. destruct X as [<- (X1 & X2 & X3 & X4 & X5)]; [repeat split|].
  exists st'. auto.
Qed.

(** For a module that was lowered from nodes: the fact of a removed claim is not exported, and every goal that the builder verifies with it was proved from
    the other facts. *)
Theorem removed_claims_local {F G} t first last n t' l (ns : list (lnode F G)) m :
  justified load prove verify t (first, last, n) t' -> load t = Some l ->
  lower_nodes true ns empty_module = (map erase (ld_items l), m) -> ld_goals l = length (l_goals m) ->
  exists g p k, below (SClaim g p first last) (ld_items l) /\ ~ In p (l_exports m) /\
    forall g' V, In (g', V) (snd (verify_items true (map erase (ld_items l)) ([], []))) -> In p V -> prove k t g' (filter (fun f => negb (f =? p)) V) = Some true.
Proof.
  intros (l' & g & p & k & El & J1 & _ & _ & _ & J2 & _) El' Hl Hg. assert (l' = l) by congruence. subst l'. exists g, p, k. split; auto. split.
  - intros X. destruct (lower_ids ns _ _ _ _ Hl) as [(j & A1 & A2) A3]. destruct (A3 p X) as [[]|[_ Y]].
    eapply in_top_disjoint; [|eapply below_ids; exact J1|exact Y]. rewrite A2. apply seq_NoDup.
  - intros g' V Hi Hp. destruct (builder_uses_visible_facts ns _ _ Hl) as (B1 & B2 & _). eapply J2; eauto; [|apply B2; auto].
    apply (in_map fst) in Hi. rewrite B1 in Hi. simpl in Hi. apply in_seq in Hi. lia.
Qed.
End Property.

Print Assumptions remove_line_range_exact.
Print Assumptions simplify_terminates.
Print Assumptions simplify_safe.
Print Assumptions simplify_in_order.
Print Assumptions dry_run_predicts.
Print Assumptions removed_claims_local.

(** A theorem with two claims in its block; the second one does not need the first. *)
Definition case_text : text := [1; 10; 2; 10; 3; 10; 4].
Definition case_load (s : text) : option loaded :=
  match length (split_inclusive s) with
  | 4 => Some (LOADED [SBlock [SClaim 0 0 1 1; SClaim 1 1 2 2] (Some 2)] 2 (fun _ => true) (fun _ => true))
  | 3 => Some (LOADED [SBlock [SClaim 0 0 1 1] (Some 1)] 1 (fun _ => true) (fun _ => true))
  | _ => None
  end.
Definition case_prove (_ : nat) (_ : text) (_ : nat) (V : list nat) : option bool := Some true.
Definition case_verify (_ : nat) (_ : text) : bool := true.

Example remove_line_range_exact_case : remove_line_range case_text 1 2 = Some [1; 10; 4] /\ remove_line_range case_text 3 4 = None.
Proof. auto. Qed.
Example simplify_terminates_case : forall t l g p f la, case_load t = Some l -> below (SClaim g p f la) (ld_items l) -> f <= la < length (split_inclusive t).
Proof.
  intros t l g p f la E. unfold case_load in E. destruct (length (split_inclusive t)) as [|[|[|[|[|]]]]]; try discriminate; injection E as <-; intros H;
    inversion H as [is e its Hb Hx|is e its Hb Hx]; subst; destruct Hb as [Hb|[]]; injection Hb as <- <-.
  - destruct Hx as [[= <- <- <- <-]|[]]. lia.
  - inversion Hx as [? ? ? Y|? ? ? Y]; subst; destruct Y as [Y|[]]; discriminate.
  - destruct Hx as [[= <- <- <- <-]|[[= <- <- <- <-]|[]]]; lia.
  - inversion Hx as [? ? ? Y|? ? ? Y]; subst; destruct Y as [Y|[Y|[]]]; discriminate.
Qed.
Example simplify_safe_case : run case_load case_prove case_verify 5 false (init case_text) = Some (true, ST [1; 10; 3; 10; 4] None 1 1 [(1, 1, 1)]).
Proof. reflexivity. Qed.
Example simplify_in_order_case :
  step case_load case_prove case_verify false (init case_text) = Next (ST [1; 10; 3; 10; 4] None 1 1 [(1, 1, 1)]) /\
  step case_load (fun _ _ _ _ => Some false) case_verify false (init case_text) = Next (ST case_text None 2 1 []) /\
  step case_load case_prove case_verify false (ST case_text None 2 1 []) = Done (ST case_text None 2 1 []).
Proof. repeat split. Qed.
Example dry_run_predicts_case : run case_load case_prove case_verify 5 true (init case_text) = Some (true, ST case_text (Some [1; 10; 3; 10; 4]) 1 1 [(1, 1, 1)]).
Proof. reflexivity. Qed.
Example removed_claims_local_case :
  justified case_load case_prove case_verify case_text (1, 1, 1) [1; 10; 3; 10; 4] /\
  exists l m, case_load case_text = Some l /\ ld_goals l = length (l_goals m) /\
    lower_nodes true [NBlock [NClaim 7 7 false; NClaim 8 8 false] (Some (9, true))] empty_module = (map erase (ld_items l), m).
Proof.
  split.
  - assert (H : reach case_load case_prove case_verify false case_text (ST [1; 10; 3; 10; 4] None 1 1 [(1, 1, 1)])) by (eapply reach_step; [apply reach_init|left; reflexivity]).
    destruct (reach_ok _ _ _ _ _ _ H) as [C _]. simpl in C. inversion C as [|rs r t t' Ch J E1 E2]. destruct rs as [|x [|y rs]]; [|discriminate|discriminate].
    injection E1 as ->. inversion Ch as [E3|rs2 r2 t2 t3 ? ? E3]; [subst t; exact J|]. destruct rs2; discriminate.
  - do 2 eexists. split; [reflexivity|]. split; [|reflexivity]. reflexivity.
Qed.
