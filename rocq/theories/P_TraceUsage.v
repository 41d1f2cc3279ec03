(** C48: trimming a certificate to the steps that were consumed (certificate.rs:968, certificate_trace.rs:3758). *)
From Coq Require Import List Arith Bool Lia.
Import ListNotations.
From Verif Require Import Term LocalContext Clause Typing Unifier ClauseSet EqualityGraph Checker TraceChecker P_EqualityInferences P_Checker P_Unifier P_TraceChecker.

Section U.
Context (K : kctx) (ts : tstore) (inhab : term -> lctx -> bool) (avail : clause -> bool) (path : egraph -> Literal.literal -> bool).
Context (ordk : nat -> list nat -> list nat) (ordc : nat -> list clauseid -> list clauseid) (orde : list clause -> list clause).
Notation steps_ok := (check_steps K ts inhab avail path ordk ordc orde).
Notation usage := (check_usage K ts inhab avail path ordk ordc orde).
Lemma usage_accepts n steps : forall st i, steps_ok n st steps = match usage n st i steps with Ok (Some _) => Ok true | Ok None => Ok false | Panic => Panic | NoFuel => NoFuel end.
Proof.
  induction steps as [|t r IH]; intros st i; cbn [check_steps check_usage]; destruct (has_contradiction (fst st)); auto.
  destruct (check_step K ts inhab avail path ordk ordc orde n st t) as [[st'|]| |]; simpl; auto.
Qed.
Lemma usage_prefix n steps : forall st i k, usage n st i steps = Ok (Some k) -> i <= k /\ k - i <= length steps /\
  steps_ok n st (firstn (k - i) steps) = Ok true /\ forall j, j < k - i -> steps_ok n st (firstn j steps) = Ok false.
Proof.
  induction steps as [|t r IH]; intros st i k H; cbn [check_usage] in H; destruct (has_contradiction (fst st)) eqn:E; try discriminate.
  - injection H as <-. rewrite Nat.sub_diag. simpl. rewrite E. repeat split; auto; lia.
  - injection H as <-. rewrite Nat.sub_diag. simpl. rewrite E. repeat split; auto; lia.
  - destruct (check_step K ts inhab avail path ordk ordc orde n st t) as [[st'|]| |] eqn:F; simpl in H; try discriminate.
    destruct (IH st' (S i) k H) as (A & B & C & D). split; [lia|]. split; [simpl; lia|]. replace (k - i) with (S (k - S i)) by lia. split.
    + simpl. rewrite E, F. exact C.
    + intros [|j] Hj; simpl; rewrite E; auto. rewrite F. simpl. apply D. lia.
Qed.
End U.

(** A trace is accepted if and only if checking reports a number of consumed steps; then the trimmed trace is accepted
    too, consumes as many steps, and no shorter prefix is accepted. *)
Theorem trimming_keeps_acceptance : forall K ts inhab avail path ordk ordc orde n s steps,
  let accepts := fun l => check_trace K ts inhab avail path ordk ordc orde n s l = Ok true in
  let uses := fun l k => check_trace_usage K ts inhab avail path ordk ordc orde n s l = Ok (Some k) in
  (accepts steps <-> exists k, uses steps k) /\
  forall k, uses steps k -> k <= length steps /\ accepts (trim_to_consumed_prefix steps k) /\ uses (trim_to_consumed_prefix steps k) k /\
    forall j, j < k -> ~ accepts (firstn j steps).
Proof.
  intros K ts inhab avail path ordk ordc orde n s steps. cbv zeta. unfold check_trace, check_trace_usage, trim_to_consumed_prefix. split.
  - rewrite (usage_accepts K ts inhab avail path ordk ordc orde n steps (s, []) 0).
    destruct (check_usage K ts inhab avail path ordk ordc orde n (s, []) 0 steps) as [[k|]| |]; split; try discriminate; eauto; intros [k' H]; discriminate.
  - intros k H. destruct (usage_prefix _ _ _ _ _ _ _ _ _ _ _ _ _ H) as (_ & A & B & C). rewrite Nat.sub_0_r in *. split; auto. split; auto. split.
    + rewrite (usage_accepts K ts inhab avail path ordk ordc orde n _ (s, []) 0) in B.
      destruct (check_usage K ts inhab avail path ordk ordc orde n (s, []) 0 (firstn k steps)) as [[k'|]| |] eqn:E; try discriminate.
      do 2 f_equal. destruct (usage_prefix _ _ _ _ _ _ _ _ _ _ _ _ _ E) as (_ & A' & B' & _). rewrite Nat.sub_0_r in *. rewrite firstn_length in A'.
      destruct (Nat.eq_dec k' k) as [|Hn]; auto. exfalso. rewrite firstn_firstn, Nat.min_l in B' by lia.
      specialize (C k'). rewrite C in B' by lia. discriminate.
    + intros j Hj. rewrite C by auto. discriminate.
Qed.
Print Assumptions trimming_keeps_acceptance.

(** the trace of [certificate_acceptance_refuted] with two idle steps after it *)
Example trimming_case : check_trace_usage ei_K un_ts ck_none (fun _ => true) (fun _ _ => true) ck_idk ck_idc (fun l => l) 20 ck_new
    (gc_trace ++ gc_trace) = Ok (Some 2) /\
  trim_to_consumed_prefix (gc_trace ++ gc_trace) 2 = gc_trace.
Proof. split; vm_compute; reflexivity. Qed.
