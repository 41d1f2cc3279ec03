(** Property C22: bucket filters. *)
From Coq Require Import List NArith Bool Lia.
Import ListNotations.
From Verif Require Import GoalPartition GoalPartitionProofs.
Open Scope N_scope.

(** The parser accepts exactly the written filters ([filter_text] is a grammar: entries
    separated by commas, an entry is one bucket or two separated by a dash, a bucket is an
    optional plus sign and decimal digits below 100, white space allowed around buckets). *)
Theorem filter_parse_exact :
  forall s f, parse s = Some f <-> filter_text s f.
Proof. exact parse_text. Qed.
Print Assumptions filter_parse_exact.

(** " 3 , +7-09" *)
Example filter_parse_exact_case :
  parse [32; 51; 32; 44; 32; 43; 55; 45; 48; 57] = Some [Range 3 3; Range 7 9]
  /\ parse [57; 45; 51] = None /\ parse [49; 48; 48] = None.
Proof. repeat split. Qed.

(** Printing a parsed filter and parsing it again gives the same filter. *)
Theorem filter_print_parse :
  forall s f, parse s = Some f -> parse (show f) = Some f.
Proof. intros s f H. apply parse_ok in H. destruct H. apply parse_show; auto. Qed.
Print Assumptions filter_print_parse.

Example filter_print_parse_case :
  exists f, parse [32; 51; 32; 44; 32; 43; 55; 45; 48; 57] = Some f /\ show f = [51; 44; 55; 45; 57].
Proof. eexists. split; reflexivity. Qed.

(** A parsed filter accepts exactly the buckets lying in one of its written ranges. *)
Theorem filter_contains_exact :
  forall s f b, filter_text s f ->
  (contains f b = true <-> exists r, In r f /\ start r <= b <= end_ r) /\
  (contains f b = true -> b < 100).
Proof.
  intros s f b H. split; [apply contains_spec|].
  intros Hc. apply contains_spec in Hc. destruct Hc as (r & Hr & Hb).
  apply parse_text in H. apply parse_ok in H. destruct H as [_ H].
  rewrite Forall_forall in H. destruct (H r Hr). lia.
Qed.
Print Assumptions filter_contains_exact.

Example filter_contains_exact_case :
  exists f, filter_text [48; 45; 52; 57] f /\ contains f 49 = true /\ contains f 50 = false.
Proof. exists [Range 0 49]. split; [apply parse_text; reflexivity|]. split; reflexivity. Qed.

(** Whatever the hash, if the filters of a set of runs cover 0-99 then every goal is selected by
    some run; the hundred single-bucket runs select it exactly once. *)
Theorem filters_cover_every_goal :
  forall (sha : str -> str -> N) (fs : list filter_),
  (forall b, b < 100 -> exists f, In f fs /\ contains f b = true) ->
  forall module goal, exists f, In f fs /\ contains f (goal_bucket sha module goal) = true.
Proof. intros sha fs H m g. apply H. apply N.mod_lt. discriminate. Qed.
Print Assumptions filters_cover_every_goal.

Example filters_cover_every_goal_case :
  forall b, b < 100 ->
  exists f, In f [[Range 0 49]; [Range 50 99]] /\ contains f b = true.
Proof.
  intros b Hb. destruct (N.ltb_spec b 50).
  - exists [Range 0 49]. split; [left; auto|]. apply contains_spec. exists (Range 0 49). simpl. split; auto. lia.
  - exists [Range 50 99]. split; [right; left; auto|]. apply contains_spec. exists (Range 50 99). simpl. split; auto. lia.
Qed.

Theorem single_filters_partition_goals :
  forall (sha : str -> str -> N) module goal,
  exists! b, exists f, single b = Some f /\ contains f (goal_bucket sha module goal) = true.
Proof.
  intros sha m g. exists (goal_bucket sha m g).
  assert (Hlt : goal_bucket sha m g < 100) by (apply N.mod_lt; discriminate).
  split.
  - unfold single, bucket_count. destruct (N.ltb_spec (goal_bucket sha m g) 100); [|lia].
    eexists. split; [reflexivity|]. apply contains_spec. eexists. split; [left; reflexivity|]. simpl. lia.
  - intros b (f & H1 & H2). unfold single in H1. destruct (_ <? _); [|discriminate].
    inversion H1; subst. apply contains_spec in H2. destruct H2 as (r & [<-|[]] & H2). simpl in H2. lia.
Qed.
Print Assumptions single_filters_partition_goals.

Example single_filters_partition_goals_case :
  goal_bucket (fun _ _ => 154) [102] [103] = 54 /\ single 54 = Some [Range 54 54] /\ single 100 = None.
Proof. repeat split. Qed.
