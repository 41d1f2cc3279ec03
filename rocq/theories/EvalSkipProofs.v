(** Lemmas about EvalSkip.v. *)
From Coq Require Import List Arith Bool Lia.
Import ListNotations.
From Verif Require Import LoweredModule BuildModuleProofs EvalSkip.

(** The claims of the items in order, each with the items before it in its own list *)
Definition sites_list (f : list litem -> litem -> list (list litem * nat)) : list litem -> list litem -> list (list litem * nat) :=
  fix go d is := match is with [] => [] | i :: is => f d i ++ go (d ++ [i]) is end.
Fixpoint site (d : list litem) (i : litem) : list (list litem * nat) :=
  match i with
  | IFact _ => []
  | IClaim g _ => [(d, g)]
  | IBlock is _ => sites_list site [] is
  end.
Definition sites := sites_list site.

Section Proofs.
  Context (max_skip : nat) (plain : nat -> bool).
  Definition claim (c : nat * nat) : litem := IClaim (fst c) (snd c).
  Definition all_plain (r : list (nat * nat)) : Prop := Forall (fun c => plain (fst c) = true) r.
  (** The checkpoints are the facts before each of the last plain claims, and there are as many as possible. *)
  Definition inv (d : list litem) (proc : list nat) (cps : list (list nat)) : Prop :=
    exists d0 r base, d = d0 ++ map claim r /\ all_plain r /\ proc = base ++ map snd r /\ cps = map (fun j => base ++ firstn j (map snd r)) (seq 0 (length r)) /\ length r <= max_skip /\
      (length r = max_skip \/ forall d1 c, d0 = d1 ++ [claim c] -> plain (fst c) = false).

  Lemma inv_barrier d proc : (forall d1 c, d = d1 ++ [claim c] -> plain (fst c) = false) -> inv d proc [].
  Proof. intros H. exists d, [], proc. simpl. rewrite !app_nil_r. split; [auto|]. split; [constructor|]. split; [auto|]. split; [auto|]. split; [lia|auto]. Qed.
  Lemma inv_plain d proc cps g f : inv d proc cps -> plain g = true -> inv (d ++ [IClaim g f]) (proc ++ [f]) (record_plain max_skip cps proc).
  Proof.
    intros (d0 & r & base & -> & Hp & -> & -> & Hl & Hm) Hg. unfold record_plain. destruct (max_skip =? 0) eqn:E0.
    { apply Nat.eqb_eq in E0. assert (r = []) as -> by (destruct r; simpl in Hl; [auto|lia]). simpl. exists (d0 ++ [IClaim g f]), [], (base ++ [f]). simpl. rewrite !app_nil_r.
      split; [auto|]. split; [constructor|]. split; [auto|]. split; [auto|]. split; [lia|left; auto]. }
    apply Nat.eqb_neq in E0. rewrite app_length, map_length, seq_length. cbn [length].
    assert (Hc : map (fun j => base ++ firstn j (map snd r)) (seq 0 (length r)) ++ [base ++ map snd r] = map (fun j => base ++ firstn j (map snd (r ++ [(g, f)]))) (seq 0 (length (r ++ [(g, f)])))).
    { rewrite app_length. cbn [length]. rewrite seq_app, map_app. cbn [seq map Nat.add]. f_equal.
      - apply map_ext_in. intros j Hj. apply in_seq in Hj. rewrite map_app, firstn_app, map_length. replace (j - length r) with 0 by lia. simpl. rewrite app_nil_r. auto.
      - rewrite map_app, firstn_app, map_length, Nat.sub_diag. simpl. rewrite app_nil_r, <- (map_length snd), firstn_all. auto. }
    rewrite Hc. destruct (max_skip <? length r + 1) eqn:E1.
    - apply Nat.ltb_lt in E1. destruct r as [|[g0 f0] r]; [simpl in E1; lia|]. exists (d0 ++ [IClaim g0 f0]), (r ++ [(g, f)]), (base ++ [f0]). split; [|split; [|split; [|split; [|split]]]].
      + rewrite map_app, <- !app_assoc. auto.
      + inversion Hp; subst. apply Forall_app. split; [auto|]. repeat constructor. auto.
      + rewrite map_app, <- !app_assoc. auto.
      + cbn [app length map snd seq tl]. rewrite <- seq_shift, map_map. apply map_ext. intros j. cbn [firstn]. rewrite <- app_assoc. auto.
      + rewrite app_length. cbn [length] in *. lia.
      + left. rewrite app_length. cbn [length] in *. lia.
    - apply Nat.ltb_ge in E1. exists d0, (r ++ [(g, f)]), base. split; [|split; [|split; [|split; [|split]]]]; auto.
      + rewrite map_app, <- !app_assoc. auto.
      + apply Forall_app. split; [auto|]. repeat constructor. auto.
      + rewrite map_app, <- !app_assoc. auto.
      + rewrite app_length. cbn [length]. lia.
      + destruct Hm as [Hm|Hm]; [lia|auto].
  Qed.

  Definition logged (s : list litem * nat) (e : entry) : Prop := snd s = fst (fst e) /\ inv (fst s) (snd (fst e)) (snd e).
  Definition runs (top : bool) (d d' : list litem) (S : list (list litem * nat)) (f : list nat * list (list nat) * list entry -> list nat * list (list nat) * list entry)
      (v : list nat * list (nat * list nat) -> list nat * list (nat * list nat)) : Prop :=
    forall proc cps log, inv d proc cps -> exists proc' cps' L, f (proc, cps, log) = (proc', cps', log ++ L) /\ inv d' proc' cps' /\ Forall2 logged S L /\
      forall l, v (proc, l) = (proc', l ++ map fst L).
  Lemma last_not_claim d i d1 c : (forall g f, i <> IClaim g f) -> d ++ [i] = d1 ++ [claim c] -> plain (fst c) = false.
  Proof. intros H E. apply app_inj_tail in E. destruct E as [_ E]. exfalso. apply (H _ _ E). Qed.
  Lemma items_run is : forall top d, runs top d (d ++ is) (sites d is) (eval_items max_skip plain top is) (verify_items top is).
  Proof.
    assert (K : forall is, Forall (fun i => forall top d, runs top d (d ++ [i]) (site d i) (eval_item max_skip plain top i) (verify_item top i)) is ->
      forall top d, runs top d (d ++ is) (sites d is) (eval_items max_skip plain top is) (verify_items top is)).
    { clear is. induction 1 as [|i is Hi His IH]; intros top d proc cps log Hv.
      - exists proc, cps, []. simpl. rewrite !app_nil_r. split; [auto|]. split; [auto|]. split; [constructor|]. intros l. rewrite app_nil_r. auto.
      - destruct (Hi top d proc cps log Hv) as (p1 & c1 & L1 & A1 & A2 & A3 & A4). destruct (IH top (d ++ [i]) p1 c1 (log ++ L1) A2) as (p2 & c2 & L2 & B1 & B2 & B3 & B4).
        exists p2, c2, (L1 ++ L2). unfold eval_items, verify_items in *. cbn [fold_left]. rewrite A1, B1. split; [rewrite app_assoc; auto|]. split; [rewrite <- app_assoc in B2; auto|].
        split; [apply Forall2_app; auto|]. intros l. rewrite A4, B4, map_app, app_assoc. auto. }
    apply K. apply Forall_forall. intros i _. clear is. induction i as [f|g f|is e IH] using litem_ind'; intros top d proc cps log Hv.
    - exists (proc ++ [f]), [], []. simpl. rewrite app_nil_r. split; [auto|]. split; [apply inv_barrier; intros d1 c; apply last_not_claim; discriminate|]. split; [constructor|]. intros l. rewrite app_nil_r. auto.
    - exists (proc ++ [f]), (if plain g then record_plain max_skip cps proc else []), [(g, proc, cps)]. split; [auto|]. split; [|split; [repeat constructor; auto|auto]].
      destruct (plain g) eqn:E; [apply inv_plain; auto|]. apply inv_barrier. intros d1 c H. apply app_inj_tail in H. destruct H as [_ H]. injection H as -> _. auto.
    - destruct (K is IH false [] proc [] log) as (p1 & c1 & L & A1 & A2 & A3 & A4); [apply inv_barrier; intros [|? ?] ?; discriminate|].
      exists (match e with Some f => proc ++ [f] | None => proc end), [], L. unfold eval_items, verify_items in A1, A4. cbn [eval_item verify_item]. split; [|split; [|split]].
      + destruct (match is with [] => true | _ => false end && top) eqn:Et; [destruct is; [|discriminate]; simpl in A1; injection A1 as _ _ A1; rewrite <- A1; auto|rewrite A1; auto].
      + apply inv_barrier. intros d1 c. apply last_not_claim. discriminate.
      + exact A3.
      + intros l. specialize (A4 l). destruct (match is with [] => true | _ => false end && top) eqn:Et; [destruct is; [|discriminate]; simpl in A4; injection A4 as _ A4; rewrite <- A4; auto|rewrite A4; auto].
  Qed.

  (** What the invariant says about one goal *)
  Lemma inv_checkpoint d V cps k W : inv d V cps ->
    checkpoint_for cps k = Some W <-> 1 <= k <= max_skip /\ exists d0 seg, d = d0 ++ map claim seg /\ length seg = k /\ all_plain seg /\ V = W ++ map snd seg.
  Proof.
    intros (d0 & r & base & -> & Hp & -> & -> & Hl & Hm). unfold checkpoint_for. rewrite map_length, seq_length.
    assert (Hget : forall j, j < length r -> nth_error (map (fun j => base ++ firstn j (map snd r)) (seq 0 (length r))) j = Some (base ++ firstn j (map snd r))).
    { intros j Hj. apply map_nth_error with (d := j). rewrite (nth_error_nth' _ 0) by (rewrite seq_length; auto). rewrite seq_nth by auto. auto. }
    split.
    - destruct (k =? 0) eqn:E0; [discriminate|]. destruct (length r <? k) eqn:E1; [discriminate|]. simpl. apply Nat.eqb_neq in E0. apply Nat.ltb_ge in E1. rewrite Hget by lia. intros [= <-].
      split; [lia|]. exists (d0 ++ map claim (firstn (length r - k) r)), (skipn (length r - k) r). rewrite <- !app_assoc, <- map_app, firstn_skipn. split; [auto|]. split; [rewrite skipn_length; lia|].
      split; [unfold all_plain in *; rewrite <- (firstn_skipn (length r - k) r) in Hp; apply Forall_app in Hp; apply Hp|]. f_equal. rewrite firstn_map, <- map_app, firstn_skipn. auto.
    - intros (Hk & d1 & seg & Hd & Hs & Hq & HV).
      assert (Hle : k <= length r).
      { destruct Hm as [Hm|Hm]; [lia|]. destruct (le_lt_dec k (length r)) as [H|H]; [auto|]. exfalso.
        assert (X : exists c seg0, seg = seg0 ++ c :: skipn (S (length seg0)) seg /\ length seg0 = k - length r - 1).
        { exists (nth (k - length r - 1) seg (0, 0)), (firstn (k - length r - 1) seg). rewrite firstn_length_le by lia. split; [|auto].
          rewrite <- (firstn_skipn (k - length r - 1) seg) at 1. f_equal. clear - Hs H. revert Hs H. generalize (length r) as n. intros n Hs H. assert (Hi : k - n - 1 < length seg) by lia.
          revert Hi. generalize (k - n - 1) as i. clear. intros i. revert i. induction seg as [|x seg IH]; intros [|i] Hi; simpl in *; try lia; auto. apply IH. lia. }
        destruct X as (c & seg0 & X1 & X2). assert (Lt : length (skipn (S (length seg0)) seg) = length r) by (rewrite skipn_length; lia).
        revert X1 Lt. generalize (skipn (S (length seg0)) seg) as tl0. intros tl0 X1 Lt.
        rewrite X1 in Hd. replace (d1 ++ map claim (seg0 ++ c :: tl0)) with (((d1 ++ map claim seg0) ++ [claim c]) ++ map claim tl0) in Hd by (rewrite map_app; simpl; rewrite <- !app_assoc; auto).
        assert (Hx : forall (a b x y : list litem), length x = length y -> a ++ x = b ++ y -> a = b).
        { clear. intros a b x y Hl E. assert (La : length a = length b) by (apply (f_equal (@length _)) in E; rewrite !app_length in E; lia).
          revert b La E. induction a as [|u a IH]; intros [|w b] La E; simpl in *; try discriminate; auto. injection E as -> E. f_equal. apply IH; auto. }
        apply Hx in Hd; [|rewrite !map_length; auto]. specialize (Hm _ _ Hd). unfold all_plain in Hq. rewrite X1 in Hq. apply Forall_app in Hq. destruct Hq as [_ Hq]. apply Forall_inv in Hq. congruence. }
      destruct (k =? 0) eqn:E0; [apply Nat.eqb_eq in E0; lia|]. destruct (length r <? k) eqn:E1; [apply Nat.ltb_lt in E1; lia|]. simpl. rewrite Hget by lia. f_equal.
      assert (Hseg : skipn (length r - k) (map snd r) = map snd seg).
      { rewrite <- (firstn_skipn (length r - k) r), map_app, app_assoc in Hd.
        assert (Hy : forall (a b x y : list litem), length x = length y -> a ++ x = b ++ y -> x = y).
        { clear. intros a b x y Hl E. assert (La : length a = length b) by (apply (f_equal (@length _)) in E; rewrite !app_length in E; lia).
          revert b La E. induction a as [|u a IH]; intros [|w b] La E; simpl in *; try discriminate; auto. injection E as _ E. apply (IH b); auto. }
        apply Hy in Hd; [|rewrite !map_length, skipn_length; lia]. rewrite skipn_map. revert Hd. generalize (skipn (length r - k) r) as q. clear. intros q. revert seg.
        induction q as [|[a b] q IH]; intros [|[u w] seg] E; simpl in *; try discriminate; auto. injection E as _ -> E. f_equal. auto. }
      rewrite <- Hseg in HV. rewrite <- (firstn_skipn (length r - k) (map snd r)), app_assoc in HV at 1. apply app_inv_tail in HV. auto.
  Qed.
End Proofs.
