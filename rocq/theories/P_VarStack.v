(** C32: levels of variables on the stack. *)
From Coq Require Import String List Arith Bool Lia Permutation.
Import ListNotations.
From Verif Require Import BuildCache BuildCacheProofs VarStack.

(** The scopes the elaborator opens and closes: a variable with a new name is added, or the last few variables are removed, in any order. *)
Inductive scoped {T : Type} : @stack T -> list (string * T) -> Prop :=
| scoped_new : scoped [] []
| scoped_insert s l name ty : scoped s l -> ~ In name (map fst l) -> length l < Nat.pow 2 16 -> scoped (fst (insert s name ty)) (l ++ [(name, ty)])
| scoped_remove s l l' ns : scoped s (l ++ l') -> Permutation ns (map fst l') -> scoped (remove_all s ns) l.

Section Proofs.
Context {T : Type}.
Implicit Types (s : @stack T) (l : list (string * T)).
Definition holds s l : Prop := NoDup (map fst l) /\ NoDup (keys s) /\ length s = length l /\
  forall i name ty, nth_error l i = Some (name, ty) <-> get s name = Some (i, ty).
Lemma atom_small n : n < Nat.pow 2 16 -> atom_id n = n.
Proof. intros H. unfold atom_id. apply Nat.mod_small; auto. Qed.
Lemma nodup_snoc {A} (l : list A) a : NoDup l -> ~ In a l -> NoDup (l ++ [a]).
Proof. intros N H. apply (Permutation_NoDup (l := a :: l)); [apply Permutation_cons_append|constructor; auto]. Qed.
Lemma get_in s name v : NoDup (keys s) -> get s name = Some v <-> In (name, v) s.
Proof. intros N. unfold get. split; [apply mget_in; apply seqb_eq|intros H; apply in_mget; auto; apply seqb_eq]. Qed.
Lemma nth_name l i name ty : nth_error l i = Some (name, ty) -> In name (map fst l).
Proof. intros H. apply nth_error_In in H. apply (in_map fst) in H. exact H. Qed.
Lemma mput_len (s : @stack T) k v : mget String.eqb k s = None -> length (mput String.eqb k v s) = S (length s).
Proof. induction s as [|[a b] s IH]; simpl; auto. destruct (String.eqb a k); [discriminate|]. intros H. simpl. rewrite IH; auto. Qed.
Lemma insert_holds s l name ty : holds s l -> ~ In name (map fst l) -> length l < Nat.pow 2 16 -> holds (fst (insert s name ty)) (l ++ [(name, ty)]) /\ snd (insert s name ty) = length l.
Proof.
  intros (N1 & N2 & Len & G) Nn Hl. unfold insert. cbn [fst snd]. rewrite Len, atom_small by auto. split; auto.
  assert (G0 : get s name = None).
  { destruct (get s name) as [[i t]|] eqn:E; auto. apply G in E. destruct (Nn (nth_name _ _ _ _ E)). }
  split; [rewrite map_app; apply nodup_snoc; auto|]. split; [apply nodup_put; auto; apply seqb_eq|]. split; [rewrite mput_len, app_length by auto; simpl; lia|].
  intros i nm t. unfold get. rewrite mget_put by apply seqb_eq. destruct (String.eqb_spec name nm) as [->|E].
  - split.
    + intros H. destruct (Nat.lt_ge_cases i (length l)) as [Hi|Hi].
      * rewrite nth_error_app1 in H by auto. destruct (Nn (nth_name _ _ _ _ H)).
      * rewrite nth_error_app2 in H by auto. destruct (i - length l) as [|k] eqn:Ei; [cbn in H; injection H as ->; do 2 f_equal; lia|]. destruct k; discriminate.
    + intros H. injection H as <- <-. rewrite nth_error_app2, Nat.sub_diag by auto. auto.
  - split.
    + intros H. destruct (Nat.lt_ge_cases i (length l)) as [Hi|Hi].
      * rewrite nth_error_app1 in H by auto. apply G. auto.
      * rewrite nth_error_app2 in H by auto. destruct (i - length l) as [|k]; [cbn in H; congruence|]. destruct k; discriminate.
    + intros H. apply G in H. rewrite nth_error_app1; auto. apply nth_error_Some. congruence.
Qed.
Lemma get_remove_all ns : forall s name, get (remove_all s ns) name = if in_dec string_dec name ns then None else get s name.
Proof.
  induction ns as [|n ns IH]; intros s name; [reflexivity|]. unfold remove_all in *. cbn [fold_left]. rewrite IH. unfold get, remove. rewrite mget_remove by apply seqb_eq.
  destruct (in_dec string_dec name ns) as [H0|H0], (in_dec string_dec name (n :: ns)) as [H|H]; auto.
  - destruct H. right; auto.
  - destruct (String.eqb_spec n name); auto. destruct H as [H|H]; congruence.
  - destruct (String.eqb_spec n name); auto. destruct H. left; auto.
Qed.
Lemma remove_all_sub ns : forall s, incl (remove_all s ns) s /\ (NoDup (keys s) -> NoDup (keys (remove_all s ns))).
Proof.
  induction ns as [|n ns IH]; intros s; [split; auto using incl_refl|]. unfold remove_all in *. cbn [fold_left]. destruct (IH (remove s n)) as [I1 I2].
  assert (R : incl (remove s n) s /\ (NoDup (keys s) -> NoDup (keys (remove s n)))).
  { split; [intros x Hx; apply filter_In in Hx; tauto|]. unfold remove, mremove, keys. clear I1 I2 IH. induction s as [|a s IHs]; cbn; auto. intros N. inversion N; subst. destruct (negb (String.eqb (fst a) n)); cbn; auto. constructor; [|auto].
    intros X. apply H1. apply in_map_iff in X. destruct X as (y & Ey & Hy). apply filter_In in Hy. rewrite <- Ey. apply in_map. tauto. }
  split; [eapply incl_tran; eauto; apply R|]. intros N. apply I2, R, N.
Qed.
Lemma holds_perm s l : holds s l -> Permutation (map (fun e => (fst e, snd (snd e))) s) l.
Proof.
  intros (N1 & N2 & Len & G). apply NoDup_Permutation_bis.
  - unfold keys in N2. clear - N2. induction s as [|a s IH]; cbn in *; [constructor|]. inversion N2; subst. constructor; auto. intros H. apply H1. apply in_map_iff in H. destruct H as (y & E & Hy). injection E as E _. rewrite <- E. apply in_map; auto.
  - rewrite map_length. lia.
  - intros [nm t] H. apply in_map_iff in H. destruct H as ([nm' [i t']] & E & H). cbn in E. injection E as -> ->. apply get_in in H; auto. apply G in H. eapply nth_error_In; eauto.
Qed.
Lemma remove_holds s l l' ns : holds s (l ++ l') -> Permutation ns (map fst l') -> holds (remove_all s ns) l.
Proof.
  intros (N1 & N2 & Len & G) P. destruct (remove_all_sub ns s) as [I1 I2]. specialize (I2 N2). rewrite map_app in N1.
  assert (Dj : forall x, In x (map fst l) -> ~ In x ns).
  { intros x H1 H2. apply (Permutation_in x P) in H2. clear - N1 H1 H2. induction (map fst l) as [|a m IH]; [destruct H1|]. cbn in N1. inversion N1; subst. destruct H1 as [->|H1]; auto. apply H3. apply in_or_app; auto. }
  assert (G' : forall i name ty, nth_error l i = Some (name, ty) <-> get (remove_all s ns) name = Some (i, ty)).
  { intros i name ty. rewrite get_remove_all. split.
    - intros H. destruct (in_dec string_dec name ns) as [X|X]; [destruct (Dj name (nth_name _ _ _ _ H) X)|]. apply G. rewrite nth_error_app1; auto. apply nth_error_Some; congruence.
    - destruct (in_dec string_dec name ns) as [X|X]; [discriminate|]. intros H. apply G in H. destruct (Nat.lt_ge_cases i (length l)) as [Hi|Hi]; [rewrite nth_error_app1 in H; auto|].
      rewrite nth_error_app2 in H by auto. apply nth_name in H. destruct X. apply (Permutation_in name (Permutation_sym P)). auto. }
  split; [clear - N1; induction (map fst l) as [|a m IH]; [constructor|]; cbn in N1; inversion N1; subst; constructor; auto; intros X; apply H1; apply in_or_app; auto|].
  split; auto. split; auto.
  assert (Nl : NoDup (map fst l)) by (clear - N1; induction (map fst l) as [|a m IH]; [constructor|]; cbn in N1; inversion N1; subst; constructor; auto; intros X; apply H1; apply in_or_app; auto).
  rewrite <- (map_length fst l), <- (map_length fst (remove_all s ns)). apply Nat.le_antisymm; apply NoDup_incl_length; auto.
  - intros x Hx. apply in_map_iff in Hx. destruct Hx as ([nm [i t]] & <- & Hx). apply get_in in Hx; auto. apply G' in Hx. apply (nth_name _ _ _ _ Hx).
  - intros x Hx. apply in_map_iff in Hx. destruct Hx as ([nm t] & <- & Hx). apply In_nth_error in Hx. destruct Hx as [i Hx]. apply G' in Hx. apply get_in in Hx; auto. apply (in_map fst) in Hx. exact Hx.
Qed.
Lemma scoped_holds s l : scoped s l -> holds s l.
Proof.
  induction 1 as [|s l name ty H IH Nn Hl|s l l' ns H IH P].
  - repeat split; try constructor; try discriminate. intros H. destruct i; discriminate.
  - apply insert_holds; auto.
  - eapply remove_holds; eauto.
Qed.

(** writing each index once *)
Lemma write_spec {A} (v : list A) i x : i < length v -> exists v', write v i x = Some v' /\ length v' = length v /\ nth_error v' i = Some x /\ forall j, j <> i -> nth_error v' j = nth_error v j.
Proof.
  revert i. induction v as [|a v IH]; intros i H; [cbn in H; lia|]. destruct i as [|i]; cbn [write].
  - exists (x :: v). repeat split; auto. intros [|j] Hj; auto. lia.
  - cbn in H. destruct (IH i ltac:(lia)) as (v' & -> & E1 & E2 & E3). exists (a :: v'). cbn. repeat split; auto. intros [|j] Hj; auto. apply E3. lia.
Qed.
Lemma writes_spec {A} w : forall (v : list A), (forall i x, In (i, x) w -> i < length v) -> NoDup (map fst w) ->
  exists v', writes v w = Some v' /\ length v' = length v /\ (forall i x, In (i, x) w -> nth_error v' i = Some x) /\ forall i, ~ In i (map fst w) -> nth_error v' i = nth_error v i.
Proof.
  induction w as [|[i x] w IH]; intros v H N; [exists v; repeat split; auto; intros ? ? []|]. cbn [writes]. inversion N; subst.
  destruct (write_spec v i x (H i x (or_introl eq_refl))) as (v1 & -> & E1 & E2 & E3). destruct (IH v1) as (v' & -> & F1 & F2 & F3); auto; [intros j y Hj; rewrite E1; apply (H j y); right; auto|].
  exists v'. split; auto. split; [lia|]. split.
  - intros j y [Hj|Hj]; [injection Hj as <- <-; rewrite F3; auto|auto].
  - intros j Hj. cbn in Hj. rewrite F3 by tauto. apply E3. intros ->. tauto.
Qed.
Lemma list_ext {A} (a b : list A) : (forall i, nth_error a i = nth_error b i) -> a = b.
Proof.
  revert b. induction a as [|x a IH]; intros [|y b] H; auto; try (specialize (H 0); discriminate). pose proof (H 0) as H0. cbn in H0. injection H0 as ->. f_equal. apply IH. intros i. apply (H (S i)).
Qed.
Lemma levels_nodup s l : holds s l -> NoDup (map (fun e => fst (snd e)) s).
Proof.
  intros (N1 & N2 & Len & G). assert (K : forall a b, In a s -> In b s -> fst (snd a) = fst (snd b) -> a = b).
  { intros [n1 [i1 t1]] [n2 [i2 t2]] H1 H2 E. cbn in E. subst i2. apply get_in in H1, H2; auto. apply G in H1, H2. congruence. }
  unfold keys in N2. clear - N2 K. induction s as [|a s IH]; [constructor|]. cbn in *. inversion N2; subst. constructor; [|apply IH; auto].
  intros H. apply in_map_iff in H. destruct H as (b & E & Hb). assert (a = b) by (apply K; auto). subst b. apply H1. apply in_map. auto.
Qed.
Lemma level_writes {B} (f : string * (nat * T) -> B) (g : string * T -> B) (z : B) s l : holds s l -> (forall n i t, f (n, (i, t)) = g (n, t)) ->
  writes (repeat z (length s)) (map (fun e => (fst (snd e), f e)) s) = Some (map g l).
Proof.
  intros Hh Hf. pose proof (levels_nodup s l Hh) as Nl. destruct Hh as (N1 & N2 & Len & G).
  assert (B1 : forall i x, In (i, x) (map (fun e => (fst (snd e), f e)) s) -> i < length (repeat z (length s))).
  { intros i x H. apply in_map_iff in H. destruct H as ([n [j t]] & E & H). cbn in E. injection E as -> _. apply get_in in H; auto. apply G in H. rewrite repeat_length, Len. apply nth_error_Some. congruence. }
  destruct (writes_spec _ _ B1) as (v & -> & F1 & F2 & _); [rewrite map_map; auto|]. f_equal. apply list_ext. intros i. rewrite repeat_length in F1. destruct (nth_error l i) as [[n t]|] eqn:E.
  - pose proof (proj1 (G i n t) E) as Hg. apply get_in in Hg; auto. rewrite (F2 i (f (n, (i, t)))); [|apply in_map_iff; exists (n, (i, t)); auto]. rewrite Hf. symmetry. apply (map_nth_error g i l E).
  - assert (Hi : length l <= i) by (apply nth_error_None; auto). rewrite (proj2 (nth_error_None _ _)) by lia. symmetry. apply nth_error_None. rewrite map_length. auto.
Qed.
End Proofs.

(** Under scoped use: a new variable gets its position as level; every name has the level and type of its position, and no other name has
    any; names and entries come back in order and never panic. *)
Theorem levels_are_positions : forall {T} (s : @stack T) l, scoped s l ->
  length s = length l /\
  (forall name ty, ~ In name (map fst l) -> length l < Nat.pow 2 16 -> snd (insert s name ty) = length l) /\
  (forall i name ty, nth_error l i = Some (name, ty) <-> get s name = Some (i, ty)) /\
  names s = Some (map fst l) /\ entries s = Some l.
Proof.
  intros T s l H. apply scoped_holds in H. pose proof H as (N1 & N2 & Len & G). split; auto. split; [intros name ty Nn Hl; apply (insert_holds s l name ty); auto|]. split; auto. split.
  - unfold names. apply (level_writes (fun e => fst e) (fun e => fst e)); auto.
  - unfold entries. rewrite (level_writes (fun e => Some (fst e, snd (snd e))) Some None s l); auto. clear. induction l as [|a l IH]; auto. cbn. rewrite IH. auto.
Qed.
Print Assumptions levels_are_positions.
(** A name that is bound again breaks it: the names can not even be listed. *)
Theorem shadowing_refuted : exists (s : @stack nat) name ty, scoped s [(name, ty)] /\ names (fst (insert s name ty)) = None /\ get (remove (fst (insert s name ty)) name) name = None.
Proof.
  exists (fst (insert [] "x"%string 0)), "x"%string, 0. split; [|split; reflexivity]. apply (scoped_insert [] [] "x"%string 0); [constructor|intros []|]. apply Nat.lt_le_trans with (m := 2 ^ 1); [simpl; lia|apply Nat.pow_le_mono_r; lia].
Qed.
Print Assumptions shadowing_refuted.
Example levels_case : scoped (T := nat) (remove_all [("a", (0, 5)); ("b", (1, 6)); ("c", (2, 7))]%string ["b"; "c"]%string) [("a"%string, 5)] /\
  names (T := nat) [("c", (2, 7)); ("a", (0, 5)); ("b", (1, 6))]%string = Some ["a"; "b"; "c"]%string /\
  snd (insert (T := nat) [("a", (0, 5))]%string "d"%string 8) = 1.
Proof.
  assert (P : 2 < Nat.pow 2 16) by (apply Nat.lt_le_trans with (m := 2 ^ 2); [simpl; lia|apply Nat.pow_le_mono_r; lia]).
  split; [|split; vm_compute; reflexivity]. apply (scoped_remove _ [("a"%string, 5)] [("b"%string, 6); ("c"%string, 7)]); [|apply Permutation_refl].
  assert (E : forall a b : @stack nat, a = b -> forall l, scoped a l -> scoped b l) by (intros; subst; auto).
  apply (E (fst (insert (fst (insert (fst (insert [] "a"%string 5)) "b"%string 6)) "c"%string 7))).
  - unfold insert. cbn [fst length mput String.eqb Ascii.eqb Bool.eqb]. rewrite !atom_small by (cbn [length] in *; lia). reflexivity.
  - apply (scoped_insert _ [("a"%string, 5); ("b"%string, 6)] "c"%string 7); [apply (scoped_insert _ [("a"%string, 5)] "b"%string 6); [apply (scoped_insert [] [] "a"%string 5); [constructor|intros []|cbn [length]; lia]|cbn; intuition discriminate|cbn [length]; lia]|cbn; intuition discriminate|cbn [length]; lia].
Qed.
