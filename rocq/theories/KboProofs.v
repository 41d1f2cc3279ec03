(** Lemmas about the term orderings. *)
From Coq Require Import List Arith NArith Bool Lia.
Import ListNotations.
From Verif Require Import Term TermProofs Kbo.

(** * Chained comparisons *)

(** Three elements are ordered consistently by [c]. *)
Definition tri {A} (c : A -> A -> comparison) (x y z : A) : Prop :=
  (c x y = Eq -> c x z = c y z) /\
  (c y z = Eq -> c x z = c x y) /\
  (c x y = Lt -> c y z = Lt -> c x z = Lt) /\
  (c x y = Gt -> c y z = Gt -> c x z = Gt).

Lemma tri_lex {A} (c d : A -> A -> comparison) x y z :
  tri c x y z -> (c x y = Eq -> c y z = Eq -> tri d x y z) ->
  tri (fun a b => lexc (c a b) (d a b)) x y z.
Proof.
  unfold tri, lexc; intros (H1 & H2 & H3 & H4) Hd.
  destruct (c x y) eqn:E1, (c y z) eqn:E2, (c x z) eqn:E3;
    try (specialize (H1 eq_refl)); try (specialize (H2 eq_refl));
    try (specialize (H3 eq_refl eq_refl)); try (specialize (H4 eq_refl eq_refl));
    try discriminate; try (specialize (Hd eq_refl eq_refl)); try exact Hd;
    repeat split; intros; congruence.
Qed.

Lemma tri_ext {A} (c d : A -> A -> comparison) x y z :
  (forall a b, c a b = d a b) -> tri d x y z -> tri c x y z.
Proof. unfold tri; intros H; rewrite !H; auto. Qed.

Lemma tri_N {A} (f : A -> N) x y z : tri (fun a b => N.compare (f a) (f b)) x y z.
Proof.
  unfold tri; repeat split; intros.
  - apply N.compare_eq in H; rewrite H; auto.
  - apply N.compare_eq in H; rewrite <- H; auto.
  - rewrite N.compare_lt_iff in *; lia.
  - rewrite N.compare_gt_iff in *; lia.
Qed.

Lemma tri_nat {A} (f : A -> nat) x y z : tri (fun a b => Nat.compare (f a) (f b)) x y z.
Proof.
  unfold tri; repeat split; intros.
  - apply Nat.compare_eq in H; rewrite H; auto.
  - apply Nat.compare_eq in H; rewrite <- H; auto.
  - rewrite Nat.compare_lt_iff in *; lia.
  - rewrite Nat.compare_gt_iff in *; lia.
Qed.

Lemma tri_flip {A} (c : A -> A -> comparison) x y z :
  tri c z y x -> tri (fun a b => c b a) x y z.
Proof. unfold tri; firstorder. Qed.

(** * Atoms *)

Lemma lexc_eq c d : lexc c d = Eq <-> c = Eq /\ d = Eq.
Proof. destruct c; simpl; intuition congruence. Qed.

Lemma lexc_opp c d : CompOpp (lexc c d) = lexc (CompOpp c) (CompOpp d).
Proof. destruct c; reflexivity. Qed.

Lemma sym_cmp_eq a b : sym_cmp a b = Eq <-> a = b.
Proof.
  unfold sym_cmp; rewrite !lexc_eq, !N.compare_eq_iff.
  split; [|intros ->; auto].
  intros (H & H1 & H2).
  destruct a, b; simpl in *; try discriminate; subst; reflexivity.
Qed.

Lemma sym_cmp_opp a b : CompOpp (sym_cmp a b) = sym_cmp b a.
Proof. unfold sym_cmp; rewrite !lexc_opp, <- !N.compare_antisym; reflexivity. Qed.

Lemma sym_cmp_tri a b c : tri sym_cmp a b c.
Proof.
  unfold sym_cmp.
  apply (tri_lex (fun a b => N.compare (sym_rank a) (sym_rank b))
    (fun a b => lexc (N.compare (fst (sym_fields a)) (fst (sym_fields b)))
          (N.compare (snd (sym_fields a)) (snd (sym_fields b)))));
    [apply tri_N|intros _ _].
  apply (tri_lex (fun a b => N.compare (fst (sym_fields a)) (fst (sym_fields b)))
          (fun a b => N.compare (snd (sym_fields a)) (snd (sym_fields b))));
    [apply tri_N|intros _ _; apply tri_N].
Qed.

Lemma atom_cmp_eq a b : atom_cmp a b = Eq <-> a = b.
Proof.
  destruct a, b; simpl; try (split; congruence).
  - rewrite Nat.compare_eq_iff; split; congruence.
  - rewrite Nat.compare_eq_iff; split; congruence.
  - rewrite sym_cmp_eq; split; congruence.
Qed.

Lemma atom_cmp_opp a b : CompOpp (atom_cmp a b) = atom_cmp b a.
Proof.
  destruct a, b; simpl; auto using sym_cmp_opp.
  - rewrite <- Nat.compare_antisym; auto.
  - rewrite <- Nat.compare_antisym; auto.
Qed.

Lemma atom_cmp_tri a b c : tri atom_cmp a b c.
Proof.
  destruct a as [i|i|s], b as [j|j|t], c as [k|k|u];
    try (exact (tri_nat (fun x => x) i j k));
    try (destruct (sym_cmp_tri s t u) as (H1&H2&H3&H4); unfold tri; simpl; auto; fail);
    unfold tri; simpl; repeat split; intros; congruence.
Qed.

(** rank of an atom in the stable order, then index or symbol *)
Definition stable_rank (a : atom) : N :=
  match a with
  | Sym STrue => 0 | Sym SFalse => 1 | FreeVar _ => 2 | BoundVar _ => 3 | Sym _ => 4
  end.
Definition stable_key (a : atom) : atom :=
  match a with FreeVar _ => FreeVar 0 | _ => a end.

Lemma stable_is_rank a b :
  stable_partial_order a b =
  lexc (N.compare (stable_rank a) (stable_rank b)) (atom_cmp (stable_key a) (stable_key b)).
Proof.
  destruct a as [i|i|s], b as [j|j|t]; simpl; auto;
    try (destruct s; reflexivity); try (destruct t; reflexivity).
  destruct s, t; reflexivity.
Qed.

Lemma stable_tri a b c : tri stable_partial_order a b c.
Proof.
  eapply tri_ext; [apply stable_is_rank|].
  apply (tri_lex (fun a b => N.compare (stable_rank a) (stable_rank b))
           (fun a b => atom_cmp (stable_key a) (stable_key b))); [apply tri_N|].
  intros _ _. destruct (atom_cmp_tri (stable_key a) (stable_key b) (stable_key c)) as (?&?&?&?).
  unfold tri; auto.
Qed.

Lemma stable_opp a b : CompOpp (stable_partial_order a b) = stable_partial_order b a.
Proof.
  rewrite !stable_is_rank, lexc_opp, atom_cmp_opp, <- N.compare_antisym; auto.
Qed.

Lemma stable_refl a : stable_partial_order a a = Eq.
Proof. rewrite stable_is_rank, N.compare_refl. simpl. apply atom_cmp_eq; auto. Qed.

(** * Views *)

Lemma view_ind' (P : view -> Prop) :
  (forall a b h n l, Forall P l -> P (View a b h n l)) -> forall v, P v.
Proof.
  intros H. fix IH 1. intros [a b h n l]. apply H.
  induction l as [|x l IHl]; constructor; auto.
Qed.

Lemma ziplex_opp c l : 
  Forall (fun x => forall y, CompOpp (c x y) = c y x) l ->
  forall m, CompOpp (ziplex c l m) = ziplex c m l.
Proof.
  induction 1 as [|x l Hx Hl IH]; intros [|y m]; simpl; auto.
  rewrite lexc_opp, IH, Hx; auto.
Qed.

Lemma partial_opp v : forall w, CompOpp (partial_tiebreak v w) = partial_tiebreak w v.
Proof.
  induction v as [a b h n l IH] using view_ind'; intros [a' b' h' n' l']; simpl.
  rewrite !lexc_opp, stable_opp, <- Nat.compare_antisym, ziplex_opp; auto.
Qed.

Lemma extended_opp v : forall w, CompOpp (extended_view_cmp v w) = extended_view_cmp w v.
Proof.
  induction v as [a b h n l IH] using view_ind'; intros [a' b' h' n' l'].
  change (CompOpp (lexc (N.compare a a')
      (lexc (N.compare b b')
        (lexc (partial_tiebreak (View a b h n l) (View a' b' h' n' l'))
          (lexc (atom_cmp h' h) (ziplex extended_view_cmp l l')))))
    = lexc (N.compare a' a)
      (lexc (N.compare b' b)
        (lexc (partial_tiebreak (View a' b' h' n' l') (View a b h n l))
          (lexc (atom_cmp h h') (ziplex extended_view_cmp l' l))))).
  rewrite !lexc_opp, partial_opp, atom_cmp_opp, ziplex_opp by auto.
  rewrite <- !N.compare_antisym; reflexivity.
Qed.

(** A view of a binder-free term: the argument count is the number of arguments, everywhere. *)
Inductive vwf : view -> Prop :=
| Vwf a b h n l : n = length l -> Forall vwf l -> vwf (View a b h n l).

Lemma ziplex_tri (c : view -> view -> comparison) l :
  Forall (fun x => forall y z, vwf x -> vwf y -> vwf z -> tri c x y z) l ->
  forall m k, Forall vwf l -> Forall vwf m -> Forall vwf k ->
  length l = length m -> length m = length k -> tri (ziplex c) l m k.
Proof.
  induction 1 as [|x l Hx Hl IH]; intros [|y m] [|z k] Wl Wm Wk E1 E2; try discriminate.
  - unfold tri; simpl; repeat split; congruence.
  - inversion Wl; inversion Wm; inversion Wk; subst.
    simpl in E1, E2. injection E1 as E1. injection E2 as E2.
    specialize (Hx y z H1 H5 H9). specialize (IH m k H2 H6 H10 E1 E2).
    destruct Hx as (h1&h2&h3&h4), IH as (i1&i2&i3&i4).
    unfold tri; simpl; unfold lexc.
    destruct (c x y) eqn:F1, (c y z) eqn:F2, (c x z) eqn:F3;
    try (specialize (h1 eq_refl)); try (specialize (h2 eq_refl));
    try (specialize (h3 eq_refl eq_refl)); try (specialize (h4 eq_refl eq_refl));
    try discriminate; auto;
    repeat split; intros; congruence.
Qed.

Lemma partial_eq_nargs v w : partial_tiebreak v w = Eq -> view_nargs v = view_nargs w.
Proof.
  destruct v, w; simpl. rewrite !lexc_eq, Nat.compare_eq_iff; intuition.
Qed.

Lemma partial_tri v : forall w u, vwf v -> vwf w -> vwf u -> tri partial_tiebreak v w u.
Proof.
  induction v as [a b h n l IH] using view_ind'.
  intros [a' b' h' n' l'] [a'' b'' h'' n'' l''] W1 W2 W3.
  inversion W1 as [? ? ? ? ? N1 V1]; inversion W2 as [? ? ? ? ? N2 V2]; inversion W3 as [? ? ? ? ? N3 V3]; subst.
  set (F := fun v w => lexc (stable_partial_order (view_head v) (view_head w))
     (lexc (Nat.compare (view_nargs w) (view_nargs v)) (ziplex partial_tiebreak (view_args v) (view_args w)))).
  apply (tri_ext _ F); [intros [] []; reflexivity|].
  apply (tri_lex (fun v w => stable_partial_order (view_head v) (view_head w))
     (fun v w => lexc (Nat.compare (view_nargs w) (view_nargs v)) (ziplex partial_tiebreak (view_args v) (view_args w)))).
  { destruct (stable_tri h h' h'') as (?&?&?&?); unfold tri; auto. }
  intros _ _.
  apply (tri_lex (fun v w => Nat.compare (view_nargs w) (view_nargs v))
     (fun v w => ziplex partial_tiebreak (view_args v) (view_args w))).
  { apply (tri_flip (fun v w => Nat.compare (view_nargs v) (view_nargs w))), tri_nat. }
  simpl; rewrite !Nat.compare_eq_iff; intros E1 E2.
  exact (ziplex_tri partial_tiebreak l IH l' l'' V1 V2 V3 (eq_sym E1) (eq_sym E2)).
Qed.

Lemma extended_unfold v w :
  extended_view_cmp v w =
  lexc (N.compare (view_w1 v) (view_w1 w))
   (lexc (N.compare (view_w2 v) (view_w2 w))
     (lexc (partial_tiebreak v w)
        (lexc (atom_cmp (view_head w) (view_head v))
           (ziplex extended_view_cmp (view_args v) (view_args w))))).
Proof. destruct v, w; reflexivity. Qed.

Lemma extended_tri v : forall w u, vwf v -> vwf w -> vwf u -> tri extended_view_cmp v w u.
Proof.
  induction v as [a b h n l IH] using view_ind'.
  intros w u W1 W2 W3.
  assert (Hl : forall v, vwf v -> view_nargs v = length (view_args v) /\ Forall vwf (view_args v))
    by (intros ? [? ? ? ? ? ? ?]; auto).
  eapply tri_ext; [apply extended_unfold|].
  apply (tri_lex (fun v w => N.compare (view_w1 v) (view_w1 w)) (fun v w => _)); [apply tri_N|intros _ _].
  apply (tri_lex (fun v w => N.compare (view_w2 v) (view_w2 w)) (fun v w => _)); [apply tri_N|intros _ _].
  apply (tri_lex partial_tiebreak (fun v w => _)); [apply partial_tri; auto|intros E1 E2].
  apply (tri_lex (fun v w => atom_cmp (view_head w) (view_head v)) (fun v w => _)).
  { apply (tri_flip (fun v w => atom_cmp (view_head v) (view_head w))).
    destruct (atom_cmp_tri (view_head u) (view_head w) h) as (?&?&?&?); unfold tri; auto. }
  intros _ _.
  apply partial_eq_nargs in E1, E2.
  destruct (Hl _ W1) as [L1 F1], (Hl _ W2) as [L2 F2], (Hl _ W3) as [L3 F3].
  exact (ziplex_tri extended_view_cmp l IH (view_args w) (view_args u) F1 F2 F3 ltac:(simpl in *; congruence) ltac:(congruence)).
Qed.

Lemma partial_refl v : partial_tiebreak v v = Eq.
Proof.
  induction v as [a b h n l IH] using view_ind'; simpl.
  rewrite stable_refl, Nat.compare_refl; simpl.
  induction IH; simpl; auto. rewrite H; auto.
Qed.

Lemma extended_refl v : extended_view_cmp v v = Eq.
Proof.
  induction v as [a b h n l IH] using view_ind'; rewrite extended_unfold.
  rewrite !N.compare_refl, partial_refl; simpl.
  rewrite (proj2 (atom_cmp_eq h h) eq_refl); simpl.
  induction IH; simpl; auto. rewrite H; auto.
Qed.

Lemma extended_eq v : forall w, vwf v -> vwf w -> extended_view_cmp v w = Eq -> v = w.
Proof.
  induction v as [a b h n l IH] using view_ind'; intros [a' b' h' n' l'] W1 W2 E.
  rewrite extended_unfold in E. rewrite !lexc_eq, !N.compare_eq_iff in E; simpl in E.
  destruct E as (-> & -> & E1 & E2 & E3).
  rewrite !lexc_eq, Nat.compare_eq_iff in E1; destruct E1 as (_ & -> & _).
  apply atom_cmp_eq in E2; subst.
  inversion W1 as [? ? ? ? ? N1 V1]; inversion W2 as [? ? ? ? ? N2 V2]; subst.
  assert (E : length l = length l') by congruence.
  f_equal.
  clear -IH E E3 V1 V2. revert l' E E3 V2.
  induction IH as [|x l Hx Hl IHl]; intros [|y l'] E E3 V2; try discriminate; auto.
  simpl in *. apply lexc_eq in E3; destruct E3.
  inversion V1; inversion V2; subst. f_equal; auto.
Qed.

(** * Views of binder-free terms *)

Fixpoint binder_free (t : term) : bool :=
  match t with TAtom _ => true | TApp f a => binder_free f && binder_free a | TBind _ _ _ => false end.

Lemma view_vwf t : binder_free t = true -> vwf (view_of t).
Proof.
  induction t as [a|f IHf a IHa|]; simpl; intros H; try discriminate.
  - constructor; auto.
  - apply andb_true_iff in H; destruct H as [H1 H2].
    specialize (IHf H1). inversion IHf; subst. simpl.
    constructor; [rewrite app_length; simpl; lia|].
    apply Forall_app; auto.
Qed.

Lemma view_inj t : forall u, binder_free t = true -> binder_free u = true -> 
  view_head (view_of t) = view_head (view_of u) -> view_args (view_of t) = view_args (view_of u) -> t = u.
Proof.
  induction t as [a|f IHf a IHa|]; intros [b|g b|] H1 H2 Hh Ha; simpl in *; try discriminate.
  - congruence.
  - destruct (view_args (view_of g)); discriminate.
  - destruct (view_args (view_of f)); discriminate.
  - apply andb_true_iff in H1, H2. destruct H1, H2.
    apply app_inj_tail in Ha; destruct Ha as [Ha Hb].
    f_equal; [apply IHf; auto|].
    apply IHa; auto; rewrite Hb; auto.
Qed.

(** * Substitution and weights *)

(** simultaneous substitution of terms for free variables (terms without bound variables, so
    nothing is captured) *)
Fixpoint subst (s : nat -> term) (t : term) : term :=
  match t with
  | TAtom (FreeVar i) => s i
  | TAtom _ => t
  | TApp f a => TApp (subst s f) (subst s a)
  | TBind k A b => TBind k (subst s A) (subst s b)
  end.

(** Sum over the free-variable occurrences below [n] *)
Fixpoint nsum (n : nat) (f : nat -> N) : N :=
  match n with O => 0 | S m => nsum m f + f m end.

Lemma nsum_ext (n:nat) (f g : nat -> N) : (forall i, i < n -> f i = g i) -> nsum n f = nsum n g.
Proof. induction n; simpl; intros; auto. rewrite IHn, H; auto. Qed.
Lemma nsum_add (n:nat) (f g : nat -> N) : nsum n (fun i => f i + g i)%N = (nsum n f + nsum n g)%N.
Proof. induction n; simpl; auto. rewrite IHn. lia. Qed.
Lemma nsum_le (n:nat) (f g : nat -> N) : (forall i, i < n -> (f i <= g i)%N) -> (nsum n f <= nsum n g)%N.
Proof.
  induction n; simpl; intros; [lia|].
  pose proof (H n ltac:(lia)). pose proof (IHn ltac:(intros; apply H; lia)). lia.
Qed.
Lemma nsum_zero (n:nat) (f : nat -> N) : (forall i, i < n -> f i = 0%N) -> nsum n f = 0%N.
Proof. induction n; simpl; intros; auto. rewrite IHn, H; auto. Qed.
Lemma nsum_single (n:nat) (f:nat->N) i : i < n -> (forall j, j < n -> j <> i -> f j = 0%N) -> nsum n f = f i.
Proof.
  induction n; simpl; intros; [lia|].
  destruct (Nat.eq_dec i n).
  - subst. rewrite nsum_zero; [lia|intros; apply H0; lia].
  - rewrite IHn; auto; [|lia]. rewrite (H0 n); lia.
Qed.

(** measures that add up over the atoms of a term *)
Lemma list_max_S x l : list_max (map S (x :: l)) = Nat.max (S x) (list_max (map S l)).
Proof. reflexivity. Qed.

Lemma subst_sum (m base : term -> N) s :
  (forall i, base (TVar i) = 0%N) ->
  (forall a, (forall i, a <> FreeVar i) -> m (TAtom a) = base (TAtom a)) ->
  (exists cf, (forall f a, m (TApp f a) = m f + m a)%N /\
              (forall f a, base (TApp f a) = base f + base a)%N /\
              (forall k A b, m (TBind k A b) = cf + m A + m b)%N /\
              (forall k A b, base (TBind k A b) = cf + base A + base b)%N) ->
  forall t n, least_unused t <= n ->
  m (subst s t) = (base t + nsum n (fun i => occurrences i t * m (s i)))%N.
Proof.
  intros Hv Ha (cf & H1 & H2 & H3 & H4).
  assert (Hlu : forall t n, least_unused t <= n <-> Forall (fun x => x < n) (vars t)).
  { intros t n. unfold least_unused.
    induction (vars t) as [|x l IH]; [simpl; split; [auto|lia]|].
    rewrite list_max_S, Forall_cons_iff, <- IH. lia. }
  induction t as [a|f IHf a IHa|k A IHA b IHb]; intros n Hn.
  - destruct a as [i|i|c]; simpl.
    + rewrite Hv. rewrite (nsum_single _ _ i).
      * rewrite Nat.eqb_refl. lia.
      * apply Hlu in Hn. simpl in Hn. inversion Hn; auto.
      * intros j _ Hj. destruct (Nat.eqb_spec i j); [congruence|]. lia.
    + rewrite Ha by discriminate. rewrite nsum_zero by (intros; lia). lia.
    + rewrite Ha by discriminate. rewrite nsum_zero by (intros; lia). lia.
  - simpl. rewrite H1, H2. apply Hlu in Hn. rewrite ?vars_app, ?vars_bind in Hn. apply Forall_app in Hn. destruct Hn as [Q1 Q2].
    rewrite (IHf n), (IHa n) by (apply Hlu; auto).
    rewrite (nsum_ext _ (fun i => (occurrences i f + occurrences i a) * m (s i))%N
               (fun i => occurrences i f * m (s i) + occurrences i a * m (s i))%N) by (intros; lia).
    rewrite nsum_add. lia.
  - simpl. rewrite H3, H4. apply Hlu in Hn. rewrite ?vars_app, ?vars_bind in Hn. apply Forall_app in Hn. destruct Hn as [Q1 Q2].
    rewrite (IHA n), (IHb n) by (apply Hlu; auto).
    rewrite (nsum_ext _ (fun i => (occurrences i A + occurrences i b) * m (s i))%N
               (fun i => occurrences i A * m (s i) + occurrences i b * m (s i))%N) by (intros; lia).
    rewrite nsum_add. lia.
Qed.

(** weight2 without wrapping *)
Definition atom_w2_exact (a : atom) : N :=
  match a with
  | Sym (SGlobal m i) | Sym (SType m i) | Sym (STypeclass m i) => (4 * (m * 65536 + i))
  | Sym (SScoped i) => (1 + 4 * i)
  | _ => 0
  end.
Fixpoint weight2_exact (t : term) : N :=
  match t with
  | TAtom a => atom_w2_exact a
  | TApp f a => weight2_exact f + weight2_exact a
  | TBind _ A b => weight2_exact A + weight2_exact b
  end.

Lemma weight2_mod t : weight2 t = (weight2_exact t mod w32)%N.
Proof.
  induction t as [a|f IHf a IHa|k A IHA b IHb]; simpl.
  - destruct a as [| |[]]; reflexivity.
  - rewrite IHf, IHa. symmetry. apply N.add_mod. discriminate.
  - rewrite IHA, IHb. symmetry. apply N.add_mod. discriminate.
Qed.

Lemma weight1_subst s t n : least_unused t <= n ->
  weight1 (subst s t) = (weight1 t + nsum n (fun i => occurrences i t * weight1 (s i)))%N.
Proof.
  apply (subst_sum weight1 weight1 s).
  - reflexivity.
  - auto.
  - exists 1%N. repeat split; auto.
Qed.

Lemma weight2_subst s t n : least_unused t <= n ->
  weight2_exact (subst s t) = (weight2_exact t + nsum n (fun i => occurrences i t * weight2_exact (s i)))%N.
Proof.
  apply (subst_sum weight2_exact weight2_exact s).
  - reflexivity.
  - auto.
  - exists 0%N. repeat split; auto.
Qed.

Lemma occurrences_subst x s t n : least_unused t <= n ->
  occurrences x (subst s t) = nsum n (fun i => occurrences i t * occurrences x (s i))%N.
Proof.
  intros H. rewrite (subst_sum (occurrences x) (fun _ => 0%N) s) with (n:=n); auto.
  - destruct a as [i| |]; intros; auto. congruence.
  - exists 0%N. repeat split; auto.
Qed.

Lemma occurrences_pos x t : (0 < occurrences x t)%N <-> In x (vars t).
Proof.
  induction t as [a|f IHf a IHa|k A IHA b IHb]; simpl.
  - destruct a as [i| |]; simpl; try (split; [lia|tauto]).
    destruct (Nat.eqb_spec i x); subst; split; auto; try lia; intros; try lia; try tauto.
  - rewrite vars_app, in_app_iff, <- IHf, <- IHa. lia.
  - rewrite vars_bind, in_app_iff, <- IHA, <- IHb. lia.
Qed.

Lemma least_unused_lt x t : In x (vars t) -> x < least_unused t.
Proof.
  unfold least_unused. induction (vars t) as [|y l IH]; [simpl; tauto|].
  rewrite list_max_S. intros [->|H]; [lia|]. apply IH in H. lia.
Qed.

Lemma dominates_spec a b :
  dominates a b = true <->
  (forall i x, nth_error b i = Some x -> exists y, nth_error a i = Some y /\ (x <= y)%N).
Proof.
  revert a; induction b as [|x b IH]; intros [|y a]; simpl.
  - split; auto. intros _ [|]; discriminate.
  - split; auto. intros _ [|]; discriminate.
  - split; [discriminate|]. intros H. destruct (H 0 x eq_refl) as (z & E & _). discriminate.
  - rewrite andb_true_iff, N.leb_le, IH. split.
    + intros [H1 H2] [|i] z E; simpl in *; eauto. injection E as <-. eauto.
    + intros H. split.
      * destruct (H 0 x eq_refl) as (z & E & L). simpl in E; injection E as <-; auto.
      * intros i z E. apply (H (S i) z E).
Qed.

Lemma refcounts_nth t i :
  nth_error (refcounts t) i = if i <? least_unused t then Some (refcount i t) else None.
Proof.
  unfold refcounts. rewrite nth_error_map.
  destruct (Nat.ltb_spec i (least_unused t)).
  - rewrite (nth_error_nth' (seq 0 (least_unused t)) 0) by (rewrite seq_length; auto).
    simpl. rewrite seq_nth; auto.
  - rewrite (proj2 (nth_error_None _ _)); auto. rewrite seq_length; auto.
Qed.

(** With counters that did not wrap, domination is comparison of occurrence counts. *)
Definition counts_fit (t : term) : Prop := forall x, (occurrences x t < 256)%N.

Lemma dominates_occurrences s t : counts_fit s -> counts_fit t ->
  dominates (refcounts s) (refcounts t) = true <-> (forall x, occurrences x t <= occurrences x s)%N.
Proof.
  intros Fs Ft. rewrite dominates_spec.
  assert (E : forall u x, counts_fit u -> refcount x u = occurrences x u)
    by (intros u x F; unfold refcount; apply N.mod_small, F).
  assert (L : forall u x, x < least_unused u \/ occurrences x u = 0%N).
  { intros u x. destruct (N.eq_dec (occurrences x u) 0); auto.
    left. apply least_unused_lt, occurrences_pos. lia. }
  split.
  - intros H x. destruct (L t x) as [Hx|Hx]; [|lia].
    destruct (H x (refcount x t)) as (y & Ey & Ly).
    + rewrite refcounts_nth. rewrite (proj2 (Nat.ltb_lt _ _) Hx); auto.
    + rewrite refcounts_nth in Ey. destruct (x <? least_unused s); [|discriminate].
      injection Ey as <-. rewrite !E in Ly; auto.
  - intros H i x Ei. rewrite refcounts_nth in Ei |- *.
    destruct (Nat.ltb_spec i (least_unused t)); [|discriminate].
    injection Ei as <-.
    destruct (Nat.ltb_spec i (least_unused s)).
    + exists (refcount i s); split; auto. rewrite !E; auto.
    + exfalso.
      (* the last counter of [t] is positive *)
      assert (exists j, i <= j /\ In j (vars t)) as (j & Hj & Hin).
      { clear -H0. unfold least_unused in H0.
        induction (vars t) as [|y l IH]; [simpl in *; lia|].
        rewrite list_max_S in H0.
        destruct (Nat.max_spec (S y) (list_max (map S l))) as [[? E]|[? E]].
        - rewrite E in H0. destruct IH as (j & ? & ?); simpl; eauto.
        - exists y. split; [lia|left; auto]. }
      apply occurrences_pos in Hin. specialize (H j).
      assert (In j (vars s)) as Hs by (apply occurrences_pos; lia).
      apply least_unused_lt in Hs. lia.
Qed.
