(** Interpretations of the values of BlockExport.v, and lemmas about its operations. *)
From Coq Require Import List Arith Bool Lia Sorted.
Import ListNotations.
From Verif Require Import BlockExport.

(** ** Meaning
    An interpretation of everything but the constants.  Binders are functions of the values they bind.  The laws are those
    of the connectives, the equality and the quantifiers; the other operations are arbitrary.  Binders with the same values
    at all lists of the right length are the same. *)
Record meaning := {
  D : Type;
  dom : atype -> D -> Prop;
  truth : D -> bool;
  m_app : D -> list D -> D;
  m_tapp : D -> list atype -> D;
  m_lam : list atype -> (list D -> D) -> D;
  m_op : bop -> D -> D -> D;
  m_not : D -> D;
  m_try : D -> atype -> D;
  m_all : list atype -> (list D -> D) -> D;
  m_ex : list atype -> (list D -> D) -> D;
  m_bool : bool -> D;
  m_ite : D -> D -> D -> D;
  m_match : D -> list (list atype * (list D -> D) * (list D -> D)) -> D;
  truth_bool : forall b, truth (m_bool b) = b;
  truth_not : forall a, truth (m_not a) = negb (truth a);
  truth_implies : forall a b, truth (m_op BImplies a b) = implb (truth a) (truth b);
  truth_or : forall a b, truth (m_op BOr a b) = truth a || truth b;
  truth_equals : forall a b, truth (m_op BEquals a b) = true <-> a = b;
  truth_differs : forall a b, truth (m_op BNotEquals a b) = negb (truth (m_op BEquals a b));
  truth_all : forall ts f, truth (m_all ts f) = true <-> forall xs, Forall2 dom ts xs -> truth (f xs) = true;
  truth_ex : forall ts f, truth (m_ex ts f) = true <-> exists xs, Forall2 dom ts xs /\ truth (f xs) = true;
  lam_ext : forall ts f g, (forall xs, length xs = length ts -> f xs = g xs) -> m_lam ts f = m_lam ts g;
  all_ext : forall ts f g, (forall xs, length xs = length ts -> f xs = g xs) -> m_all ts f = m_all ts g;
  ex_ext : forall ts f g, (forall xs, length xs = length ts -> f xs = g xs) -> m_ex ts f = m_ex ts g;
  match_ext : forall d l l', Forall2 (fun c c' => fst (fst c) = fst (fst c') /\
    forall xs, length xs = length (fst (fst c)) -> snd (fst c) xs = snd (fst c') xs /\ snd c xs = snd c' xs) l l' -> m_match d l = m_match d l' }.
Arguments D : clear implicits.

(** Values of the constants: module, name, instance type *)
Definition consts (S : meaning) := nat -> nat -> atype -> D S.

Fixpoint eval (S : meaning) (I : consts S) (env : list (D S)) (v : aval) : D S :=
  match v with
  | AVar i _ => nth i env (m_bool S false)
  | AConst m n t => I m n t
  | AApp f args => m_app S (eval S I env f) (map (eval S I env) args)
  | ATypeApp f ts => m_tapp S (eval S I env f) ts
  | ALambda ts v => m_lam S ts (fun xs => eval S I (env ++ xs) v)
  | ABinary op l r => m_op S op (eval S I env l) (eval S I env r)
  | ANot v => m_not S (eval S I env v)
  | ATry v t => m_try S (eval S I env v) t
  | AForAll ts v => m_all S ts (fun xs => eval S I (env ++ xs) v)
  | AExists ts v => m_ex S ts (fun xs => eval S I (env ++ xs) v)
  | AGrouping v => eval S I env v
  | ABool b => m_bool S b
  | AIte c a b => m_ite S (eval S I env c) (eval S I env a) (eval S I env b)
  | AMatch s cases => m_match S (eval S I env s)
      (map (fun c => match c with (ts, p, r) => (ts, (fun xs => eval S I (env ++ xs) p), (fun xs => eval S I (env ++ xs) r)) end) cases)
  end.
(** A value without free variables is true *)
Definition holds (S : meaning) (I : consts S) (v : aval) : Prop := truth S (eval S I [] v) = true.

(** The constants of a value *)
Fixpoint constants (v : aval) : list (nat * nat * atype) :=
  match v with
  | AVar _ _ | ABool _ => []
  | AConst m n t => [(m, n, t)]
  | AApp f args => constants f ++ flat_map constants args
  | ATypeApp v _ | ALambda _ v | AForAll _ v | AExists _ v | AGrouping v | ANot v | ATry v _ => constants v
  | ABinary _ l r => constants l ++ constants r
  | AIte c a b => constants c ++ constants a ++ constants b
  | AMatch s cases => constants s ++ flat_map (fun c => match c with (_, p, r) => constants p ++ constants r end) cases
  end.

Section Ind.
  Context (P : aval -> Prop).
  Context (HVar : forall i t, P (AVar i t)) (HConst : forall m n t, P (AConst m n t))
    (HApp : forall f args, P f -> Forall P args -> P (AApp f args)) (HTApp : forall f ts, P f -> P (ATypeApp f ts))
    (HLam : forall ts v, P v -> P (ALambda ts v)) (HBin : forall op l r, P l -> P r -> P (ABinary op l r))
    (HNot : forall v, P v -> P (ANot v)) (HTry : forall v t, P v -> P (ATry v t))
    (HAll : forall ts v, P v -> P (AForAll ts v)) (HEx : forall ts v, P v -> P (AExists ts v))
    (HGroup : forall v, P v -> P (AGrouping v)) (HBool : forall b, P (ABool b))
    (HIte : forall c a b, P c -> P a -> P b -> P (AIte c a b))
    (HMatch : forall s cases, P s -> Forall (fun c => P (snd (fst c)) /\ P (snd c)) cases -> P (AMatch s cases)).
  Fixpoint aval_ind' (v : aval) : P v :=
    match v with
    | AVar i t => HVar i t
    | AConst m n t => HConst m n t
    | AApp f args => HApp f args (aval_ind' f) ((fix go l : Forall P l := match l with [] => Forall_nil _ | x :: l => Forall_cons _ (aval_ind' x) (go l) end) args)
    | ATypeApp f ts => HTApp f ts (aval_ind' f)
    | ALambda ts v => HLam ts v (aval_ind' v)
    | ABinary op l r => HBin op l r (aval_ind' l) (aval_ind' r)
    | ANot v => HNot v (aval_ind' v)
    | ATry v t => HTry v t (aval_ind' v)
    | AForAll ts v => HAll ts v (aval_ind' v)
    | AExists ts v => HEx ts v (aval_ind' v)
    | AGrouping v => HGroup v (aval_ind' v)
    | ABool b => HBool b
    | AIte c a b => HIte c a b (aval_ind' c) (aval_ind' a) (aval_ind' b)
    | AMatch s cases => HMatch s cases (aval_ind' s)
        ((fix go l : Forall (fun c => P (snd (fst c)) /\ P (snd c)) l :=
          match l with
          | [] => Forall_nil _
          | (ts, p, r) :: l => @Forall_cons _ (fun c => P (snd (fst c)) /\ P (snd c)) (ts, p, r) l (conj (aval_ind' p) (aval_ind' r)) (go l)
          end) cases)
    end.
End Ind.

Lemma Forall2_map {A B C} (R : B -> C -> Prop) (f : A -> B) (g : A -> C) l : Forall (fun x => R (f x) (g x)) l -> Forall2 R (map f l) (map g l).
Proof. induction 1; simpl; constructor; auto. Qed.

Section Eval.
  Context (S : meaning).

  (** Only the constants that occur matter. *)
  Lemma eval_constants I J v : forall env, (forall m n t, In (m, n, t) (constants v) -> I m n t = J m n t) -> eval S I env v = eval S J env v.
  Proof.
    induction v as [i t|m n t|f args IHf IHa|f ts IHf|ts v IHv|op l r IHl IHr|v IHv|v t IHv|ts v IHv|ts v IHv|v IHv|b|c a b IHc IHa IHb|s cases IHs IHc] using aval_ind';
      intros env H; simpl in *; auto.
    - rewrite IHf by (intros; apply H; apply in_or_app; auto). f_equal. apply map_ext_in. intros a Ha. rewrite Forall_forall in IHa.
      apply IHa; auto. intros m n t Hc. apply H, in_or_app. right. apply in_flat_map. eauto.
    - f_equal; auto.
    - apply lam_ext. intros. apply IHv. auto.
    - rewrite IHl, IHr; auto; intros; apply H; apply in_or_app; auto.
    - f_equal; auto.
    - f_equal; auto.
    - apply all_ext. intros. apply IHv. auto.
    - apply ex_ext. intros. apply IHv. auto.
    - rewrite IHc, IHa, IHb; auto; intros; apply H; apply in_or_app; auto; right; apply in_or_app; auto.
    - rewrite IHs by (intros; apply H; apply in_or_app; auto). apply match_ext. apply Forall2_map. apply Forall_forall. intros [[ts p] r] Hc. simpl. split; auto.
      rewrite Forall_forall in IHc. destruct (IHc _ Hc) as [Hp Hr]. simpl in *. intros xs _.
      split; [apply Hp|apply Hr]; intros; apply H; apply in_or_app; right; apply in_flat_map; exists (ts, p, r); split; auto; apply in_or_app; auto.
  Qed.

  Lemma eval_insert I A P v : forall B, eval S I (A ++ P ++ B) (insert_stack (length A) (length P) v) = eval S I (A ++ B) v.
  Proof.
    induction v as [i t|m n t|f args IHf IHa|f ts IHf|ts v IHv|op l r IHl IHr|v IHv|v t IHv|ts v IHv|ts v IHv|v IHv|b|c a b IHc IHa IHb|s cases IHs IHc] using aval_ind';
      intros B; simpl; auto.
    - destruct (Nat.ltb_spec i (length A)); simpl.
      + rewrite !app_nth1; auto.
      + rewrite app_nth2, app_nth2, app_nth2 by lia. f_equal. lia.
    - rewrite IHf. f_equal. rewrite map_map. apply map_ext_in. intros a Ha. rewrite Forall_forall in IHa. auto.
    - f_equal; auto.
    - apply lam_ext. intros xs _. rewrite <- !app_assoc. apply IHv.
    - rewrite IHl, IHr. auto.
    - f_equal; auto.
    - f_equal; auto.
    - apply all_ext. intros xs _. rewrite <- !app_assoc. apply IHv.
    - apply ex_ext. intros xs _. rewrite <- !app_assoc. apply IHv.
    - rewrite IHc, IHa, IHb. auto.
    - rewrite IHs. apply match_ext. rewrite map_map. apply Forall2_map. apply Forall_forall. intros [[ts p] r] Hc. simpl. split; auto.
      rewrite Forall_forall in IHc. destruct (IHc _ Hc) as [Hp Hr]. simpl in *. intros xs _. rewrite <- !app_assoc. auto.
  Qed.

  (** Replacing constants by values that only need the bottom of the stack *)
  Lemma eval_replace I P rep v : (forall m n t x, rep m n t = Some x -> forall E, eval S I (P ++ E) x = eval S I P x) -> forall E,
    eval S I (P ++ E) (replace_constants rep v) = eval S (fun m n t => match rep m n t with Some x => eval S I P x | None => I m n t end) (P ++ E) v.
  Proof.
    intros H. induction v as [i t|m n t|f args IHf IHa|f ts IHf|ts v IHv|op l r IHl IHr|v IHv|v t IHv|ts v IHv|ts v IHv|v IHv|b|c a b IHc IHa IHb|s cases IHs IHc] using aval_ind';
      intros E; simpl; auto.
    - destruct (rep m n t) eqn:R; simpl; eauto.
    - rewrite IHf. f_equal. rewrite map_map. apply map_ext_in. intros a Ha. rewrite Forall_forall in IHa. auto.
    - f_equal; auto.
    - apply lam_ext. intros xs _. rewrite <- !app_assoc. apply IHv.
    - rewrite IHl, IHr. auto.
    - f_equal; auto.
    - f_equal; auto.
    - apply all_ext. intros xs _. rewrite <- !app_assoc. apply IHv.
    - apply ex_ext. intros xs _. rewrite <- !app_assoc. apply IHv.
    - rewrite IHc, IHa, IHb. auto.
    - rewrite IHs. apply match_ext. rewrite map_map. apply Forall2_map. apply Forall_forall. intros [[ts p] r] Hc. simpl. split; auto.
      rewrite Forall_forall in IHc. destruct (IHc _ Hc) as [Hp Hr]. simpl in *. intros xs _. rewrite <- !app_assoc. auto.
  Qed.

  Lemma eval_bind I vals v : forall B, eval S I B (bind_values 0 (length B) vals v) = eval S I (map (eval S I []) vals ++ B) v.
  Proof.
    induction v as [i t|m n t|f args IHf IHa|f ts IHf|ts v IHv|op l r IHl IHr|v IHv|v t IHv|ts v IHv|ts v IHv|v IHv|b|c a b IHc IHa IHb|s cases IHs IHc] using aval_ind';
      intros B; simpl; auto.
    - destruct (Nat.ltb_spec i (length vals)); simpl.
      + rewrite !Nat.sub_0_r. rewrite app_nth1 by (rewrite map_length; auto).
        rewrite (nth_indep (map (eval S I []) vals) _ (eval S I [] (ABool false))) by (rewrite map_length; auto). rewrite map_nth.
        pose proof (eval_insert I [] B (nth i vals (ABool false)) []) as E. simpl in E. rewrite !app_nil_r in E. auto.
      + rewrite app_nth2 by (rewrite map_length; auto). rewrite map_length. auto.
    - rewrite IHf. f_equal. rewrite map_map. apply map_ext_in. intros a Ha. rewrite Forall_forall in IHa. auto.
    - f_equal; auto.
    - apply lam_ext. intros xs Hx. rewrite <- Hx, <- app_length, IHv, app_assoc. auto.
    - rewrite IHl, IHr. auto.
    - f_equal; auto.
    - f_equal; auto.
    - apply all_ext. intros xs Hx. rewrite <- Hx, <- app_length, IHv, app_assoc. auto.
    - apply ex_ext. intros xs Hx. rewrite <- Hx, <- app_length, IHv, app_assoc. auto.
    - rewrite IHc, IHa, IHb. auto.
    - rewrite IHs. apply match_ext. rewrite map_map. apply Forall2_map. apply Forall_forall. intros [[ts p] r] Hc. simpl. split; auto.
      rewrite Forall_forall in IHc. destruct (IHc _ Hc) as [Hp Hr]. simpl in *. intros xs Hx. rewrite <- Hx, <- !app_length, Hp, Hr, !app_assoc. auto.
  Qed.

  Lemma holds_forall I ts v : holds S I (a_forall ts v) <-> forall xs, Forall2 (dom S) ts xs -> truth S (eval S I xs v) = true.
  Proof.
    destruct ts as [|t ts]; unfold holds; simpl.
    - split; [intros H xs F; inversion F; subst; auto|intros H; apply H; constructor].
    - apply truth_all.
  Qed.
  Lemma eval_exists I env ts v : truth S (eval S I env (a_exists ts v)) = true <-> exists xs, Forall2 (dom S) ts xs /\ truth S (eval S I (env ++ xs) v) = true.
  Proof.
    destruct ts as [|t ts]; simpl.
    - split; [intros H; exists []; rewrite app_nil_r; auto|intros (xs & F & H); inversion F; subst; rewrite app_nil_r in H; auto].
    - apply truth_ex.
  Qed.
  Lemma truth_negate I env v : truth S (eval S I env (negate v)) = negb (truth S (eval S I env v)).
  Proof.
    induction v; simpl; auto using truth_not.
    - destruct op; simpl; rewrite ?truth_not, ?truth_differs, ?negb_involutive; auto.
    - rewrite truth_not, negb_involutive. auto.
    - rewrite !truth_bool. auto.
  Qed.
  Lemma truth_reduce I env l e : reduce BOr l = Some e -> (truth S (eval S I env e) = true <-> exists v, In v l /\ truth S (eval S I env v) = true).
  Proof.
    destruct l as [|v l]; [discriminate|]. simpl. intros [= <-]. revert v. induction l as [|w l IH]; intros v; simpl.
    - split; [eauto|intros (x & [<-|[]] & H); auto].
    - rewrite IH. split.
      + intros (x & [<-|Hx] & H); [|eauto 6]. simpl in H. rewrite truth_or in H. apply orb_prop in H. destruct H; eauto 6.
      + intros (x & [<-|[<-|Hx]] & H); [| |eauto 6]; exists (ABinary BOr v w); split; auto; simpl; rewrite truth_or, H; auto using orb_true_r.
  Qed.
End Eval.

(** ** Positions *)
Lemma position_some n l i : position n l = Some i -> nth_error l i = Some n.
Proof.
  revert i. induction l as [|k l IH]; simpl; intros i H; [discriminate|]. destruct (position n l) as [j|]; [injection H as <-; simpl; auto|].
  destruct (Nat.eqb_spec n k); [injection H as <-; simpl; subst; auto|discriminate].
Qed.
Lemma position_none n l : position n l = None <-> ~ In n l.
Proof.
  induction l as [|k l IH]; simpl; [tauto|]. destruct (position n l) as [j|]; [split; [discriminate|]|].
  - intros H. exfalso. destruct IH as [_ IH]. assert (X : Some j = None) by (apply IH; tauto). discriminate.
  - destruct (Nat.eqb_spec n k) as [->|Hn].
    + split; [discriminate|]. intros H. exfalso. apply H. auto.
    + split; auto. intros _ [X|X]; [auto|]. apply IH in X; auto.
Qed.
Lemma position_in n l : In n l -> exists i, position n l = Some i /\ i < length l.
Proof.
  intros H. destruct (position n l) as [i|] eqn:E; [|apply position_none in E; tauto]. exists i. split; auto.
  apply position_some in E. apply nth_error_Some. congruence.
Qed.
Lemma position_left n l l' : ~ In n l' -> position n (l ++ l') = position n l.
Proof.
  intros H. induction l as [|k l IH]; simpl; [apply position_none; auto|]. rewrite IH. auto.
Qed.
Lemma position_right n l l' i : position n l' = Some i -> position n (l ++ l') = Some (length l + i).
Proof. intros H. induction l as [|k l IH]; simpl; [auto|]. rewrite IH. auto. Qed.

(** ** Unknown constants *)
Lemma bt_in n t l x u : In (x, u) (bt_insert n t l) -> (x, u) = (n, t) \/ In (x, u) l.
Proof.
  induction l as [|[k w] l IH]; simpl; [intuition congruence|]. destruct (n <? k); [simpl; intuition congruence|]. destruct (n =? k); simpl; intuition congruence.
Qed.
Lemma bt_keys n t l x : In x (map fst (bt_insert n t l)) <-> x = n \/ In x (map fst l).
Proof.
  induction l as [|[k w] l IH]; simpl; [intuition|]. destruct (n <? k); [simpl; intuition|]. destruct (Nat.eqb_spec n k); simpl; [subst; intuition|]. rewrite IH. intuition.
Qed.
Lemma bt_sorted n t l : StronglySorted lt (map fst l) -> StronglySorted lt (map fst (bt_insert n t l)).
Proof.
  induction l as [|[k w] l IH]; simpl; intros H; [repeat constructor|]. inversion H as [|? ? H1 H2]; subst.
  destruct (Nat.ltb_spec n k); simpl.
  - constructor; auto. constructor; auto. rewrite Forall_forall in *. intros x Hx. specialize (H2 x Hx). lia.
  - destruct (Nat.eqb_spec n k); simpl; [subst; constructor; auto|]. constructor; auto. rewrite Forall_forall in *. intros x Hx. apply bt_keys in Hx. destruct Hx as [-> | Hx]; [lia|auto].
Qed.
Lemma sorted_nodup l : StronglySorted lt l -> NoDup l.
Proof. induction 1 as [|a l H IH F]; constructor; auto. intros Hi. rewrite Forall_forall in F. specialize (F a Hi). lia. Qed.

Section Unknown.
  Context (module : nat) (known inst : nat -> bool).
  (** The name of a constant that only the block knows *)
  Definition local n := known n = false /\ inst n = false.
  Notation unk := (unknown_constants module known inst).

  Definition unk_spec v := forall acc,
    (forall n, In n (map fst (unk v acc)) <-> In n (map fst acc) \/ (local n /\ exists t, In (module, n, t) (constants v))) /\
    (forall n t, In (n, t) (unk v acc) -> In (n, t) acc \/ In (module, n, t) (constants v)) /\
    (StronglySorted lt (map fst acc) -> StronglySorted lt (map fst (unk v acc))).

  Lemma unk_two v w : unk_spec v -> unk_spec w -> forall acc,
    (forall n, In n (map fst (unk w (unk v acc))) <-> In n (map fst acc) \/ (local n /\ exists t, In (module, n, t) (constants v ++ constants w))) /\
    (forall n t, In (n, t) (unk w (unk v acc)) -> In (n, t) acc \/ In (module, n, t) (constants v ++ constants w)) /\
    (StronglySorted lt (map fst acc) -> StronglySorted lt (map fst (unk w (unk v acc)))).
  Proof.
    intros Hv Hw acc. destruct (Hv acc) as (A1 & A2 & A3). destruct (Hw (unk v acc)) as (B1 & B2 & B3). split; [|split].
    - intros n. rewrite B1, A1. split.
      + intros [[H|[H [t Ht]]]|[H [t Ht]]]; [auto| |]; right; split; auto; exists t; apply in_or_app; auto.
      + intros [H|[H [t Ht]]]; [auto|]. apply in_app_or in Ht. destruct Ht; [left; right|right]; split; eauto.
    - intros n t H. apply B2 in H. destruct H as [H|H]; [apply A2 in H; destruct H; [auto|]|]; right; apply in_or_app; auto.
    - auto.
  Qed.
  Lemma unk_list l : Forall unk_spec l -> forall acc,
    (forall n, In n (map fst (fold_left (fun acc a => unk a acc) l acc)) <-> In n (map fst acc) \/ (local n /\ exists t, In (module, n, t) (flat_map constants l))) /\
    (forall n t, In (n, t) (fold_left (fun acc a => unk a acc) l acc) -> In (n, t) acc \/ In (module, n, t) (flat_map constants l)) /\
    (StronglySorted lt (map fst acc) -> StronglySorted lt (map fst (fold_left (fun acc a => unk a acc) l acc))).
  Proof.
    induction 1 as [|v l Hv Hl IH]; intros acc; simpl.
    - split; [|split]; auto. intros n. split; auto. intros [H|[_ [t []]]]; auto.
    - destruct (Hv acc) as (A1 & A2 & A3). destruct (IH (unk v acc)) as (B1 & B2 & B3). split; [|split].
      + intros n. rewrite B1, A1. split.
        * intros [[H|[H [t Ht]]]|[H [t Ht]]]; [auto| |]; right; split; auto; exists t; apply in_or_app; auto.
        * intros [H|[H [t Ht]]]; [auto|]. apply in_app_or in Ht. destruct Ht; [left; right|right]; split; eauto.
      + intros n t H. apply B2 in H. destruct H as [H|H]; [apply A2 in H; destruct H; [auto|]|]; right; apply in_or_app; auto.
      + auto.
  Qed.
  Lemma fold_cases (l : list (list atype * aval * aval)) : forall acc,
    fold_left (fun acc c => match c with (_, p, r) => unk r (unk p acc) end) l acc = fold_left (fun acc a => unk a acc) (flat_map (fun c => [snd (fst c); snd c]) l) acc.
  Proof. induction l as [|[[ts p] r] l IH]; simpl; auto. Qed.
  Lemma const_cases (l : list (list atype * aval * aval)) :
    flat_map (fun c => match c with (_, p, r) => constants p ++ constants r end) l = flat_map constants (flat_map (fun c => [snd (fst c); snd c]) l).
  Proof. induction l as [|[[ts p] r] l IH]; simpl; auto. rewrite IH, app_assoc. auto. Qed.

  Lemma unk_ok v : unk_spec v.
  Proof.
    induction v as [i t|m n t|f args IHf IHa|f ts IHf|ts v IHv|op l r IHl IHr|v IHv|v t IHv|ts v IHv|ts v IHv|v IHv|b|c a b IHc IHa IHb|s cases IHs IHc] using aval_ind';
      try exact IHv; try exact IHf; intros acc; simpl.
    - split; [|split]; auto. intros n. split; auto. intros [H|[_ [u []]]]; auto.
    - destruct (inst n) eqn:Ei; [|destruct (Nat.eqb_spec m module) as [->|Em]; simpl; [destruct (known n) eqn:Ek; simpl|]].
      + split; [|split]; auto. intros x. split; auto. intros [H|[[_ Hi] [u [[= _ -> _]|[]]]]]; auto. congruence.
      + split; [|split]; auto. intros x. split; auto. intros [H|[[Hk _] [u [[= -> _]|[]]]]]; auto. congruence.
      + split; [|split].
        * intros x. rewrite bt_keys. split; [intros [-> |H]; auto; right; split; [split; auto|]; exists t; auto|]. intros [H|[_ [u [[= -> _]|[]]]]]; auto.
        * intros x u H. apply bt_in in H. destruct H as [[= -> ->]|H]; auto.
        * apply bt_sorted.
      + split; [|split]; auto. intros x. split; auto. intros [H|[_ [u [[= -> _ _]|[]]]]]; auto. congruence.
    - destruct (IHf acc) as (A1 & A2 & A3). destruct (unk_list args IHa (unk f acc)) as (B1 & B2 & B3). split; [|split].
      + intros n. rewrite B1, A1. split.
        * intros [[H|[H [t Ht]]]|[H [t Ht]]]; [auto| |]; right; split; auto; exists t; apply in_or_app; auto.
        * intros [H|[H [t Ht]]]; [auto|]. apply in_app_or in Ht. destruct Ht; [left; right|right]; split; eauto.
      + intros n t H. apply B2 in H. destruct H as [H|H]; [apply A2 in H; destruct H; [auto|]|]; right; apply in_or_app; auto.
      + auto.
    - apply unk_two; auto.
    - split; [|split]; auto. intros n. split; auto. intros [H|[_ [u []]]]; auto.
    - pose proof (unk_list [c; a; b] (Forall_cons _ IHc (Forall_cons _ IHa (Forall_cons _ IHb (Forall_nil _)))) acc) as X. simpl in X. rewrite app_nil_r in X. auto.
    - rewrite fold_cases, const_cases. assert (F : Forall unk_spec (s :: flat_map (fun c => [snd (fst c); snd c]) cases)).
      { constructor; auto. apply Forall_forall. intros x Hx. apply in_flat_map in Hx. destruct Hx as (c & Hc & Hx). rewrite Forall_forall in IHc. destruct (IHc c Hc).
        destruct Hx as [<-|[<-|[]]]; auto. }
      exact (unk_list _ F acc).
  Qed.
End Unknown.
