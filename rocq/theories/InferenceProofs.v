(** Soundness of injectivity and extensionality. *)
From Coq Require Import List Arith NArith Bool Lia.
Import ListNotations.
From Verif Require Import Term LocalContext Semantics TermProofs SemFacts TermNorm TermNormProofs Kbo Typing TypingProofs
  Literal Clause ClauseSem RenumberProofs ClauseProofs ClauseWf Inference.

Definition atomic_head (t : term) : Prop := exists a, spine_head t = TAtom a.
(** no side of a literal is a binder or the application of one (true of beta-normal terms) *)
Definition atomic_heads (ls : list literal) : Prop :=
  forall l, In l ls -> atomic_head (left l) /\ atomic_head (right l).

(** a binder may be a side of a literal as long as it is not applied *)
Definition plain_head (t : term) : Prop := args t = [] \/ atomic_head t.
Definition plain_heads (ls : list literal) : Prop :=
  forall l, In l ls -> plain_head (left l) /\ plain_head (right l).
Lemma atomic_plain ls : atomic_heads ls -> plain_heads ls.
Proof. intros H l Hl. destruct (H l Hl). split; right; auto. Qed.

Lemma atomic_head_term t : atomic_head t -> spine_head t = head_term t.
Proof. intros [a H]. unfold head_term. rewrite head_spine, H. reflexivity. Qed.

Lemma only_difference_spec l : forall r f d, only_difference l r f = Some (Some d) -> length l = length r ->
  match f with
  | Some p => d = p /\ l = r
  | None => exists l1 l2, l = l1 ++ fst d :: l2 /\ r = l1 ++ snd d :: l2
  end.
Proof.
  induction l as [|a l IH]; intros [|b r] f d H L; simpl in *; try discriminate.
  - injection H as ->. auto.
  - destruct (term_eqb a b) eqn:E.
    + unfold term_eqb in E. destruct (term_eq_dec a b) as [->|]; [|discriminate].
      apply IH in H; [|lia]. destruct f.
      * destruct H; subst; auto.
      * destruct H as (l1 & l2 & -> & ->). exists (b :: l1), l2. auto.
    + destruct f; [discriminate|]. apply IH in H; [|lia]. destruct H as [-> ->].
      exists [], r. auto.
Qed.

Lemma num_args_length t : atomic_head t -> num_args t = length (args t).
Proof.
  induction t as [a|f IHf a IHa|k A IHA b IHb]; intros [h H]; auto.
  - rewrite args_app, app_length. simpl. rewrite IHf; [lia|]. exists h; auto.
  - discriminate.
Qed.

Lemma lit_new_cases pos a b : lit_new pos a b = Lit pos a b \/ lit_new pos a b = Lit pos b a.
Proof. unfold lit_new, lit_new_with_flip. destruct (needs_to_flip a b); auto. Qed.

Section Inj.
Context (M : Model).

Lemma difference_atomic x d : plain_head (left x) -> plain_head (right x) ->
  only_difference (args (left x)) (args (right x)) None = Some (Some d) -> atomic_head (left x) /\ atomic_head (right x).
Proof.
  intros Hl Hr H. destruct Hl as [Hl|Hl]; [rewrite Hl in H; discriminate|]. destruct Hr as [Hr|Hr]; auto.
  rewrite Hr in H. destruct (args (left x)); discriminate.
Qed.
Lemma injectivity_literal x a b rho : atomic_head (left x) -> atomic_head (right x) ->
  positive x = false -> head_atom (left x) = head_atom (right x) -> num_args (left x) = num_args (right x) ->
  only_difference (args (left x)) (args (right x)) None = Some (Some (a, b)) ->
  lit_holds M rho x -> lit_holds M rho (lit_new false a b).
Proof.
  intros Hl Hr P Eh En D H. apply lit_new_holds. unfold lit_holds in *. rewrite P in H. simpl. intros E. apply H.
  apply only_difference_spec in D; [|rewrite <- !num_args_length; auto].
  destruct D as (l1 & l2 & D1 & D2). simpl in D1, D2.
  rewrite (spine_eq (left x)), (spine_eq (right x)). unfold ev. rewrite !eval_spine, D1, D2, !map_app. simpl.
  unfold ev in E. rewrite E, !atomic_head_term by auto. unfold head_term. rewrite Eh. reflexivity.
Qed.

Lemma injectivities_from_sound post : forall pre rs ls rho, plain_heads post ->
  injectivities_from pre post = Some rs -> In ls rs -> cholds M rho (pre ++ post) -> cholds M rho ls.
Proof.
  induction post as [|x r IH]; intros pre rs ls rho A H Hin Hc; simpl in H.
  - injection H as <-. contradiction.
  - assert (Ar : plain_heads r) by (intros l Hl; apply A; right; auto).
    assert (Hc' : cholds M rho ((pre ++ [x]) ++ r)) by (rewrite <- app_assoc; auto).
    destruct (positive x) eqn:P; [injection H as <-; contradiction|].
    destruct (atom_eq_dec (head_atom (left x)) (head_atom (right x))) as [Eh|]; [|eauto].
    destruct (Nat.eqb_spec (num_args (left x)) (num_args (right x))) as [En|]; [|eauto].
    destruct (only_difference (args (left x)) (args (right x)) None) as [[[a b]|]|] eqn:D; [|eauto|discriminate].
    destruct (injectivities_from (pre ++ [x]) r) as [rs'|] eqn:E; [|discriminate].
    injection H as <-. destruct Hin as [<-|Hin]; [|eauto].
    destruct Hc as (l & Hl & Hh). apply in_app_or in Hl. destruct Hl as [Hl|[<-|Hl]].
    + exists l. split; auto. apply in_or_app; auto.
    + exists (lit_new false a b). split; [apply in_or_app; right; left; auto|].
      destruct (A x (or_introl eq_refl)) as [A1 A2]. destruct (difference_atomic x (a, b) A1 A2 D). eapply injectivity_literal; eauto.
    + exists l. split; auto. apply in_or_app; right; right; auto.
Qed.

Lemma swt_args P rho bs t x : swtg M P rho bs t -> In x (args t) -> swtg M P rho bs x.
Proof.
  induction t as [a|f IHf a IHa|k A IHA b IHb]; try (simpl; tauto).
  rewrite args_app, in_app_iff. simpl. intros (H1 & H2 & _) [H|[<-|[]]]; auto.
Qed.
Lemma only_difference_in l : forall r f a b, only_difference l r f = Some (Some (a, b)) ->
  (In a l /\ In b r) \/ f = Some (a, b).
Proof.
  induction l as [|x l IH]; intros [|y r] f a b H; simpl in *; try discriminate; auto.
  - injection H as ->; auto.
  - injection H as ->; auto.
  - destruct (term_eqb x y); [apply IH in H; intuition|]. destruct f; [discriminate|].
    apply IH in H. destruct H as [[? ?]|H]; [intuition|]. injection H as <- <-. auto.
Qed.
Lemma injectivities_from_in post : forall pre rs ls l, injectivities_from pre post = Some rs -> In ls rs -> In l ls ->
  In l (pre ++ post) \/
  exists x a b, In x post /\ In a (args (left x)) /\ In b (args (right x)) /\ l = lit_new false a b.
Proof.
  induction post as [|x r IH]; intros pre rs ls l H Hin Hl; simpl in H.
  - injection H as <-. contradiction.
  - assert (G : forall rs, injectivities_from (pre ++ [x]) r = Some rs -> In ls rs ->
       In l (pre ++ x :: r) \/ exists x0 a b, In x0 (x :: r) /\ In a (args (left x0)) /\ In b (args (right x0)) /\ l = lit_new false a b).
    { intros rs0 H0 H1. destruct (IH _ _ _ _ H0 H1 Hl) as [H2|(x0 & a & b & H2 & H3)].
      - left. rewrite <- app_assoc in H2. auto.
      - right. exists x0, a, b. split; [right|]; auto. }
    destruct (positive x); [injection H as <-; contradiction|].
    destruct (atom_eq_dec (head_atom (left x)) (head_atom (right x))) as [Eh|]; [|eauto].
    destruct (Nat.eqb_spec (num_args (left x)) (num_args (right x))) as [En|]; [|eauto].
    destruct (only_difference (args (left x)) (args (right x)) None) as [[[a b]|]|] eqn:D; [|eauto|discriminate].
    destruct (injectivities_from (pre ++ [x]) r) as [rs'|] eqn:E; [|discriminate].
    injection H as <-. destruct Hin as [<-|Hin]; [|eauto].
    apply in_app_or in Hl. destruct Hl as [Hl|[<-|Hl]].
    + left. apply in_or_app; auto.
    + right. exists x, a, b. apply only_difference_in in D. destruct D as [[? ?]|D]; [|discriminate].
      repeat split; auto. left; auto.
    + left. apply in_or_app; right; right; auto.
Qed.
Lemma injectivity_wt c rs ls : find_injectivities c = Some rs -> In ls rs -> clause_wt M c -> clause_wt M (Clause ls (context c)).
Proof.
  intros H Hin W rho Hv l Hl. simpl in *. destruct (injectivities_from_in _ _ _ _ _ H Hin Hl) as [Hl'|(x & a & b & Hx & Ha & Hb & ->)].
  - apply W; auto.
  - destruct (W rho Hv x Hx) as [W1 W2]. apply lit_new_wt. split; [eapply swt_args; [exact W1|]|eapply swt_args; [exact W2|]]; auto.
Qed.

(** no panic *)
Lemma only_difference_total l : forall r f, length l <= length r -> only_difference l r f <> None.
Proof.
  induction l as [|a l IH]; intros [|b r] f L; simpl in *; try discriminate; try lia.
  destruct (term_eqb a b); [apply IH; lia|]. destruct f; [discriminate|]. apply IH; lia.
Qed.
Lemma injectivities_from_total post : forall pre, atomic_heads post -> injectivities_from pre post <> None.
Proof.
  induction post as [|x r IH]; intros pre A; simpl; [discriminate|].
  assert (Ar : atomic_heads r) by (intros l Hl; apply A; right; auto).
  destruct (positive x); [discriminate|].
  destruct (atom_eq_dec (head_atom (left x)) (head_atom (right x))) as [Eh|]; [|auto].
  destruct (Nat.eqb_spec (num_args (left x)) (num_args (right x))) as [En|]; [|auto].
  destruct (A x (or_introl eq_refl)) as [A1 A2]. rewrite !num_args_length in En by auto.
  destruct (only_difference (args (left x)) (args (right x)) None) as [[[a b]|]|] eqn:D; [|auto|].
  - destruct (injectivities_from (pre ++ [x]) r) eqn:E; [discriminate|]. exfalso. eapply IH; eauto.
  - exfalso. eapply only_difference_total; [|exact D]. lia.
Qed.
End Inj.

(** ** extensionality *)
Definition kclosed (K : kctx) : Prop := forall s, vars (symbol_type K s) = [].

Lemma vars_shift t : forall c k, vars (shift_up c k t) = vars t.
Proof.
  induction t as [[i|i|s]|f IHf a IHa|kk A IHA b IHb]; intros c k; simpl; auto.
  - destruct (_ : bool); reflexivity.
  - rewrite !vars_app, IHf, IHa; auto.
  - rewrite !vars_bind, IHA, IHb; auto.
Qed.
Lemma vars_open_term t : forall d r w, In w (vars (open_at d r t)) -> In w (vars r) \/ In w (vars t).
Proof.
  induction t as [[i|i|s]|f IHf a IHa|k A IHA b IHb]; intros d r w; simpl; auto.
  - destruct (Nat.ltb i d); auto. destruct (Nat.eqb i d); auto. rewrite vars_shift. auto.
  - rewrite !vars_app, !in_app_iff. intros [H|H]; [destruct (IHf _ _ _ H)|destruct (IHa _ _ _ H)]; auto.
  - rewrite !vars_bind, !in_app_iff. intros [H|H]; [destruct (IHA _ _ _ H)|destruct (IHb _ _ _ H)]; auto.
Qed.
Lemma vars_abstract t : forall x d v, In v (vars (abstract_var x d t)) -> v <> x /\ In v (vars t).
Proof.
  induction t as [[i|i|s]|f IHf a IHa|k A IHA b IHb]; intros x d v; simpl.
  - destruct (Nat.eqb_spec i x); unfold vars; simpl; [tauto|]. intros [<-|[]]. split; auto.
  - destruct (Nat.leb d i); unfold vars; simpl; tauto.
  - unfold vars; simpl; tauto.
  - rewrite !vars_app, !in_app_iff. intros [H|H]; [destruct (IHf _ _ _ H)|destruct (IHa _ _ _ H)]; auto.
  - rewrite !vars_bind, !in_app_iff. intros [H|H]; [destruct (IHA _ _ _ H)|destruct (IHb _ _ _ H)]; auto.
Qed.

Lemma get_type_vars n : forall K c t T v, kclosed K -> get_type_fuel n K c t = Some T -> In v (vars T) ->
  In v (vars t) \/ exists w U, In w (vars t) /\ get_var_type c w = Some U /\ In v (vars U).
Proof.
  induction n as [|n IH]; intros K c t T v HK H Hv; simpl in H; [discriminate|].
  destruct t as [[i|i|s]|f a|k A b].
  - right. exists i, T. split; auto. left; auto.
  - discriminate.
  - injection H as <-. rewrite (HK s) in Hv. contradiction.
  - destruct (get_type_fuel n K c f) as [Tf|] eqn:E; [|discriminate].
    apply type_apply_some in H. destruct H as (A & B & -> & ->). rewrite vars_app.
    apply vars_open_term in Hv. destruct Hv as [Hv|Hv]; [left; apply in_or_app; auto|].
    destruct (IH K c f _ v HK E) as [H|(w & U & H1 & H2 & H3)].
    + rewrite vars_bind. apply in_or_app; auto.
    + left. apply in_or_app; auto.
    + right. exists w, U. repeat split; auto. apply in_or_app; auto.
  - rewrite vars_bind. destruct k; try (injection H as <-; contradiction).
    rewrite open_bound_spec in H. destruct (get_type_fuel n K (push_type c A) _) as [U|] eqn:E; [|discriminate].
    injection H as <-. rewrite vars_bind in Hv. apply in_app_or in Hv. destruct Hv as [Hv|Hv]; [left; apply in_or_app; auto|].
    apply vars_abstract in Hv. destruct Hv as [Hn Hv].
    destruct (IH _ _ _ _ v HK E Hv) as [H|(w & W & H1 & H2 & H3)].
    + apply vars_open in H. destruct H; [contradiction|]. left. apply in_or_app; auto.
    + rewrite get_push in H2. destruct (Nat.eqb_spec w (length c)) as [->|Hw].
      * injection H2 as <-. left. apply in_or_app; auto.
      * apply vars_open in H1. destruct H1; [contradiction|]. right. exists w, W. repeat split; auto. apply in_or_app; auto.
Qed.

Lemma vars_apply l : forall h v, In v (vars (apply h l)) <-> In v (vars h) \/ exists x, In x l /\ In v (vars x).
Proof.
  unfold apply. induction l as [|x l IH]; intros h v; simpl.
  - split; auto. intros [H|(x & [] & _)]; auto.
  - rewrite IH, vars_app, in_app_iff. split.
    + intros [[H|H]|(y & H1 & H2)]; auto; right; [exists x|exists y]; auto.
    + intros [H|(y & [<-|H1] & H2)]; auto. right. exists y; auto.
Qed.
Lemma apply_app h l1 l2 : apply h (l1 ++ l2) = apply (apply h l1) l2.
Proof. apply fold_left_app. Qed.
Lemma apply_args t : apply (spine_head t) (args t) = t.
Proof. symmetry. apply spine_eq. Qed.

Lemma term_eqb_eq a b : term_eqb a b = true -> a = b.
Proof. unfold term_eqb. destruct (term_eq_dec a b); auto. discriminate. Qed.

(** what the peeling loop has checked *)
Definition chain (K : kctx) (c : lctx) (h : term) (p : list term) (xs : list nat) : Prop :=
  forall x1 x x2, xs = x1 ++ x :: x2 -> exists T B, get_var_type c x = Some T /\
    checked_type K c (apply h (p ++ map (fun v => TVar v) x1)) = Some (TBind KPi T B).

Lemma peel_spec K c longer shorter m : forall la sa pd0 pd,
  m <= common_prefix la sa -> peel K c longer shorter m la sa pd0 = Some pd ->
  exists xs lp sp, pd = xs ++ pd0 /\
    la = map (fun v => TVar v) (rev xs) ++ lp /\ sa = map (fun v => TVar v) (rev xs) ++ sp /\
    NoDup xs /\ (forall x t, In x xs -> In t lp \/ In t sp -> ~ In x (vars t)) /\
    chain K c (head_term longer) (rev lp) xs /\ chain K c (head_term shorter) (rev sp) xs /\
    (xs <> [] -> unsupported_bare_head K longer (length lp) = false /\
                 unsupported_bare_head K shorter (length sp) = false).
Proof.
  assert (Stop : forall la sa (pd0 pd : list nat), Some pd0 = Some pd ->
    exists xs lp sp, pd = xs ++ pd0 /\
    la = map (fun v => TVar v) (rev xs) ++ lp /\ sa = map (fun v => TVar v) (rev xs) ++ sp /\
    NoDup xs /\ (forall x t, In x xs -> In t lp \/ In t sp -> ~ In x (vars t)) /\
    chain K c (head_term longer) (rev lp) xs /\ chain K c (head_term shorter) (rev sp) xs /\
    (xs <> [] -> unsupported_bare_head K longer (length lp) = false /\
                 unsupported_bare_head K shorter (length sp) = false)).
  { intros la sa pd0 pd H. injection H as <-. exists [], la, sa. repeat split; auto.
    - constructor.
    - intros x1 x x2 H. destruct x1; discriminate.
    - intros x1 x x2 H. destruct x1; discriminate.
    - congruence.
    - congruence. }
  induction m as [|m IH]; intros la sa pd0 pd L H; [apply Stop; destruct la; exact H|].
  destruct la as [|l lp]; [apply Stop; exact H|]. destruct sa as [|s sp]; [apply Stop; exact H|].
  cbn [peel] in H. destruct s as [[v|i|sy]|f a|k A b]; try (apply Stop; exact H).
  destruct (get_var_type c v) as [T|] eqn:ET; [|discriminate].
  destruct (expected_input K c longer (rev lp)) as [li|] eqn:EL; [|discriminate].
  destruct (expected_input K c shorter (rev sp)) as [si|] eqn:ES; [|discriminate].
  destruct (term_eqb T li) eqn:E1; [|apply Stop; exact H].
  destruct (term_eqb T si) eqn:E2; [|apply Stop; exact H]. cbn [negb orb] in H.
  destruct (unsupported_bare_head K longer (length lp)) eqn:U1; [apply Stop; exact H|].
  destruct (unsupported_bare_head K shorter (length sp)) eqn:U2; [apply Stop; exact H|]. cbn [orb] in H.
  destruct (existsb (Nat.eqb v) pd0); [apply Stop; exact H|].
  destruct (existsb (has_variable v) lp) eqn:V1; [apply Stop; exact H|].
  destruct (existsb (has_variable v) sp) eqn:V2; [apply Stop; exact H|]. cbn [orb] in H.
  cbn [common_prefix] in L. destruct (term_eqb l (TVar v)) eqn:El; [|lia]. apply term_eqb_eq in El. subst l.
  apply term_eqb_eq in E1, E2. subst li si.
  apply IH in H; [|lia]. destruct H as (xs & lp' & sp' & -> & -> & -> & N & F & C1 & C2 & U).
  assert (NV : forall l t, existsb (has_variable v) l = false -> In t l -> ~ In v (vars t)).
  { intros l t He Ht. apply has_variable_false. destruct (has_variable v t) eqn:Eh; auto.
    assert (existsb (has_variable v) l = true) by (apply existsb_exists; eauto). congruence. }
  assert (Nx : ~ In v xs).
  { intros Hx. apply (NV _ (TVar v) V1); [|left; auto]. apply in_or_app. left. apply in_map_iff. exists v. split; auto.
    apply in_rev in Hx; auto. }
  exists (xs ++ [v]), lp', sp'. rewrite rev_app_distr. simpl. rewrite <- app_assoc. simpl.
  split; [auto|]. split; [auto|]. split; [auto|]. split.
  { apply NoDup_rev in N. rewrite <- (rev_involutive (xs ++ [v])), rev_app_distr. apply NoDup_rev. simpl. constructor; auto.
    rewrite <- in_rev. auto. }
  split.
  { intros x t Hx Ht. apply in_app_or in Hx. destruct Hx as [Hx|[<-|[]]]; [apply F; auto|].
    destruct Ht as [Ht|Ht]; [apply (NV _ t V1)|apply (NV _ t V2)]; apply in_or_app; auto. }
  assert (CH : forall h p t, chain K c (head_term h) (rev p) xs ->
     expected_input K c h (rev (map (fun v => TVar v) (rev xs) ++ p)) = Some t -> t = T ->
     chain K c (head_term h) (rev p) (xs ++ [v])).
  { intros h p t Ch Eh -> x1 x x2 Hx.
    destruct x2 as [|y x2 _] using rev_ind.
    - apply app_inj_tail in Hx. destruct Hx as [<- <-]. unfold expected_input in Eh.
      rewrite rev_app_distr, <- map_rev, rev_involutive in Eh.
      destruct (checked_type K c (apply (head_term h) (rev p ++ map (fun v => TVar v) xs))) as [[|?|[] I0 O0]|] eqn:E; try discriminate.
      injection Eh as ->. exists T, O0. auto.
    - rewrite app_comm_cons, app_assoc in Hx. apply app_inj_tail in Hx. destruct Hx as [-> _].
      destruct (Ch x1 x x2 eq_refl) as (T' & B & H1 & H2). exists T', B. auto. }
  split; [eapply CH; eauto|]. split; [eapply CH; eauto|].
  intros _. destruct xs as [|y xs]; [|apply U; discriminate]. simpl in *. auto.
Qed.

Section Ext.
Context (M : Model) (K : kctx).

Fixpoint tchain (c : lctx) (T : term) (xs : list nat) : Prop :=
  match xs with
  | [] => True
  | x :: r => exists A B, T = TBind KPi A B /\ get_var_type c x = Some A /\ tchain c (open_at 0 (TVar x) B) r
  end.

Lemma chain_tchain c h xs : forall p T, chain K c h p xs -> get_type K c (apply h p) = Some T -> tchain c T xs.
Proof.
  induction xs as [|x r IH]; intros p T C H; simpl; auto.
  destruct (C [] x r eq_refl) as (A & B & HA & HB). simpl in HB. rewrite app_nil_r in HB.
  apply checked_type_get in HB. rewrite H in HB. injection HB as ->.
  exists A, B. split; auto. split; auto.
  apply (IH (p ++ [TVar x])).
  - intros x1 y x2 E. destruct (C (x :: x1) y x2) as (A' & B' & H1 & H2); [simpl; congruence|].
    exists A', B'. split; auto. rewrite <- app_assoc. exact H2.
  - rewrite apply_app. change (get_type K c (TApp (apply h p) (TVar x)) = Some (open_at 0 (TVar x) B)).
    rewrite get_type_app, H. apply type_apply_pi.
Qed.

Lemma ext_step c xs : forall f g T rho, NoDup xs ->
  (forall x, In x xs -> ~ In x (vars f) /\ ~ In x (vars g) /\ ~ In x (vars T)) ->
  tchain c T xs -> mem M (ev M rho f) (ev M rho T) -> mem M (ev M rho g) (ev M rho T) ->
  (forall rho', (forall v, ~ In v xs -> rho' v = rho v) ->
     (forall x A, In x xs -> get_var_type c x = Some A -> mem M (rho' x) (ev M rho' A)) ->
     ev M rho' (apply f (map (fun v => TVar v) xs)) = ev M rho' (apply g (map (fun v => TVar v) xs))) ->
  ev M rho f = ev M rho g.
Proof.
  induction xs as [|x r IH]; intros f g T rho N F C Hf Hg H.
  - apply H; auto. intros x A [].
  - destruct C as (A & B & -> & HA & C). apply NoDup_cons_iff in N. destruct N as [Nx N].
    destruct (F x (or_introl eq_refl)) as (Ff & Fg & FT). rewrite vars_bind in FT.
    assert (U : forall a t, ~ In x (vars t) -> ev M (upd M rho x a) t = ev M rho t).
    { intros a t Ht. apply ev_upd_fresh. intros w Hw ->. contradiction. }
    unfold ev in Hf, Hg. cbn [eval] in Hf, Hg. unfold ev.
    eapply (pi_ext M _ _ _ _ Hf Hg). intros a Ha.
    assert (Ex : ev M (upd M rho x a) (TVar x) = a) by (unfold ev; simpl; unfold upd; rewrite Nat.eqb_refl; auto).
    assert (E : forall t, ~ In x (vars t) -> ev M (upd M rho x a) (TApp t (TVar x)) = dapp M (ev M rho t) a).
    { intros t Ht. unfold ev in *. cbn [eval] in *. rewrite Ex. f_equal. apply U; auto. }
    assert (EB : ev M (upd M rho x a) (open_at 0 (TVar x) B) = eval M rho (scons a (nobs M)) B).
    { unfold ev. rewrite eval_open. fold (ev M (upd M rho x a) (TVar x)). rewrite Ex. apply eval_ext; auto. intros i Hi. unfold upd.
      destruct (Nat.eqb_spec i x) as [->|]; auto. exfalso. apply FT, in_or_app; auto. }
    fold (ev M rho f) (ev M rho g). rewrite <- (E f Ff), <- (E g Fg).
    apply (IH _ _ (open_at 0 (TVar x) B)); auto.
    + intros y Hy. destruct (F y (or_intror Hy)) as (F1 & F2 & F3).
      assert (y <> x) by (intros ->; contradiction).
      rewrite !vars_app, !in_app_iff. rewrite vars_bind, in_app_iff in F3. repeat split.
      * intros [|[|[]]]; congruence.
      * intros [|[|[]]]; congruence.
      * intros Hv. apply vars_open in Hv. destruct Hv; [congruence|tauto].
    + rewrite EB, E; auto. exact (pi_app M _ _ _ _ Hf Ha).
    + rewrite EB, E; auto. exact (pi_app M _ _ _ _ Hg Ha).
    + intros rho' Hr Hm. apply H.
      * intros v Hv. simpl in Hv. rewrite Hr by tauto. unfold upd. destruct (Nat.eqb_spec v x) as [->|]; auto. tauto.
      * intros y A' [<-|Hy] HA'; [|apply Hm; auto].
        rewrite HA in HA'. injection HA' as <-. rewrite Hr by auto. unfold upd at 1. rewrite Nat.eqb_refl.
        replace (ev M rho' A) with (ev M rho A); auto. symmetry. apply ev_vars. intros v Hv.
        assert (~ In v (x :: r)).
        { intros Hi. destruct (F v Hi) as (_ & _ & F3). apply F3. rewrite vars_bind. apply in_or_app; auto. }
        simpl in H0. rewrite Hr by tauto. unfold upd. destruct (Nat.eqb_spec v x) as [->|]; auto. tauto.
Qed.

Lemma valterm_apply s p : s <> SType0 -> (forall m i, s <> STypeclass m i) ->
  (p = [] -> s <> SEq /\ s <> SIte) -> valterm (apply (TSym s) p) = true.
Proof.
  intros H0 H1 H2. unfold apply. assert (G : forall p f, valterm f = true -> valterm (fold_left TApp p f) = true).
  { clear. induction p as [|x p IH]; intros f H; simpl; auto. apply IH. simpl.
    destruct f as [[i|i|[]]|?|?]; auto. }
  destruct p as [|x p].
  - destruct (H2 eq_refl). simpl. destruct s; auto; congruence.
  - simpl. apply G. simpl. destruct s; auto; try congruence.
Qed.

Lemma get_type_head c h p : forall x T, get_type K c (apply h (x :: p)) = Some T ->
  exists A B, get_type K c h = Some (TBind KPi A B).
Proof.
  induction p as [|y p IH] using rev_ind; intros x T H.
  - change (apply h [x]) with (TApp h x) in H. rewrite get_type_app in H.
    destruct (get_type K c h) as [U|]; [|discriminate]. apply type_apply_some in H.
    destruct H as (A & B & -> & _). eauto.
  - change (x :: p ++ [y]) with ((x :: p) ++ [y]) in H. rewrite apply_app in H.
    change (apply (apply h (x :: p)) [y]) with (TApp (apply h (x :: p)) y) in H. rewrite get_type_app in H.
    destruct (get_type K c (apply h (x :: p))) as [U|] eqn:E; [|discriminate]. eauto.
Qed.

Lemma prefix_swt P rho bs h l1 l2 : swtg M P rho bs (apply h (l1 ++ l2)) -> swtg M P rho bs (apply h l1).
Proof.
  rewrite apply_app. generalize (apply h l1). unfold apply. induction l2 as [|x l2 IH]; intros f H; simpl in *; auto.
  apply IH in H. simpl in H. tauto.
Qed.

Lemma peeled_typed c rho t a xs p T :
  respects M K -> (forall v, In v (vars t) -> v < length c) -> ctx_closed c -> valid_env M c rho -> wt M rho t ->
  head_atom t = a -> is_variable_atom a = false -> xs <> [] ->
  t = apply (TAtom a) (p ++ map (fun v => TVar v) xs) ->
  unsupported_bare_head K t (length p) = false -> chain K c (TAtom a) p xs ->
  get_type K c (apply (TAtom a) p) = Some T ->
  mem M (ev M rho (apply (TAtom a) p)) (ev M rho T).
Proof.
  intros R Hs Hc Hv Hw Ha Va Nx E U C HT.
  destruct a as [i|i|s]; try discriminate.
  assert (Vals : valterm (apply (TSym s) p) = true).
  { destruct xs as [|x xs]; [congruence|]. destruct (C [] x xs eq_refl) as (A & B & _ & HB).
    simpl in HB. rewrite app_nil_r in HB. apply checked_type_get in HB.
    assert (Hp : exists A B, get_type K c (TSym s) = Some (TBind KPi A B)).
    { destruct p as [|y p]; [eauto|]. eapply get_type_head; eauto. }
    destruct Hp as (A' & B' & Hp). unfold get_type in Hp. simpl in Hp.
    apply valterm_apply.
    - intros ->. discriminate.
    - intros m i ->. discriminate.
    - intros ->. unfold unsupported_bare_head in U. rewrite Ha in U. simpl in U. split; intros ->; discriminate. }
  unfold get_type in HT. eapply (typing_sound M _ K c _ T HT R Hc); auto.
  - intros w Hw'. apply Hs. rewrite E, apply_app, vars_apply. auto.
  - unfold wt, swt in *. rewrite E in Hw. eapply prefix_swt; eauto.
Qed.

Lemma lit_holds_dec rho l : lit_holds M rho l \/ ~ lit_holds M rho l.
Proof. unfold lit_holds. destruct (val_dec M (ev M rho (left l)) (ev M rho (right l))), (positive l); tauto. Qed.
Lemma cholds_dec rho ls : cholds M rho ls \/ ~ cholds M rho ls.
Proof.
  induction ls as [|l ls IH]; [right; intros (? & [] & _)|].
  destruct (lit_holds_dec rho l); [left; exists l; split; simpl; auto|].
  destruct IH as [(x & ? & ?)|N]; [left; exists x; split; simpl; auto|].
  right. intros (x & [<-|Hx] & Hh); auto. apply N. exists x; auto.
Qed.
End Ext.

Lemma drop_last_app {A} (l1 l2 : list A) : drop_last (length l2) (l1 ++ l2) = l1.
Proof. unfold drop_last. rewrite app_length, Nat.add_sub. rewrite firstn_app, firstn_all, Nat.sub_diag. simpl. apply app_nil_r. Qed.

(** What [extensionality_for_literal] returns. *)
Lemma extensionality_literal_spec K c l l' peeled :
  extensionality_for_literal K c l = Some (Some (l', peeled)) -> atomic_head (left l) -> atomic_head (right l) ->
  exists t1 t2 a1 a2 p1 p2 T,
    positive l = true /\ (l = Lit true t1 t2 \/ l = Lit true t2 t1) /\
    head_atom t1 = a1 /\ head_atom t2 = a2 /\ is_variable_atom a1 = false /\ is_variable_atom a2 = false /\
    t1 = apply (TAtom a1) (p1 ++ map (fun v => TVar v) peeled) /\
    t2 = apply (TAtom a2) (p2 ++ map (fun v => TVar v) peeled) /\
    peeled <> [] /\ NoDup peeled /\
    (forall x t, In x peeled -> In t p1 \/ In t p2 -> ~ In x (vars t)) /\
    chain K c (TAtom a1) p1 peeled /\ chain K c (TAtom a2) p2 peeled /\
    unsupported_bare_head K t1 (length p1) = false /\ unsupported_bare_head K t2 (length p2) = false /\
    get_type K c (apply (TAtom a1) p1) = Some T /\ get_type K c (apply (TAtom a2) p2) = Some T /\
    l' = lit_new true (apply (TAtom a1) p1) (apply (TAtom a2) p2).
Proof.
  intros H A1 A2. unfold extensionality_for_literal in H.
  assert (P : positive l = true) by (destruct (positive l); auto; discriminate).
  rewrite P in H. destruct (term_eqb (left l) (right l)); [discriminate|]. cbn [negb orb] in H.
  assert (G : forall longer shorter, atomic_head longer -> atomic_head shorter ->
    (l = Lit true longer shorter \/ l = Lit true shorter longer) ->
    (match args longer, args shorter with
     | [], _ | _, [] => Some None
     | _, _ =>
       if is_variable_atom (head_atom longer) || is_variable_atom (head_atom shorter) then Some None else
       match common_prefix (rev (args longer)) (rev (args shorter)) with
       | 0 => Some None
       | m =>
         match peel K c longer shorter m (rev (args longer)) (rev (args shorter)) [] with
         | None | Some [] => Some None
         | Some peeled =>
           let nl := apply (head_term longer) (drop_last (length peeled) (args longer)) in
           let ns := apply (head_term shorter) (drop_last (length peeled) (args shorter)) in
           if term_eqb nl ns then Some None else
           match get_type K c nl, get_type K c ns with
           | Some tl, Some ts => if term_eqb tl ts then Some (Some (lit_new true nl ns, peeled)) else Some None
           | _, _ => None
           end
         end
       end
     end) = Some (Some (l', peeled)) ->
    exists t1 t2 a1 a2 p1 p2 T,
    positive l = true /\ (l = Lit true t1 t2 \/ l = Lit true t2 t1) /\
    head_atom t1 = a1 /\ head_atom t2 = a2 /\ is_variable_atom a1 = false /\ is_variable_atom a2 = false /\
    t1 = apply (TAtom a1) (p1 ++ map (fun v => TVar v) peeled) /\
    t2 = apply (TAtom a2) (p2 ++ map (fun v => TVar v) peeled) /\
    peeled <> [] /\ NoDup peeled /\
    (forall x t, In x peeled -> In t p1 \/ In t p2 -> ~ In x (vars t)) /\
    chain K c (TAtom a1) p1 peeled /\ chain K c (TAtom a2) p2 peeled /\
    unsupported_bare_head K t1 (length p1) = false /\ unsupported_bare_head K t2 (length p2) = false /\
    get_type K c (apply (TAtom a1) p1) = Some T /\ get_type K c (apply (TAtom a2) p2) = Some T /\
    l' = lit_new true (apply (TAtom a1) p1) (apply (TAtom a2) p2)).
  { intros longer shorter B1 B2 El HG.
    destruct (args longer) as [|x1 r1] eqn:Ea1; [discriminate|].
    destruct (args shorter) as [|x2 r2] eqn:Ea2; [discriminate|].
    rewrite <- Ea1, <- Ea2 in HG.
    destruct (is_variable_atom (head_atom longer)) eqn:V1; [discriminate|].
    destruct (is_variable_atom (head_atom shorter)) eqn:V2; [discriminate|]. cbn [orb] in HG.
    destruct (common_prefix (rev (args longer)) (rev (args shorter))) as [|m] eqn:Em; [discriminate|].
    destruct (peel K c longer shorter (S m) (rev (args longer)) (rev (args shorter)) []) as [pd|] eqn:Ep; [|discriminate].
    apply peel_spec in Ep; [|lia]. destruct Ep as (xs & lp & sp & Epd & El1 & El2 & N & F & C1 & C2 & U).
    rewrite app_nil_r in Epd. subst pd.
    assert (R1 : args longer = rev lp ++ map (fun v => TVar v) xs).
    { rewrite <- (rev_involutive (args longer)), El1, rev_app_distr, <- map_rev, rev_involutive. auto. }
    assert (R2 : args shorter = rev sp ++ map (fun v => TVar v) xs).
    { rewrite <- (rev_involutive (args shorter)), El2, rev_app_distr, <- map_rev, rev_involutive. auto. }
    destruct xs as [|x xs]; [discriminate|].
    assert (D : forall p, drop_last (length (x :: xs)) (p ++ map (fun v => TVar v) (x :: xs)) = p).
    { intros p. rewrite <- (map_length (fun v => TVar v) (x :: xs)) at 1. apply drop_last_app. }
    rewrite R1, R2, !D in HG. cbv zeta in HG.
    destruct (term_eqb (apply (head_term longer) (rev lp)) (apply (head_term shorter) (rev sp))); [discriminate|].
    destruct (get_type K c (apply (head_term longer) (rev lp))) as [T1|] eqn:G1; [|discriminate].
    destruct (get_type K c (apply (head_term shorter) (rev sp))) as [T2|] eqn:G2; [|discriminate].
    destruct (term_eqb T1 T2) eqn:ET; [|discriminate]. apply term_eqb_eq in ET. subst T2.
    injection HG as <- <-. destruct (U ltac:(discriminate)) as [U1 U2]. rewrite <- rev_length in U1, U2.
    exists longer, shorter, (head_atom longer), (head_atom shorter), (rev lp), (rev sp), T1.
    repeat (split; [solve [auto]|]).
    split. { rewrite <- (apply_args longer) at 1. rewrite R1, atomic_head_term; auto. }
    split. { rewrite <- (apply_args shorter) at 1. rewrite R2, atomic_head_term; auto. }
    split; [discriminate|]. split; auto. split.
    { intros y t Hy Ht. apply F; auto. destruct Ht as [Ht|Ht]; apply in_rev in Ht; auto. }
    repeat (split; [solve [auto]|]). auto. }
  destruct (Nat.leb (num_args (right l)) (num_args (left l))).
  - apply (G (left l) (right l)); auto. left. destruct l; simpl in *; congruence.
  - apply (G (right l) (left l)); auto. right. destruct l; simpl in *; congruence.
Qed.

Lemma extensionality_atomic K c l r : plain_head (left l) -> plain_head (right l) ->
  extensionality_for_literal K c l = Some (Some r) -> atomic_head (left l) /\ atomic_head (right l).
Proof.
  intros Hl Hr H. unfold extensionality_for_literal in H. destruct (negb (positive l) || term_eqb (left l) (right l)); [discriminate|].
  destruct Hl as [Hl|Hl]; [|destruct Hr as [Hr|Hr]; auto];
    destruct (Nat.leb (num_args (right l)) (num_args (left l))); cbv zeta in H; rewrite ?Hl, ?Hr in H; try discriminate;
    repeat match type of H with match ?x with _ => _ end = _ => destruct x; try discriminate end.
Qed.

Definition vanishes (c : clause) (ls : list literal) (v : nat) : Prop :=
  (exists l, In l (literals c) /\ In v (lit_vars l)) /\ (forall l, In l ls -> ~ In v (lit_vars l)).

Lemma scoped_ctx c : scoped c -> ctx_closed (context c) /\
  forall l v, In l (literals c) -> In v (lit_vars l) -> v < length (context c).
Proof.
  intros [S1 S2]. assert (L : forall v, typed (context c) v -> v < length (context c)).
  { intros v [T H]. unfold get_var_type in H. apply nth_error_Some. intros E. rewrite E in H. discriminate. }
  split.
  - intros i T v HT Hv. apply L. apply (S2 i). unfold deps. rewrite HT. auto.
  - intros l v Hl Hv. apply L. eapply S1; eauto.
Qed.

Lemma extensionality_from_split K c post : forall pre ls, extensionality_from K c pre post = Some (Some ls) ->
  exists pre' x r l peeled, pre ++ post = pre' ++ x :: r /\ ls = pre' ++ l :: r /\
    extensionality_for_literal K c x = Some (Some (l, peeled)) /\
    existsb (fun o => existsb (fun v => lit_has_variable v o) peeled) (pre' ++ r) = false.
Proof.
  induction post as [|x r IH]; intros pre ls H; simpl in H; [discriminate|].
  assert (G : extensionality_from K c (pre ++ [x]) r = Some (Some ls) ->
    exists pre' x0 r0 l peeled, pre ++ x :: r = pre' ++ x0 :: r0 /\ ls = pre' ++ l :: r0 /\
    extensionality_for_literal K c x0 = Some (Some (l, peeled)) /\
    existsb (fun o => existsb (fun v => lit_has_variable v o) peeled) (pre' ++ r0) = false).
  { intros H0. apply IH in H0. rewrite <- app_assoc in H0. exact H0. }
  destruct (extensionality_for_literal K c x) as [[[l peeled]|]|] eqn:E; [|auto|discriminate].
  destruct (existsb (fun o => existsb (fun v => lit_has_variable v o) peeled) (pre ++ r)) eqn:X; [auto|].
  injection H as <-. exists pre, x, r, l, peeled. auto.
Qed.

Lemma extensionality_sound M K c ls :
  find_extensionality K c = Some (Some ls) -> kclosed K -> respects M K -> scoped c -> plain_heads (literals c) ->
  (forall v w T, vanishes c ls v -> get_var_type (context c) w = Some T -> In v (vars T) -> vanishes c ls w) ->
  clause_wt M c -> valid M c -> valid M (Clause ls (context c)).
Proof.
  intros H HK R S A V W Hval rho Hrho. unfold find_extensionality in H.
  apply extensionality_from_split in H. simpl in H. destruct H as (pre & x & r & l & peeled & Hlits & -> & HE & HX).
  assert (Hx : In x (literals c)) by (rewrite Hlits; apply in_or_app; right; left; auto).
  destruct (extensionality_atomic K (context c) x (l, peeled) (proj1 (A x Hx)) (proj2 (A x Hx)) HE) as [A1 A2]. pose proof HE as HE'. apply extensionality_literal_spec in HE'; auto.
  destruct HE' as (t1 & t2 & a1 & a2 & p1 & p2 & T & P & Ex & Ha1 & Ha2 & Va1 & Va2 & E1 & E2 & Np & Nd & F & C1 & C2 & U1 & U2 & G1 & G2 & El).
  destruct (scoped_ctx c S) as [Hc Hlen].
  assert (Hin1 : forall v, In v (vars t1) \/ In v (vars t2) -> In v (lit_vars x)).
  { intros v Hv. unfold lit_vars. apply in_or_app. destruct Ex as [-> | ->]; simpl; tauto. }
  assert (Others : forall o v, In o (pre ++ r) -> In v peeled -> ~ In v (lit_vars o)).
  { intros o v Ho Hv Hi. assert (existsb (fun o => existsb (fun v => lit_has_variable v o) peeled) (pre ++ r) = true).
    { apply existsb_exists. exists o. split; auto. apply existsb_exists. exists v. split; auto.
      unfold lit_has_variable. apply orb_true_iff. rewrite !has_variable_vars. apply in_app_or. exact Hi. }
    congruence. }
  assert (Fresh : forall a p v, is_variable_atom a = false -> (forall t, In t p -> ~ In v (vars t)) -> ~ In v (vars (apply (TAtom a) p))).
  { intros a p v Hv Hp Hi. apply vars_apply in Hi. destruct Hi as [Hi|(t & Ht & Hi)]; [|eapply Hp; eauto].
    destruct a; try discriminate. contradiction. }
  assert (F1 : forall v, In v peeled -> ~ In v (vars (apply (TAtom a1) p1))) by (intros v Hv; apply Fresh; auto; intros; eapply F; eauto).
  assert (F2 : forall v, In v peeled -> ~ In v (vars (apply (TAtom a2) p2))) by (intros v Hv; apply Fresh; auto; intros; eapply F; eauto).
  assert (Van : forall v, In v peeled -> vanishes c (pre ++ l :: r) v).
  { intros v Hv. split.
    - exists x. split; auto. apply Hin1. left. rewrite E1, vars_apply. right. exists (TVar v). split; [|left; auto].
      apply in_or_app. right. apply in_map_iff. eauto.
    - intros o Ho. apply in_app_or in Ho. destruct Ho as [Ho|[<-|Ho]]; [apply Others; auto; apply in_or_app; auto| |apply Others; auto; apply in_or_app; auto].
      intros Hi. rewrite El in Hi. apply lit_new_vars in Hi. apply in_app_or in Hi. destruct Hi; [eapply F1|eapply F2]; eauto. }
  assert (Van' : forall v, vanishes c (pre ++ l :: r) v -> In v peeled).
  { intros v [(o & Ho & Hv) Hn]. rewrite Hlits in Ho. apply in_app_or in Ho.
    destruct Ho as [Ho|[<-|Ho]]; try (exfalso; apply (Hn o); auto; apply in_or_app; simpl; auto).
    specialize (Hn l ltac:(apply in_or_app; right; left; auto)).
    assert (Hv' : In v (vars t1) \/ In v (vars t2)).
    { unfold lit_vars in Hv. destruct Ex as [-> | ->]; simpl in Hv; apply in_app_or in Hv; tauto. }
    assert (Hl : forall p a, In v (vars (apply (TAtom a) (p ++ map (fun v => TVar v) peeled))) ->
      In v (vars (apply (TAtom a) p)) \/ In v peeled).
    { intros p a Hi. rewrite apply_app in Hi. apply vars_apply in Hi. destruct Hi as [Hi|(t & Ht & Hi)]; auto.
      apply in_map_iff in Ht. destruct Ht as (y & <- & Hy). right. destruct Hi as [<-|[]]. auto. }
    assert (Hl2 : In v (vars (apply (TAtom a1) p1)) \/ In v (vars (apply (TAtom a2) p2)) -> False).
    { intros Hi. apply Hn. rewrite El. unfold lit_vars. apply in_or_app.
      destruct (lit_new_cases true (apply (TAtom a1) p1) (apply (TAtom a2) p2)) as [-> | ->]; simpl; tauto. }
    destruct Hv' as [Hv'|Hv']; [rewrite E1 in Hv'|rewrite E2 in Hv']; apply Hl in Hv'; tauto. }
  assert (FT : forall v, In v peeled -> ~ In v (vars T)).
  { intros v Hv Hi. destruct (get_type_vars _ K _ _ T v HK G1 Hi) as [H|(w & Uw & H1 & H2 & H3)].
    - eapply F1; eauto.
    - assert (In w peeled) by (apply Van'; eapply V; eauto). eapply F1; eauto. }
  (* the other literals do not matter *)
  destruct (cholds_dec M rho (pre ++ r)) as [(o & Ho & Hh)|Nh].
  { exists o. split; auto. simpl. apply in_app_or in Ho. apply in_or_app. simpl. tauto. }
  exists l. split; [apply in_or_app; right; left; auto|]. rewrite El. apply lit_new_holds. unfold lit_holds. simpl.
  assert (Wx : wt M rho t1 /\ wt M rho t2).
  { pose proof (W rho Hrho x Hx) as [W1 W2]. destruct Ex as [-> | ->]; simpl in *; auto. }
  apply (ext_step M (context c) peeled _ _ T rho); auto.
  - apply (chain_tchain K _ _ _ _ _ C1 G1).
  - eapply (peeled_typed M K (context c) rho t1 a1 peeled p1); eauto; try tauto.
  - eapply (peeled_typed M K (context c) rho t2 a2 peeled p2); eauto; try tauto.
  - intros rho' Hoff Hon.
    assert (Hv' : valid_env M (context c) rho').
    { intros i Ti Hi. destruct (in_dec Nat.eq_dec i peeled) as [Hp|Hp]; [apply Hon; auto|].
      rewrite Hoff by auto. rewrite (ev_vars M rho' rho); [apply Hrho; auto|].
      intros v Hv. apply Hoff. intros Hp'. apply Hp, Van'. eapply V; eauto. }
    destruct (Hval rho' Hv') as (o & Ho & Hh). rewrite Hlits in Ho.
    assert (NO : In o (pre ++ r) -> False).
    { intros Hi. apply Nh. exists o. split; auto. unfold lit_holds in *.
      assert (Eo : forall t, incl (vars t) (lit_vars o) -> ev M rho' t = ev M rho t).
      { intros t Ht. apply ev_vars. intros v Hv. apply Hoff. intros Hp. eapply Others; eauto. }
      rewrite !Eo in Hh; auto; unfold lit_vars; [apply incl_appr|apply incl_appl]; apply incl_refl. }
    apply in_app_or in Ho. destruct Ho as [Ho|[<-|Ho]].
    + exfalso. apply NO, in_or_app; auto.
    + rewrite !apply_app in *. rewrite <- E1, <- E2. unfold lit_holds in Hh. rewrite P in Hh. destruct Ex as [-> | ->]; simpl in Hh; auto.
    + exfalso. apply NO, in_or_app; auto.
Qed.
