(** Opened cases, and the parts of a match. *)
From Coq Require Import List Arith NArith Bool Lia.
Import ListNotations.
From Verif Require Import Term LocalContext Semantics TermProofs SemFacts Typing TypingProofs Monomorphic PolyTyped Literal Clause TermNorm Clausifier ClausifierProofs ClausifierConv ClausifierExt ClausifierLits MatchSpec.

Lemma beta_open A b a : same (TApp (TBind KLam A b) a) (open_at 0 a b).
Proof.
  intros M rho W. destruct W as ((WA & _ & Wb) & Wa & OK). unfold ev in *. cbn [eval] in *.
  destruct (lam_beta M _ _ _ OK) as [I E]. split.
  - apply swt_open; [exact Wa|]. apply (Wb _ I).
  - rewrite E, eval_open. reflexivity.
Qed.

Section Tidy.
Context (K : kctx) (ME : symbol -> option (list symbol)).
Notation typed := (PolyTyped.typed K).
Notation ptype g := (ptm K g 0).
Notation plain := (plain ME).
Notation tidy := (tidy K ME).
Notation eliminator := (eliminator ME).

Lemma open_var_atom d v i : exists a, open_at d (TVar v) (TBound i) = TAtom a /\ eliminator a = false /\ forall s, a <> Sym s.
Proof.
  simpl. destruct (Nat.ltb i d); [eexists; split; [reflexivity|split; [reflexivity|discriminate]]|].
  destruct (Nat.eqb i d); eexists; (split; [reflexivity|split; [reflexivity|discriminate]]).
Qed.
Lemma args_open d v t : length (args (open_at d (TVar v) t)) = length (args t).
Proof.
  induction t as [[i|i|s]|f IHf a _|k A _ b _]; auto.
  - destruct (open_var_atom d v i) as (a & E & _). rewrite E. reflexivity.
  - cbn [open_at]. rewrite !args_length_app. auto.
Qed.
Lemma head_open d v t : head_atom (open_at d (TVar v) t) = head_atom t \/
  (eliminator (head_atom (open_at d (TVar v) t)) = false /\ eliminator (head_atom t) = false).
Proof.
  revert d. induction t as [[i|i|s]|f IHf a _|k A IHA b _]; intros d; auto.
  - destruct (open_var_atom d v i) as (a & E & N & _). rewrite E. right. auto.
  - cbn [open_at head_atom]. auto.
  - cbn [open_at head_atom]. auto.
Qed.
Lemma eliminator_open d v t : eliminator (head_atom (open_at d (TVar v) t)) = eliminator (head_atom t).
Proof. destruct (head_open d v t) as [->|[-> ->]]; auto. Qed.
Lemma plain_open t : forall d v, plain t = true -> plain (open_at d (TVar v) t) = true.
Proof.
  induction t as [[i|i|s]|f IHf a IHa|k A IHA b IHb]; intros d v H; auto.
  - destruct (open_var_atom d v i) as (a & E & N & _). rewrite E. cbn. rewrite N. auto.
  - cbn [open_at MatchSpec.plain] in *. apply andb_true_iff in H. destruct H as [H H3]. apply andb_true_iff in H. destruct H as [H1 H2].
    rewrite (IHf d v H1), (IHa d v H2). simpl. destruct f as [[i|i|s]|?|?]; auto.
    + destruct (open_var_atom d v i) as (x & E & _ & N). rewrite E. destruct x; auto. exfalso. eapply N; eauto.
    + cbn [open_at]. destruct s; auto. destruct a as [[i|i|s]|?|kk ? ?]; auto.
      destruct (open_var_atom d v i) as (x & E & _). rewrite E. auto.
  - cbn [open_at MatchSpec.plain] in *. auto.
Qed.
Lemma spine_open d v t : spine_head (open_at d (TVar v) t) = open_at d (TVar v) (spine_head t).
Proof.
  induction t as [[i|i|s]|f IHf a _|k A _ b _]; auto.
  destruct (open_var_atom d v i) as (a & E & _). cbn [spine_head]. rewrite E. reflexivity.
Qed.
Lemma tidy_open t : forall d v, tidy t = true -> tidy (open_at d (TVar v) t) = true.
Proof.
  induction t as [[i|i|s]|f IHf a IHa|k A IHA b IHb]; intros d v H; auto.
  - destruct (open_var_atom d v i) as (a & E & _). rewrite E. auto.
  - cbn [open_at MatchSpec.tidy] in *. apply andb_true_iff in H. destruct H as [H H4]. apply andb_true_iff in H. destruct H as [H H3].
    apply andb_true_iff in H. destruct H as [H1 H2]. rewrite (IHf d v H1), (IHa d v H2). rewrite spine_open, args_open, eliminator_open. cbn [andb].
    destruct (spine_head f) as [[i|i|s]|?|?]; try discriminate; auto.
    + destruct (open_var_atom d v i) as (x & E & _ & N). rewrite E. cbn. destruct x; auto. exfalso. eapply N; eauto.
    + cbn [open_at atomic andb]. apply andb_true_iff in H4. destruct H4 as [H4 H5]. rewrite H4. cbn [andb].
      apply orb_true_iff in H5. destruct H5 as [->|H5]; auto. rewrite (plain_open a d v H5). apply orb_true_r.
  - cbn [open_at MatchSpec.tidy] in *. auto.
Qed.
Lemma tidy_app_inv f a : tidy (TApp f a) = true -> tidy f = true /\ tidy a = true /\ exists h, spine_head f = TAtom h.
Proof.
  cbn [MatchSpec.tidy]. intros H. apply andb_true_iff in H. destruct H as [H _]. apply andb_true_iff in H. destruct H as [H H3]. apply andb_true_iff in H. destruct H as [H1 H2].
  repeat split; auto. destruct (spine_head f) as [h|?|?]; try discriminate. eauto.
Qed.
Lemma tidy_args h l : tidy (apply h l) = true -> tidy h = true /\ Forall (fun a => tidy a = true) l.
Proof.
  rewrite <- (rev_involutive l). generalize (rev l). clear l. induction l as [|a l IH]; [simpl; auto|]. simpl rev. rewrite apply_snoc. intros H.
  apply tidy_app_inv in H. destruct H as (H1 & H2 & _). apply IH in H1. destruct H1 as [X Y]. split; auto. apply Forall_app. auto.
Qed.
Lemma tidy_head t : tidy t = true -> is_app t = true -> exists h, spine_head t = TAtom h.
Proof. destruct t; try discriminate. intros H _. apply tidy_app_inv in H. destruct H as (_ & _ & h & H). exists h. auto. Qed.
Lemma tidy_app_var f v : tidy f = true -> (exists h, spine_head f = TAtom h) -> tidy (TApp f (TVar v)) = true.
Proof.
  intros H (h & E). cbn [MatchSpec.tidy]. rewrite H, E. destruct h; auto. cbn. rewrite !orb_true_r. auto.
Qed.
Lemma tidy_apply_vars ids : forall f, tidy f = true -> (exists h, spine_head f = TAtom h) -> tidy (apply f (map (fun i => TVar i) ids)) = true.
Proof. induction ids as [|i ids IH]; intros f H E; simpl; auto. apply IH; [apply tidy_app_var; auto|auto]. Qed.
Lemma plain_args h l : plain (apply h l) = true -> plain h = true /\ Forall (fun a => plain a = true) l.
Proof.
  rewrite <- (rev_involutive l). generalize (rev l). clear l. induction l as [|a l IH]; [simpl; auto|]. simpl rev. rewrite apply_snoc. intros H.
  cbn [MatchSpec.plain] in H. apply andb_true_iff in H. destruct H as [H _]. apply andb_true_iff in H. destruct H as [H1 H2].
  apply IH in H1. destruct H1 as [X Y]. split; auto. apply Forall_app. auto.
Qed.
Lemma plain_head t : plain t = true -> is_app t = true -> match spine_head t with TAtom a => eliminator a = false | _ => True end.
Proof.
  intros H _. pose proof (spine t) as E. rewrite E in H. apply plain_args in H. destruct H as [H _]. destruct (spine_head t); auto. cbn in H.
  destruct (eliminator a); auto; discriminate.
Qed.
Lemma plain_no_match t : plain t = true -> tidy t = true -> split_match K ME t = None.
Proof.
  intros P T. unfold split_match. destruct (is_app t) eqn:A; auto. destruct (tidy_head t T A) as [h E]. pose proof (plain_head t P A) as H. rewrite E in *. cbn [head_atom].
  destruct h; auto. cbn in H. unfold obind. destruct (ME s); [discriminate|]. auto.
Qed.

(** ** a function applied to variables *)
Lemma instantiate_vars g ids : forall f As B, typed g [] f (arrows As B) -> ptype g (arrows As B) = true ->
  Forall2 (typed g []) (map (fun i => TVar i) ids) As -> tidy f = true ->
  typed g [] (instantiate_prefix f (map (fun i => TVar i) ids)) B /\ same (apply f (map (fun i => TVar i) ids)) (instantiate_prefix f (map (fun i => TVar i) ids)) /\
  tidy (instantiate_prefix f (map (fun i => TVar i) ids)) = true.
Proof.
  induction ids as [|i ids IH]; intros f As B Hf P F Tf; inversion F; subst.
  { simpl. split; auto. split; auto. apply same_refl. }
  cbn [map]. set (xs := map (fun i => TVar i) ids) in *. cbn [arrows] in *.
  assert (APP : (exists h, spine_head f = TAtom h) -> typed g [] (apply f (TVar i :: xs)) B /\ same (apply f (TVar i :: xs)) (apply f (TVar i :: xs)) /\ tidy (apply f (TVar i :: xs)) = true).
  { intros H. split; [|split; [apply same_refl|]].
    - apply (typed_apply_arrows K g (TVar i :: xs) f (y :: l') B); auto.
    - apply (tidy_apply_vars (i :: ids)); auto. }
  destruct f as [a|f a|k A b].
  - apply APP. exists a. auto.
  - apply APP. apply (tidy_head (TApp f a)); auto.
  - destruct k; try (exfalso; inversion Hf; subst; fail).
    + cbn [instantiate_prefix]. rewrite open_body_eq. destruct (typed_lam_inv K _ _ _ _ _ Hf) as (B' & E & PA & PB & Hb). injection E as <- <-.
      cbn [MatchSpec.tidy] in Tf. simpl in P. rewrite ?andb_true_l in P. apply andb_true_iff in P. destruct P as [P1 P2].
      destruct (IH (open_at 0 (TVar i) b) l' B (typed_open K _ _ _ _ _ _ Hb H1) P2 H3 (tidy_open _ _ _ Tf)) as (X1 & X2 & X3). split; auto. split; auto.
      change (apply (TBind KLam y b) (TVar i :: xs)) with (apply (TApp (TBind KLam y b) (TVar i)) xs).
      eapply same_trans; [|exact X2]. apply apply_same_head, beta_open.
Qed.

(** ** instances of types of symbols *)
Lemma count_inputs T : count_type_params T <= length (pi_inputs T).
Proof. induction T as [| |[] A _ B IH]; simpl; try lia. destruct (is_type_param_kind A); simpl; lia. Qed.
Lemma count_open T : forall d A k, k <= count_type_params T -> k <= count_type_params (open_at d A T).
Proof.
  induction T as [a|f _ x _|kk J IHJ B IHB]; intros d A k H; simpl in H; try lia. destruct kk; simpl in H; try lia.
  cbn [open_at count_type_params]. destruct (is_type_param_kind J) eqn:E; [|lia].
  assert (X : open_at d A J = J) by (destruct J as [[?|?|[]]|?|?]; try discriminate; reflexivity). rewrite X, E.
  destruct k; [lia|]. apply le_n_S. apply IHB. lia.
Qed.
Lemma typed_apply_head g h l T : typed g [] (apply h l) T -> l = [] \/ h = TSym SEq \/ h = TSym SIte \/ exists F, typed g [] h F.
Proof.
  revert h. induction l as [|a l IH]; intros h H; auto. right. cbn in H. destruct (IH _ H) as [->|[E|[E|[F HF]]]]; try discriminate.
  - inversion H; subst; eauto.
  - inversion HF; subst; eauto.
Qed.
Lemma typed_instance g l : forall f F T, typed g [] f F -> length l <= count_type_params F -> typed g [] (apply f l) T ->
  Forall (fun A => ptype g A = true) l /\ T = instance F l.
Proof.
  induction l as [|A l IH]; intros f F T Hf L H; [cbn in *; split; auto; eapply typed_unique; eauto|].
  assert (exists G, typed g [] (TApp f A) G) as [G HG].
  { cbn in H. destruct (typed_apply_head g _ _ _ H) as [->|[E|[E|X]]]; [eauto|discriminate|discriminate|auto]. }
  assert (PG : ptype g A = true /\ G = instance F [A] /\ length l <= count_type_params G).
  { inversion HG; subst.
    - exfalso. inversion Hf; subst. match goal with [X : value_symbol SEq = true |- _] => discriminate X end.
    - exfalso. inversion Hf; subst. match goal with [X : value_symbol SIte = true |- _] => discriminate X end.
    - pose proof (typed_unique K _ _ _ _ _ Hf H2) as ->. simpl in L. rewrite (ptype_not_kind _ _ H3) in L. simpl in L. lia.
    - match goal with [X : typed g [] f (TBind KPi ?k _), Y : is_type_param_kind ?k = true |- _] => pose proof (typed_unique K _ _ _ _ _ Hf X) as ->; simpl in L; rewrite Y in L end. split; auto. split; [reflexivity|]. apply count_open. simpl in L. lia. }
  destruct PG as (PA & EG & LG). destruct (IH (TApp f A) G T HG LG H) as [P E]. split; auto. rewrite E, EG.
  destruct F as [| |[] J B]; try (simpl in L; lia). reflexivity.
Qed.
Lemma typed_instance_intro g l : forall f F, typed g [] f F -> length l <= count_type_params F -> Forall (fun A => ptype g A = true) l ->
  typed g [] (apply f l) (instance F l).
Proof.
  induction l as [|A l IH]; intros f F Hf L P; [exact Hf|]. inversion P; subst. destruct F as [| |[] J B]; simpl in L; try lia.
  destruct (is_type_param_kind J) eqn:E; simpl in L; [|lia]. cbn. apply IH; auto; [|apply count_open; lia]. eapply ty_inst; eauto.
Qed.
Lemma apply_type_args_instance l : forall F, length l <= count_type_params F -> apply_type_args F l = Some (instance F l).
Proof.
  induction l as [|A l IH]; intros F L; [destruct F; reflexivity|]. destruct F as [| |[] J B]; simpl in L; try lia.
  destruct (is_type_param_kind J) eqn:E; simpl in L; [|lia]. cbn [apply_type_args instance]. rewrite E, open_body_eq. apply IH. apply count_open. lia.
Qed.
Lemma count_firstn k : forall T U, firstn k (pi_inputs T) = firstn k (pi_inputs U) -> k <= count_type_params U -> k <= count_type_params T.
Proof.
  induction k as [|k IH]; intros T U E L; [lia|]. destruct U as [| |[] J B]; simpl in L; try lia.
  destruct (is_type_param_kind J) eqn:EJ; [|lia]. destruct T as [| |[] J' B']; simpl in E; try discriminate. injection E as -> E. simpl. rewrite EJ.
  apply le_n_S. apply (IH B' B); auto. lia.
Qed.

(** the new variables for the fields *)
Lemma ptype_open_id g B x : ptype g B = true -> open_at 0 x B = B.
Proof. intros P. apply open_at_lc. apply (@ptype_lc K g B P). Qed.
Lemma field_vars_ok g n : forall c T r, ptype g T = true -> field_vars n c T = Some r -> r = fresh_vars c (pi_inputs T).
Proof.
  induction n as [|n IH]; intros c T r P E; [discriminate|]. cbn [field_vars] in E. destruct T as [a|f a|k J B]; try (injection E as <-; reflexivity).
  destruct k; try (injection E as <-; reflexivity). simpl in P. apply andb_true_iff in P. destruct P as [P1 P2].
  rewrite (ptype_not_kind _ _ P1), open_body_eq, (ptype_open_id g) in E by auto. unfold obind in E.
  destruct (field_vars n (push_type c J) B) as [[xs c']|] eqn:EF; [|discriminate]. injection E as <-. cbn [pi_inputs fresh_vars].
  rewrite <- (IH _ _ _ P2 EF). reflexivity.
Qed.
End Tidy.
