(** Trees that respect precedence are read back from their printed tokens. *)
From Coq Require Import List NArith ZArith Bool Lia.
Import ListNotations.
From Verif Require Import Scanner Expression ExpressionProofs ExpressionTokens ExpressionFuel.

(** ** The partial expressions of a tree *)
Fixpoint spine (e : expr) : list partial :=
  match e with
  | Unary t e => PUnary t :: spine e
  | Binary l t r => spine l ++ PBinary t :: spine r
  | Concatenation l g => spine l ++ [PImplicit (match g with Grouping t _ _ => t | _ => gen LeftParen end); PExpr g]
  | e => [PExpr e]
  end.
(** the precedence of an infix operator and whether it groups to the right *)
Definition infix (p : partial) : option (Z * bool) :=
  match p with
  | PBinary t => Some (binary_precedence (fst t), is_right_associative (fst t))
  | PImplicit _ => Some (binary_precedence Dot, false)
  | _ => None
  end.
(** the operators to the left (right) of one of precedence [z] bind tighter, or as tight where the grouping is that way *)
Definition left_ok (z : Z) (right_assoc : bool) (ps : list partial) : Prop :=
  (forall p z' b, In p ps -> infix p = Some (z', b) -> (z < z')%Z \/ (z = z' /\ right_assoc = false)) /\
  (forall t ps', ps = PUnary t :: ps' -> (z <= unary_precedence (fst t))%Z /\ (right_assoc = true -> (z < unary_precedence (fst t))%Z)).
Definition right_ok (z : Z) (right_assoc : bool) (ps : list partial) : Prop :=
  forall p z' b, In p ps -> infix p = Some (z', b) -> (z < z')%Z \/ (z = z' /\ right_assoc = true /\ b = true).
(** what may stand between the angle brackets of type parameters *)
Definition type_like (p : partial) : bool :=
  match p with
  | PBinary t => match fst t with Comma | RightArrow | Dot | Colon => true | _ => false end
  | PExpr e => could_be_part_of_type e
  | _ => false
  end.
(** what the parser wants of the operators of one level: [<] and [>] do not look like brackets, and there is one [implies] between commas *)
Definition level_ok (ps : list partial) : Prop :=
  (forall a x b y c, ps = a ++ PBinary x :: b ++ PBinary y :: c -> fst x = LessThan -> fst y = GreaterThan -> existsb (fun p => negb (type_like p)) b = true) /\
  check_implies false ps = true.
Definition operator_ok (ety : etype) (t : token_type) : bool :=
  match ety with
  | Value => is_binary t && negb (tt_eqb t Colon) && negb (tt_eqb t RightArrow)
  | _ => match t with Comma | RightArrow | Dot => true | _ => false end
  end.
Definition word (ety : etype) (t : token_type) : bool :=
  match t with Identifier | Axiom_ | Lib | Constraint_ => true | Numeral | True_ | False_ | SelfToken => negb (in_type ety) | _ => false end.

Inductive wf : etype -> expr -> Prop :=
| WWord ety (t : tok) : word ety (fst t) = true -> wf ety (Singleton t)
| WUnary (t : tok) e : is_unary (fst t) = true -> wf Value e -> right_ok (unary_precedence (fst t)) false (spine e) -> wf Value (Unary t e)
| WBinary ety l (t : tok) r : operator_ok ety (fst t) = true -> wf ety l -> wf ety r ->
    left_ok (binary_precedence (fst t)) (is_right_associative (fst t)) (spine l) ->
    right_ok (binary_precedence (fst t)) (is_right_associative (fst t)) (spine r) -> wf ety (Binary l t r)
| WCall ety l (lt : tok) e (rt : tok) : wf ety l -> left_ok (binary_precedence Dot) false (spine l) -> fst lt = LeftParen -> fst rt = RightParen -> wf ety e -> level_ok (spine e) ->
    wf ety (Concatenation l (Grouping lt e rt))
| WParams ety l (lt : tok) e (rt : tok) : wf ety l -> left_ok (binary_precedence Dot) false (spine l) -> fst lt = LeftBracket -> fst rt = RightBracket -> wf TypeArg e -> level_ok (spine e) ->
    wf ety (Concatenation l (Grouping lt e rt))
| WParen ety (lt : tok) e (rt : tok) : fst lt = LeftParen -> fst rt = RightParen -> wf ety e -> level_ok (spine e) -> wf ety (Grouping lt e rt)
| WBinder (t : tok) l e : match fst t with ForAll | Exists | Function_ | Choose => true | _ => false end = true ->
    (forall name ty, In (Typed name ty) l -> variable_name name = true /\ str_eqb (snd name) (to_str SelfToken) = false) ->
    (forall name ty, In (Typed name ty) l -> wf Typ ty) ->
    (forall name ty, In (Typed name ty) l -> level_ok (spine ty)) ->
    (forall name ty t, In (Typed name ty) l -> In (PBinary t) (spine ty) -> fst t <> Comma) ->
    (forall t, In (SelfDecl t) l -> variable_name t = true /\ str_eqb (snd t) (to_str SelfToken) = true) ->
    wf Value e -> level_ok (spine e) -> wf Value (Binder t l e (gen RightBrace))
| WIf c a b : wf Value c -> level_ok (spine c) -> wf Value a -> level_ok (spine a) -> wf Value b -> level_ok (spine b) ->
    wf Value (IfThenElse (gen If_) c a (Some b) (gen RightBrace)).

(** ** The largest key *)
Lemma key_le_refl k : key_le k k = true.
Proof. unfold key_le. rewrite Z.eqb_refl, Z.leb_refl. apply orb_true_r. Qed.
Lemma key_le_iff a b : key_le a b = true <-> (fst a < fst b \/ (fst a = fst b /\ snd a <= snd b))%Z.
Proof. unfold key_le. rewrite orb_true_iff, andb_true_iff, Z.ltb_lt, Z.eqb_eq, Z.leb_le. reflexivity. Qed.
Lemma best_spec len ps : forall i, match best_key len i ps with
  | None => forall j p, nth_error ps j = Some p -> key_of len (i + j) p = None
  | Some b => (exists j p, nth_error ps j = Some p /\ key_of len (i + j) p = Some b) /\
      forall j p k, nth_error ps j = Some p -> key_of len (i + j) p = Some k -> key_le k b = true
  end.
Proof.
  induction ps as [|p ps IH]; intros i; [intros [|j] q H; discriminate|]. cbn [best_key]. specialize (IH (S i)).
  destruct (key_of len i p) as [k|] eqn:Ek; destruct (best_key len (S i) ps) as [b|]; cbn [max_key].
  - destruct IH as [(j & q & J1 & J2) J3]. destruct (key_le k b) eqn:El.
    + split; [exists (S j), q; split; [exact J1|rewrite <- plus_n_Sm; exact J2]|]. intros [|j'] q' k' H1 H2.
      * cbn in H1. injection H1 as <-. rewrite Nat.add_0_r, Ek in H2. injection H2 as <-. exact El.
      * cbn in H1. rewrite <- plus_n_Sm in H2. exact (J3 j' q' k' H1 H2).
    + split; [exists 0, p; split; [reflexivity|rewrite Nat.add_0_r; exact Ek]|]. intros [|j'] q' k' H1 H2.
      * cbn in H1. injection H1 as <-. rewrite Nat.add_0_r, Ek in H2. injection H2 as <-. apply key_le_refl.
      * cbn in H1. rewrite <- plus_n_Sm in H2. pose proof (J3 j' q' k' H1 H2) as X. apply key_le_iff in X. apply key_le_iff.
        assert (Y : ~ (fst k < fst b \/ (fst k = fst b /\ snd k <= snd b))%Z) by (rewrite <- key_le_iff; congruence). lia.
  - split; [exists 0, p; split; [reflexivity|rewrite Nat.add_0_r; exact Ek]|]. intros [|j'] q' k' H1 H2.
    + cbn in H1. injection H1 as <-. rewrite Nat.add_0_r, Ek in H2. injection H2 as <-. apply key_le_refl.
    + cbn in H1. rewrite <- plus_n_Sm in H2. specialize (IH j' q' H1). cbn [plus] in IH. congruence.
  - destruct IH as [(j & q & J1 & J2) J3]. split; [exists (S j), q; split; [exact J1|rewrite <- plus_n_Sm; exact J2]|]. intros [|j'] q' k' H1 H2.
    + cbn in H1. injection H1 as <-. rewrite Nat.add_0_r in H2. congruence.
    + cbn in H1. rewrite <- plus_n_Sm in H2. exact (J3 j' q' k' H1 H2).
  - intros [|j'] q' H1.
    + cbn in H1. injection H1 as <-. rewrite Nat.add_0_r. exact Ek.
    + cbn in H1. rewrite <- plus_n_Sm. exact (IH j' q' H1).
Qed.
Lemma find_last_at ps j p k : nth_error ps j = Some p -> key_of (length ps) j p = Some k -> fst k <> 0%Z -> Z.abs_nat (snd k) = j ->
  (forall j' p' k', nth_error ps j' = Some p' -> key_of (length ps) j' p' = Some k' -> key_le k' k = true) ->
  find_last_operator ps = Ok (Some j).
Proof.
  intros H1 H2 H3 H4 H5. unfold find_last_operator. pose proof (best_spec (length ps) ps 0) as B. destruct (best_key (length ps) 0 ps) as [b|].
  - destruct B as [(j' & p' & J1 & J2) J3]. pose proof (H5 _ _ _ J1 J2) as X. pose proof (J3 _ _ _ H1 H2) as Y. apply key_le_iff in X, Y.
    assert (E : b = k) by (destruct b, k; cbn [fst snd] in *; f_equal; lia). subst b. destruct k as [z i]. cbn [fst snd] in *. apply Z.eqb_neq in H3. rewrite H3, H4. reflexivity.
  - specialize (B j p H1). cbn [plus] in B. congruence.
Qed.

(** ** The shape of the spine *)
Definition ends_in_expr (ps : list partial) : Prop := exists ps' e, ps = ps' ++ [PExpr e].
Definition starts_well (ps : list partial) : Prop := match ps with PExpr _ :: _ | PUnary _ :: _ => True | _ => False end.
Definition no_postfix (ps : list partial) : Prop := forall t, ~ In (PPostfix t) ps.
Lemma check_app a : forall e b, check_partials a = true -> ends_in_expr a -> check_partials (e :: b) = true -> check_partials (a ++ e :: b) = true.
Proof.
  induction a as [|x a IH]; intros e b H1 (ps' & y & E) H2; [destruct ps'; discriminate|]. destruct a as [|x' a].
  - destruct ps' as [|z ps']; [|destruct ps'; discriminate]. injection E as ->. cbn [app check_partials]. change (check_partials (e :: b) = true). exact H2.
  - cbn [app check_partials] in *. apply andb_true_iff in H1. destruct H1 as [H1 H1']. rewrite H1. cbn [andb]. apply IH; [exact H1'| |exact H2].
    destruct ps' as [|z ps']; [discriminate|]. injection E as -> E. exists ps', y. exact E.
Qed.
Lemma spine_shape ety e : wf ety e -> ends_in_expr (spine e) /\ starts_well (spine e) /\ check_partials (spine e) = true /\ no_postfix (spine e).
Proof.
  assert (S : forall e, ends_in_expr [PExpr e] /\ starts_well [PExpr e] /\ check_partials [PExpr e] = true /\ no_postfix [PExpr e]).
  { intros x. split; [exists [], x; reflexivity|]. split; [exact I|]. split; [reflexivity|]. intros t [H|[]]. discriminate. }
  assert (St : forall a b, starts_well a -> starts_well (a ++ b)) by (intros [|[] a] b H; first [exact H|destruct H]).
  induction 1; cbn [spine]; try apply S.
  - destruct IHwf as ((ps & y & E) & I2 & I3 & I4). rewrite E in *. split; [exists (PUnary t :: ps), y; reflexivity|]. split; [exact I|]. split.
    + destruct (ps ++ [PExpr y]) as [|q l] eqn:Eq; [reflexivity|]. cbn [check_partials] in *. destruct q; try (destruct I2); exact I3.
    + intros t' [X|X]; [discriminate|exact (I4 _ X)].
  - destruct IHwf1 as (L1 & L2 & L3 & L4), IHwf2 as ((ps & y & E) & R2 & R3 & R4). split; [exists (spine l ++ PBinary t :: ps), y; rewrite E, <- app_assoc; reflexivity|].
    split; [apply St; exact L2|]. split.
    + apply check_app; [exact L3|exact L1|]. destruct (spine r) as [|q s]; [reflexivity|]. cbn [check_partials] in *. destruct q; try (destruct R2); exact R3.
    + intros t' X. apply in_app_iff in X. destruct X as [X|[X|X]]; [exact (L4 _ X)|discriminate|exact (R4 _ X)].
  - destruct IHwf1 as (L1 & L2 & L3 & L4). split; [eexists (spine l ++ [_]), _; rewrite <- app_assoc; reflexivity|]. split; [apply St; exact L2|]. split.
    + apply check_app; auto.
    + intros t' X. apply in_app_iff in X. destruct X as [X|[X|[X|[]]]]; [exact (L4 _ X)|discriminate|discriminate].
  - destruct IHwf1 as (L1 & L2 & L3 & L4). split; [eexists (spine l ++ [_]), _; rewrite <- app_assoc; reflexivity|]. split; [apply St; exact L2|]. split.
    + apply check_app; auto.
    + intros t' X. apply in_app_iff in X. destruct X as [X|[X|[X|[]]]]; [exact (L4 _ X)|discriminate|discriminate].
Qed.

(** ** Combining the spine gives the tree *)
Lemma infix_key len i p z b : infix p = Some (z, b) -> key_of len i p = Some (- z, if b then - Z.of_nat i else Z.of_nat i)%Z.
Proof. destruct p; try discriminate; cbn; intros H; injection H as <- <-; reflexivity. Qed.
Lemma key_cases len i p k : key_of len i p = Some k -> (forall t, p <> PPostfix t) ->
  (exists z b, infix p = Some (z, b) /\ k = (- z, if b then - Z.of_nat i else Z.of_nat i)%Z) \/ (exists t, p = PUnary t /\ i = 0 /\ k = (- unary_precedence (fst t), 0)%Z).
Proof.
  intros H N. destruct p; cbn in H; try discriminate.
  - right. destruct i; [|discriminate]. injection H as <-. eauto.
  - destruct (N t eq_refl).
  - left. injection H as <-. eexists _, _. split; reflexivity.
  - left. injection H as <-. eexists _, _. split; reflexivity.
Qed.
Lemma nth_app {A} (a : list A) x b j y : nth_error (a ++ x :: b) j = Some y ->
  (j < length a /\ In y a /\ nth_error a j = Some y) \/ (j = length a /\ y = x) \/ (length a < j /\ In y b).
Proof.
  intros H. destruct (lt_eq_lt_dec j (length a)) as [[L|L]|L].
  - left. rewrite nth_error_app1 in H by exact L. split; [exact L|]. split; [exact (nth_error_In _ _ H)|exact H].
  - right; left. subst j. rewrite nth_error_app2, Nat.sub_diag in H by lia. cbn in H. injection H as <-. auto.
  - right; right. split; [exact L|]. rewrite nth_error_app2 in H by lia. destruct (j - length a) as [|m] eqn:E; [lia|]. cbn [nth_error] in H. exact (nth_error_In _ _ H).
Qed.
Lemma find_last_infix l p r z b : infix p = Some (z, b) -> (0 < z)%Z -> no_postfix l -> no_postfix r -> left_ok z b l -> right_ok z b r ->
  find_last_operator (l ++ p :: r) = Ok (Some (length l)).
Proof.
  intros Hp Hz Nl Nr [Ll Ll'] Lr. eapply find_last_at with (p := p).
  - rewrite nth_error_app2, Nat.sub_diag by lia. reflexivity.
  - apply infix_key. exact Hp.
  - cbn [fst]. lia.
  - cbn [snd]. destruct b; lia.
  - intros j' p' k' H1 H2. apply key_le_iff. cbn [fst snd].
    assert (NP : forall t, p' <> PPostfix t).
    { intros t ->. apply nth_error_In, in_app_iff in H1. destruct H1 as [H1|[H1|H1]]; [exact (Nl _ H1)|rewrite H1 in Hp; discriminate|exact (Nr _ H1)]. }
    apply nth_app in H1. destruct (key_cases _ _ _ _ H2 NP) as [(z' & b' & Hi & ->)|(t & -> & -> & ->)]; cbn [fst snd].
    + destruct H1 as [(J1 & J2 & _)|[(J1 & ->)|(J1 & J2)]].
      * destruct (Ll _ _ _ J2 Hi) as [X|(-> & ->)]; [lia|]. destruct b'; lia.
      * rewrite Hp in Hi. injection Hi as <- <-. subst j'. destruct b; lia.
      * destruct (Lr _ _ _ J2 Hi) as [X|(-> & -> & ->)]; lia.
    + destruct H1 as [(J1 & J2 & J3)|[(J1 & <-)|(J1 & J2)]]; [|discriminate Hp|lia]. destruct l as [|q l]; [destruct J2|]. cbn in J3. injection J3 as ->.
      destruct (Ll' t l eq_refl) as [X Y]. destruct b; [specialize (Y eq_refl); lia|]. lia.
Qed.
Lemma find_last_unary t ps : (0 < unary_precedence (fst t))%Z -> no_postfix ps -> right_ok (unary_precedence (fst t)) false ps ->
  find_last_operator (PUnary t :: ps) = Ok (Some 0).
Proof.
  intros Hz N R. eapply find_last_at with (p := PUnary t); [reflexivity|reflexivity|cbn; lia|reflexivity|].
  intros [|j'] p' k' H1 H2; cbn in H1.
  - injection H1 as <-. cbn in H2. injection H2 as <-. apply key_le_refl.
  - apply key_le_iff. cbn [fst snd]. assert (NP : forall t, p' <> PPostfix t) by (intros t' ->; apply nth_error_In in H1; exact (N _ H1)).
    destruct (key_cases _ _ _ _ H2 NP) as [(z' & b' & Hi & ->)|(t' & -> & X & _)]; [|discriminate]. cbn [fst snd]. apply nth_error_In in H1.
    destruct (R _ _ _ H1 Hi) as [X|(_ & X & _)]; [lia|discriminate].
Qed.

Lemma combine_two n ety p q ps : combine (S n) ety (p :: q :: ps) =
  let l := p :: q :: ps in
  let* o := find_last_operator l in
  match o with
  | Some index =>
    if Nat.eqb index 0 then
      match p with
      | PUnary t => let* e := combine n ety (q :: ps) in Ok (Unary t e)
      | _ => Err
      end
    else if Nat.eqb index (length l - 1) then
      match back l with
      | Some (PPostfix t) => let* e := combine n ety (removelast l) in Ok (Unary t e)
      | _ => Err
      end
    else
      match skipn index l with
      | PBinary t :: others =>
        if (match ety with Value => true | _ => false end) && tt_eqb (fst t) RightArrow then Err
        else
          let* l := combine n ety (firstn index l) in
          let* r := combine n ety others in
          Ok (Binary l t r)
      | PImplicit _ :: others =>
        let* l := combine n ety (firstn index l) in
        let* r := combine n ety others in
        Ok (Concatenation l r)
      | _ => Err
      end
  | None => match p with PExpr e => apply_groups e (q :: ps) | _ => Err end
  end.
Proof. cbn [combine]. destruct p; reflexivity. Qed.
Lemma combine_infix n ety l p r a b : l <> [] -> r <> [] -> find_last_operator (l ++ p :: r) = Ok (Some (length l)) ->
  combine n ety l = Ok a -> combine n ety r = Ok b ->
  combine (S n) ety (l ++ p :: r) = match p with
    | PBinary t => if (match ety with Value => true | _ => false end) && tt_eqb (fst t) RightArrow then Err else Ok (Binary a t b)
    | PImplicit _ => Ok (Concatenation a b)
    | _ => Err
    end.
Proof.
  intros Hl Hr Hf Ha Hb. destruct l as [|x l]; [congruence|]. destruct r as [|y r]; [congruence|].
  assert (E : exists q ps, (x :: l) ++ p :: y :: r = x :: q :: ps) by (destruct l; eexists _, _; reflexivity). destruct E as (q & ps & E). rewrite E, combine_two, <- E. cbv zeta.
  rewrite Hf. cbn [pbind]. change (Nat.eqb (length (x :: l)) 0) with false. cbv iota.
  assert (X : Nat.eqb (length (x :: l)) (length ((x :: l) ++ p :: y :: r) - 1) = false) by (apply Nat.eqb_neq; rewrite app_length; cbn [length]; lia).
  rewrite X. rewrite skipn_app, Nat.sub_diag, skipn_all, firstn_app, Nat.sub_diag, firstn_all. cbn [app skipn firstn]. rewrite app_nil_r. rewrite Ha, Hb.
  destruct p; reflexivity.
Qed.
Lemma operator_positive ety t : operator_ok ety t = true -> (0 < binary_precedence t)%Z.
Proof. destruct ety, t; cbn; intros H; try discriminate; lia. Qed.
Lemma unary_positive t : is_unary t = true -> (0 < unary_precedence t)%Z.
Proof. destruct t; cbn; intros H; try discriminate; lia. Qed.
Lemma spine_some e : spine e <> [].
Proof.
  assert (X : forall (a : list partial) x b, a ++ x :: b <> []) by (intros [|? a] x b; discriminate).
  destruct e; cbn [spine]; try discriminate; apply X.
Qed.
Lemma combine_ple n : forall m ety ps, n <= m -> ple (combine n ety ps) (combine m ety ps).
Proof.
  induction n as [|n IH]; intros m ety ps L; [left; reflexivity|]. destruct m as [|m]; [lia|]. apply le_S_n in L.
  destruct ps as [|p [|q ps]]; [apply ple_refl|right; reflexivity|]. rewrite !combine_two. cbv zeta. set (l := p :: q :: ps) in *.
  apply pbind_le; [apply ple_refl|]. intros [i|]; [|apply ple_refl]. destruct (Nat.eqb i 0).
  { destruct p; try apply ple_refl. apply pbind_le; [apply IH; exact L|intros; apply ple_refl]. }
  destruct (Nat.eqb i (length l - 1)).
  { destruct (back l) as [[| |t| |]|]; try apply ple_refl. apply pbind_le; [apply IH; exact L|intros; apply ple_refl]. }
  destruct (skipn i l) as [|[| | |t|t] others]; try apply ple_refl.
  - destruct (_ && _); [apply ple_refl|]. apply pbind_le; [apply IH; exact L|]. intros. apply pbind_le; [apply IH; exact L|intros; apply ple_refl].
  - apply pbind_le; [apply IH; exact L|]. intros. apply pbind_le; [apply IH; exact L|intros; apply ple_refl].
Qed.
Lemma combine_more n m ety ps e : n <= m -> combine n ety ps = Ok e -> combine m ety ps = Ok e.
Proof. intros L H. destruct (combine_ple n m ety ps L) as [X|X]; congruence. Qed.
Lemma combine_spine ety e : wf ety e -> exists n, combine n ety (spine e) = Ok e.
Proof.
  induction 1; cbn [spine]; try (exists 1; reflexivity).
  - destruct IHwf as (n & Hn). destruct (spine_shape _ _ H0) as (_ & _ & _ & N). exists (S n). pose proof (spine_some e) as Se.
    pose proof (find_last_unary t (spine e) (unary_positive _ H) N H1) as F. destruct (spine e) as [|q ps]; [congruence|]. rewrite combine_two. cbv zeta. rewrite F. cbn [pbind Nat.eqb].
    rewrite Hn. reflexivity.
  - destruct IHwf1 as (n1 & L), IHwf2 as (n2 & R). destruct (spine_shape _ _ H0) as (_ & _ & _ & N1). destruct (spine_shape _ _ H1) as (_ & _ & _ & N2).
    exists (S (n1 + n2)). rewrite (combine_infix (n1 + n2) ety (spine l) (PBinary t) (spine r) l r).
    + destruct ety; try reflexivity. destruct (fst t); try discriminate H; reflexivity.
    + apply spine_some.
    + apply spine_some.
    + apply (find_last_infix _ _ _ (binary_precedence (fst t)) (is_right_associative (fst t))); auto. exact (operator_positive _ _ H).
    + apply (combine_more n1); [lia|exact L].
    + apply (combine_more n2); [lia|exact R].
  - destruct IHwf1 as (n1 & L). destruct (spine_shape _ _ H) as (_ & _ & _ & N1). exists (S (S n1)).
    rewrite (combine_infix (S n1) ety (spine l) (PImplicit lt) [PExpr (Grouping lt e rt)] l (Grouping lt e rt)); [reflexivity|apply spine_some|discriminate| | |reflexivity].
    + apply (find_last_infix _ _ _ (binary_precedence Dot) false); auto; try reflexivity; [intros t [X|[]]; discriminate|intros p z' b [<-|[]]; discriminate].
    + apply (combine_more n1); [lia|exact L].
  - destruct IHwf1 as (n1 & L). destruct (spine_shape _ _ H) as (_ & _ & _ & N1). exists (S (S n1)).
    rewrite (combine_infix (S n1) ety (spine l) (PImplicit lt) [PExpr (Grouping lt e rt)] l (Grouping lt e rt)); [reflexivity|apply spine_some|discriminate| | |reflexivity].
    + apply (find_last_infix _ _ _ (binary_precedence Dot) false); auto; try reflexivity; [intros t [X|[]]; discriminate|intros p z' b [<-|[]]; discriminate].
    + apply (combine_more n1); [lia|exact L].
Qed.

(** ** Reading the tokens of a tree gives its spine *)
Lemma parse_more n m ety tm ts r : n <= m -> parse n ety tm ts = Ok r -> parse m ety tm ts = Ok r.
Proof. intros L H. destruct (more_fuel n m L) as (X & _). destruct (X ety tm ts) as [Y|Y]; congruence. Qed.
Lemma partials_more n m ety tm acc ts r : n <= m -> partials n ety tm acc ts = Ok r -> partials m ety tm acc ts = Ok r.
Proof. intros L H. destruct (more_fuel n m L) as (_ & X & _). destruct (X ety tm acc ts) as [Y|Y]; congruence. Qed.
Lemma declarations_more n m ts r : n <= m -> declarations n ts = Ok r -> declarations m ts = Ok r.
Proof. intros L H. destruct (more_fuel n m L) as (_ & _ & X & _). destruct (X ts) as [Y|Y]; congruence. Qed.
Lemma block_more n m ts r : n <= m -> value_block n ts = Ok r -> value_block m ts = Ok r.
Proof. intros L H. destruct (more_fuel n m L) as (_ & _ & _ & _ & X & _). destruct (X ts) as [Y|Y]; congruence. Qed.
Definition Parse ety tm ts r := exists n, parse n ety tm ts = Ok r.
Definition Run ety tm acc ts r := exists n, partials n ety tm acc ts = Ok r.
Definition Decls ts r := exists n, declarations n ts = Ok r.
Definition Block ts r := exists n, value_block n ts = Ok r.

(** the type of the first token of a partial expression *)
Definition ptype (p : partial) : token_type :=
  match p with
  | PUnary t | PPostfix t | PBinary t | PImplicit t => fst t
  | PExpr (Singleton t) | PExpr (Grouping t _ _) | PExpr (Binder t _ _ _) | PExpr (IfThenElse t _ _ _ _) => fst t
  | _ => Invalid
  end.
Definition tops (tm : list token_type) (ps : list partial) : Prop := forall p, In p ps -> matches tm (ptype p) = false.
Lemma tops_app tm a b : tops tm (a ++ b) <-> tops tm a /\ tops tm b.
Proof.
  unfold tops. split; [intros H; split; intros p X; apply H, in_app_iff; auto|]. intros [A B] p X. apply in_app_iff in X. destruct X; auto.
Qed.
Lemma operator_not_closer ety t : operator_ok ety t = true -> closer t = false /\ t <> NewLine.
Proof. destruct ety, t; cbn; intros H; try discriminate; split; reflexivity || discriminate. Qed.
Lemma unary_not_closer t : is_unary t = true -> closer t = false /\ t <> NewLine.
Proof. destruct t; cbn; intros H; try discriminate; split; reflexivity || discriminate. Qed.
Lemma word_not_closer ety t : word ety t = true -> closer t = false /\ t <> NewLine.
Proof. destruct t; cbn; intros H; try discriminate; split; reflexivity || discriminate. Qed.
Lemma spine_tops ety e : wf ety e -> forall p, In p (spine e) -> closer (ptype p) = false /\ ptype p <> NewLine.
Proof.
  induction 1; cbn [spine]; intros p Hp.
  - destruct Hp as [<-|[]]. exact (word_not_closer _ _ H).
  - destruct Hp as [<-|Hp]; [exact (unary_not_closer _ H)|auto].
  - apply in_app_iff in Hp. destruct Hp as [Hp|[<-|Hp]]; auto. exact (operator_not_closer _ _ H).
  - apply in_app_iff in Hp. destruct Hp as [Hp|[<-|[<-|[]]]]; auto; cbn; rewrite H1; split; reflexivity || discriminate.
  - apply in_app_iff in Hp. destruct Hp as [Hp|[<-|[<-|[]]]]; auto; cbn; rewrite H1; split; reflexivity || discriminate.
  - destruct Hp as [<-|[]]. cbn. rewrite H. split; reflexivity || discriminate.
  - destruct Hp as [<-|[]]. cbn. destruct (fst t); try discriminate H; split; reflexivity || discriminate.
  - destruct Hp as [<-|[]]. cbn. split; reflexivity || discriminate.
Qed.
Lemma spine_comma ety e : wf ety e -> forall p, In p (spine e) -> ptype p = Comma -> exists t, p = PBinary t /\ fst t = Comma.
Proof.
  induction 1; cbn [spine]; intros p Hp C.
  - destruct Hp as [<-|[]]. cbn in C. rewrite C in H. discriminate.
  - destruct Hp as [<-|Hp]; [cbn in C; rewrite C in H; discriminate|auto].
  - apply in_app_iff in Hp. destruct Hp as [Hp|[<-|Hp]]; eauto.
  - apply in_app_iff in Hp. destruct Hp as [Hp|[<-|[<-|[]]]]; auto; cbn in C; congruence.
  - apply in_app_iff in Hp. destruct Hp as [Hp|[<-|[<-|[]]]]; auto; cbn in C; congruence.
  - destruct Hp as [<-|[]]. cbn in C. congruence.
  - destruct Hp as [<-|[]]. cbn in C. rewrite C in H. discriminate.
  - destruct Hp as [<-|[]]. discriminate.
Qed.
(** terminators that are no part of expressions *)
Definition outer (tm : list token_type) : Prop := forall t, matches tm t = true -> closer t = true \/ t = NewLine.
Lemma outer_tops tm ety e : wf ety e -> outer tm -> tops tm (spine e).
Proof. intros W O p Hp. destruct (spine_tops _ _ W p Hp) as [A B]. destruct (matches tm (ptype p)) eqn:E; [|reflexivity]. destruct (O _ E); congruence. Qed.
Lemma outer_one t : closer t = true -> outer [t].
Proof. intros H x X. apply matches_one in X. subst. auto. Qed.
Lemma flat_head ety e : wf ety e -> exists x q, flat e = x :: q /\ nl x = false.
Proof.
  induction 1; cbn [flat]; try (eexists _, _; split; [reflexivity|]).
  - destruct (word_not_closer _ _ H) as [_ X]. apply tt_eqb_neq. exact X.
  - assert (P : is_postfix (fst t) = false) by (destruct (fst t); try discriminate H; reflexivity). rewrite P. eexists _, _. split; [reflexivity|].
    destruct (unary_not_closer _ H) as [_ X]. apply tt_eqb_neq. exact X.
  - destruct IHwf1 as (x & q & -> & X). eexists _, _. split; [reflexivity|exact X].
  - destruct IHwf1 as (x & q & -> & X). eexists _, _. split; [reflexivity|exact X].
  - destruct IHwf1 as (x & q & -> & X). eexists _, _. split; [reflexivity|exact X].
  - apply (nl_type _ _ H). discriminate.
  - unfold nl. destruct (fst t); try discriminate H; reflexivity.
  - reflexivity.
Qed.
Lemma skip_flat ety e rest : wf ety e -> skip_newlines (flat e ++ rest) = flat e ++ rest.
Proof. intros W. destruct (flat_head _ _ W) as (x & q & -> & X). apply skip_id. exact X. Qed.

Lemma no_type_params ps :
  (forall a x b y c, ps = a ++ PBinary x :: b ++ PBinary y :: c -> fst x = LessThan -> fst y = GreaterThan -> existsb (fun p => negb (type_like p)) b = true) -> find_type_params ps = None.
Proof.
  assert (L : forall r k, looks_like_type_params r = Some k -> exists b y c, r = b ++ PBinary y :: c /\ fst y = GreaterThan /\ existsb (fun p => negb (type_like p)) b = false).
  { induction r as [|p r IH]; intros k H; [discriminate|]. cbn in H.
    assert (N : option_map S (looks_like_type_params r) = Some k -> type_like p = true ->
      exists b y c, p :: r = b ++ PBinary y :: c /\ fst y = GreaterThan /\ existsb (fun p => negb (type_like p)) b = false).
    { intros X T. destruct (looks_like_type_params r) as [k'|]; [|discriminate]. destruct (IH k' eq_refl) as (b & y & c & -> & Y & Z). exists (p :: b), y, c. cbn [existsb].
      rewrite T, Z. auto. }
    destruct p; try discriminate; [destruct (could_be_part_of_type e) eqn:Ec; [auto|discriminate]|].
    cbn [type_like] in N. destruct (fst t) eqn:E; try discriminate; auto. exists [], t, r. auto. }
  induction ps as [|p ps IH]; intros H; [reflexivity|]. cbn [find_type_params].
  assert (N : find_type_params ps = None). { apply IH. intros a x b y c E. apply (H (p :: a) x b y c). rewrite E. reflexivity. }
  rewrite N. destruct p; try reflexivity. destruct (tt_eqb (fst t) LessThan) eqn:Et; [|reflexivity]. apply tt_eqb_eq in Et.
  destruct (looks_like_type_params ps) as [k|] eqn:El; [|reflexivity]. destruct (L _ _ El) as (b & y & c & -> & Y & Z). rewrite (H [] t b y c eq_refl Et Y) in Z. discriminate.
Qed.
Lemma run_parse ety tm e (t : tok) (rest : list tok) : wf ety e -> level_ok (spine e) -> matches tm (fst t) = true ->
  (Run ety tm (spine e) (t :: rest) (spine e, t, rest) -> Run ety tm [] (flat e ++ t :: rest) (spine e, t, rest)) ->
  Parse ety tm (flat e ++ t :: rest) (e, t, rest).
Proof.
  intros W [A I] M R. destruct R as (n & Hn). { exists 1. rewrite partials_S. unfold partials_step. cbv zeta. rewrite M. reflexivity. }
  exists (S n). rewrite parse_S. unfold parse_step. rewrite Hn. cbn [pbind group_type_parameters]. rewrite (no_type_params _ A). cbn [pbind].
  destruct (spine_shape _ _ W) as (_ & _ & C & _). rewrite C, I, orb_true_r. cbn [andb]. destruct (combine_spine _ _ W) as (k & K).
  assert (X : combine_partials ety (spine e) = Ok e).
  { unfold combine_partials. pose proof (combine_fuel (S (length (spine e))) ety (spine e) (le_n _)) as F.
    apply (combine_more _ (k + S (length (spine e)))) in K; [|lia].
    destruct (combine_ple (S (length (spine e))) (k + S (length (spine e))) ety (spine e)) as [X|X]; [lia|congruence|congruence]. }
  rewrite X. reflexivity.
Qed.

Lemma ends_app acc ps : ends_in_expr ps -> ends_with_expr (acc ++ ps) = true.
Proof. intros (ps' & e & ->). rewrite app_assoc. unfold ends_with_expr. rewrite back_app. reflexivity. Qed.
Lemma ends_unary acc t : ends_with_expr (acc ++ [PUnary t]) = false.
Proof. unfold ends_with_expr. rewrite back_app. reflexivity. Qed.
Lemma ends_binary acc t : ends_with_expr (acc ++ [PBinary t]) = false.
Proof. unfold ends_with_expr. rewrite back_app. reflexivity. Qed.

(** one step *)
Lemma run_group n ety tm acc (t : tok) ety' close e (rt : tok) (rest : list tok) r : matches tm (fst t) = false ->
  (forall k, parse k ety' [close] (flat e ++ rt :: rest) = Ok (e, rt, rest) ->
    partials (S k) ety tm acc (t :: flat e ++ rt :: rest) = partials k ety tm (acc ++ n) rest) ->
  Parse ety' [close] (flat e ++ rt :: rest) (e, rt, rest) -> Run ety tm (acc ++ n) rest r -> Run ety tm acc (t :: flat e ++ rt :: rest) r.
Proof.
  intros M Hs (k1 & H1) (k2 & H2). exists (S (k1 + k2)). rewrite Hs; [apply (partials_more k2); [lia|exact H2]|apply (parse_more k1); [lia|exact H1]].
Qed.
Lemma run_one n ety tm acc (t : tok) (rest : list tok) r : (forall k, partials (S k) ety tm acc (t :: rest) = partials k ety tm (acc ++ n) rest) ->
  Run ety tm (acc ++ n) rest r -> Run ety tm acc (t :: rest) r.
Proof. intros Hs (k & H). exists (S k). rewrite Hs. exact H. Qed.

Definition runs (ety : etype) (e : expr) : Prop := forall tm acc rest r, ends_with_expr acc = false -> tops tm (spine e) ->
  Run ety tm (acc ++ spine e) rest r -> Run ety tm acc (flat e ++ rest) r.
Lemma runs_parse ety e tm (t : tok) (rest : list tok) : wf ety e -> level_ok (spine e) -> runs ety e -> tops tm (spine e) -> matches tm (fst t) = true -> Parse ety tm (flat e ++ t :: rest) (e, t, rest).
Proof. intros W L R T M. apply run_parse; auto. Qed.
Lemma runs_block e rest : wf Value e -> level_ok (spine e) -> runs Value e -> Block (flat e ++ gen RightBrace :: rest) (e, gen RightBrace, rest).
Proof.
  intros W L R. destruct (runs_parse Value e [RightBrace] (gen RightBrace) rest W L R) as (n & H); [apply (outer_tops _ _ _ W), outer_one; reflexivity|reflexivity|].
  exists (S n). rewrite value_block_S. unfold value_block_step. cbv zeta. rewrite (skip_flat _ _ _ W). destruct (flat_head _ _ W) as (x & q & E & Nx). rewrite E in *. cbn [app peeks] in *.
  destruct (tt_eqb (fst x) Let) eqn:El; [|exact H]. apply tt_eqb_eq in El. apply starts in H; [|rewrite El; reflexivity]. tauto.
Qed.
Lemma decls_run l : forall rest, l <> [] ->
  (forall name ty, In (Typed name ty) l -> variable_name name = true /\ str_eqb (snd name) (to_str SelfToken) = false) ->
  (forall name ty (rest : list tok) (t : tok), In (Typed name ty) l -> fst t = Comma \/ fst t = RightParen -> Parse Typ [Comma; RightParen] (flat ty ++ t :: rest) (ty, t, rest)) ->
  (forall t, In (SelfDecl t) l -> variable_name t = true /\ str_eqb (snd t) (to_str SelfToken) = true) ->
  Decls (commas (map decl_flat l) ++ gen RightParen :: rest) (l, rest).
Proof.
  induction l as [|d l IH]; intros rest N H1 H2 H3; [congruence|].
  assert (D : forall (last : tok) (rest' : list tok), fst last = Comma \/ fst last = RightParen -> exists (name : tok) (r : list tok), decl_flat d ++ last :: rest' = name :: r /\ variable_name name = true /\
    exists k, forall m, k <= m -> (if str_eqb (snd name) (to_str SelfToken) then
         match r with
         | last :: ts => if matches [Comma; RightParen] (fst last) then Ok (SelfDecl name, last, ts) else Err
         | [] => Err
         end
       else
         let* (_, ts) := expect Colon r in
         let* (e, last, ts) := parse m Typ [Comma; RightParen] ts in
         Ok (Typed name e, last, ts)) = Ok (d, last, rest')).
  { intros last rest' Hl. destruct d as [name ty|t].
    - destruct (H1 name ty (or_introl eq_refl)) as [V Hs]. exists name, (gen Colon :: flat ty ++ last :: rest'). split; [reflexivity|]. split; [exact V|]. rewrite Hs.
      destruct (H2 name ty rest' last (or_introl eq_refl) Hl) as (k & K). exists k. intros m Lm. cbn [app]. rewrite (expect_here Colon) by reflexivity. cbn [pbind].
      rewrite (parse_more k m _ _ _ _ Lm K). reflexivity.
    - destruct (H3 t (or_introl eq_refl)) as [V Hs]. exists t, (last :: rest'). split; [reflexivity|]. split; [exact V|]. rewrite Hs. exists 0. intros m _. cbn [app].
      destruct Hl as [-> | ->]; reflexivity. }
  destruct l as [|d' l].
  - destruct (D (gen RightParen) rest (or_intror eq_refl)) as (name & r & E & V & k & K). exists (S k). cbn [map commas]. rewrite E. rewrite declarations_S. unfold declarations_step.
    rewrite V. cbn [negb]. rewrite (K k (le_n _)). reflexivity.
  - destruct (IH rest) as (k2 & K2); [discriminate|intros; apply (H1 name ty); right; assumption|intros; apply (H2 name ty); [right; assumption|assumption]|intros; apply H3; right; assumption|].
    cbn [map]. rewrite commas_cons by discriminate. rewrite <- app_assoc. cbn [app].
    set (tail := commas (decl_flat d' :: map decl_flat l) ++ gen RightParen :: rest) in *.
    destruct (D (gen Comma) tail (or_introl eq_refl)) as (name & r & E & V & k & K). exists (S (k + k2)). rewrite E. rewrite declarations_S. unfold declarations_step.
    rewrite V. cbn [negb]. rewrite (K (k + k2)) by lia. cbn [pbind]. change (tt_eqb (fst (gen Comma)) RightParen) with false. cbv iota.
    assert (Sk : skip_newlines tail = tail).
    { destruct k2 as [|k2]; [discriminate|]. cbn [map] in K2. fold tail in K2. rewrite declarations_S in K2. unfold declarations_step in K2. destruct tail as [|y z]; [discriminate|].
      apply skip_id. destruct (variable_name y) eqn:Vy; [|discriminate]. apply variable_name_nl. exact Vy. }
    rewrite Sk. rewrite (declarations_more k2 (k + k2) tail _ ltac:(lia) K2). reflexivity.
Qed.

Lemma wf_runs ety e : wf ety e -> runs ety e.
Proof.
  induction 1; intros tm acc rest r0 Hacc T R; cbn [spine flat] in *.
  - (* word *)
    cbn [app]. apply (run_one [PExpr (Singleton t)]); [|exact R]. intros k. rewrite partials_S. unfold partials_step. cbv zeta.
    pose proof (T _ (or_introl eq_refl)) as M. cbn [ptype] in M. rewrite M. destruct t as [ty tx]. cbn [fst] in *. destruct ty; try discriminate H; destruct ety; try discriminate H; reflexivity.
  - (* unary *)
    assert (P : is_postfix (fst t) = false) by (destruct (fst t); try discriminate H; reflexivity). rewrite P. cbn [app].
    apply (run_one [PUnary t]).
    + intros k. rewrite partials_S. unfold partials_step. cbv zeta. pose proof (T _ (or_introl eq_refl)) as M. cbn [ptype] in M. rewrite M.
      rewrite Hacc. destruct (fst t); try discriminate H; reflexivity.
    + apply IHwf; [apply ends_unary|intros p Hp; apply T; right; exact Hp|]. rewrite <- app_assoc. exact R.
  - (* binary *)
    apply tops_app in T. destruct T as [T1 T2]. rewrite <- app_assoc. cbn [app]. apply IHwf1; [exact Hacc|exact T1|].
    destruct (spine_shape _ _ H0) as (S1 & _).
    apply (run_one [PBinary t]).
    + intros k. rewrite partials_S. unfold partials_step. cbv zeta. pose proof (T2 _ (or_introl eq_refl)) as M. cbn [ptype] in M. rewrite M.
      rewrite (skip_flat _ _ _ H1), (ends_app _ _ S1). destruct ety; destruct (fst t); try discriminate H; reflexivity.
    + apply IHwf2; [apply ends_binary|intros p Hp; apply T2; right; exact Hp|]. rewrite <- !app_assoc. exact R.
  - (* call *)
    apply tops_app in T. destruct T as [T1 T2]. rewrite <- !app_assoc. cbn [app]. apply IHwf1; [exact Hacc|exact T1|]. destruct (spine_shape _ _ H) as (S1 & _).
    pose proof (T2 _ (or_introl eq_refl)) as M. cbn [ptype] in M. cbn [app]. rewrite <- app_assoc. cbn [app].
    assert (PP : Parse ety [RightParen] (flat e ++ rt :: rest) (e, rt, rest)).
    { apply runs_parse; auto; [apply (outer_tops _ _ _ H3), outer_one; reflexivity|rewrite H2; reflexivity]. }
    apply (run_group [PImplicit lt; PExpr (Grouping lt e rt)] ety tm (acc ++ spine l) lt ety RightParen e rt rest r0); [exact M| |exact PP|rewrite <- app_assoc; exact R].
    intros k Hk. rewrite partials_S. unfold partials_step. cbv zeta. rewrite M, (ends_app _ _ S1). rewrite H1. cbn [tt_eqb tt_index N.eqb Pos.eqb is_binary is_unary is_postfix andb].
    destruct (in_value ety); [|rewrite Hk; reflexivity].
    destruct (flat e ++ rt :: rest) as [|op [|rp q]] eqn:El; [rewrite Hk; reflexivity|rewrite Hk; reflexivity|].
    destruct (is_operator_ref (fst op) && tt_eqb (fst rp) RightParen) eqn:Ek; [|rewrite Hk; reflexivity]. exfalso. apply andb_true_iff in Ek. destruct Ek as [Ek1 Ek2].
    apply tt_eqb_eq in Ek2. exact (operator_alone _ _ _ _ _ _ Ek1 Ek2 Hk).
  - (* type arguments *)
    apply tops_app in T. destruct T as [T1 T2]. rewrite <- !app_assoc. cbn [app]. apply IHwf1; [exact Hacc|exact T1|]. destruct (spine_shape _ _ H) as (S1 & _).
    pose proof (T2 _ (or_introl eq_refl)) as M. cbn [ptype] in M. cbn [app]. rewrite <- app_assoc. cbn [app].
    assert (PP : Parse TypeArg [RightBracket] (flat e ++ rt :: rest) (e, rt, rest)).
    { apply runs_parse; auto; [apply (outer_tops _ _ _ H3), outer_one; reflexivity|rewrite H2; reflexivity]. }
    apply (run_group [PImplicit lt; PExpr (Grouping lt e rt)] ety tm (acc ++ spine l) lt TypeArg RightBracket e rt rest r0); [exact M| |exact PP|rewrite <- app_assoc; exact R].
    intros k Hk. rewrite partials_S. unfold partials_step. cbv zeta. rewrite M, H1. cbn [tt_eqb tt_index N.eqb Pos.eqb]. rewrite Hk. reflexivity.
  - (* parentheses *)
    pose proof (T _ (or_introl eq_refl)) as M. cbn [ptype] in M. cbn [app]. rewrite <- app_assoc. cbn [app].
    assert (PP : Parse ety [RightParen] (flat e ++ rt :: rest) (e, rt, rest)).
    { apply runs_parse; auto; [apply (outer_tops _ _ _ H1), outer_one; reflexivity|rewrite H0; reflexivity]. }
    apply (run_group [PExpr (Grouping lt e rt)] ety tm acc lt ety RightParen e rt rest r0); [exact M| |exact PP|exact R].
    intros k Hk. rewrite partials_S. unfold partials_step. cbv zeta. rewrite M, Hacc. rewrite H. cbn [tt_eqb tt_index N.eqb Pos.eqb is_binary is_unary is_postfix andb].
    destruct (in_value ety); [|rewrite Hk; reflexivity].
    destruct (flat e ++ rt :: rest) as [|op [|rp q]] eqn:El; [rewrite Hk; reflexivity|rewrite Hk; reflexivity|].
    destruct (is_operator_ref (fst op) && tt_eqb (fst rp) RightParen) eqn:Ek; [|rewrite Hk; reflexivity]. exfalso. apply andb_true_iff in Ek. destruct Ek as [Ek1 Ek2].
    apply tt_eqb_eq in Ek2. exact (operator_alone _ _ _ _ _ _ Ek1 Ek2 Hk).
  - (* binder *)
    pose proof (T _ (or_introl eq_refl)) as M. cbn [ptype] in M. change (fun d => match d with Typed name ty => name :: gen Colon :: flat ty | SelfDecl t => [t] end) with decl_flat.
    repeat (rewrite <- ?app_assoc; cbn [app]).
    destruct (runs_block e rest H6 H7 IHwf) as (kb & Kb).
    assert (DD : l <> [] -> Decls (commas (map decl_flat l) ++ gen RightParen :: gen LeftBrace :: flat e ++ gen RightBrace :: rest) (l, gen LeftBrace :: flat e ++ gen RightBrace :: rest)).
    { intros Nl. apply decls_run; auto. intros name ty rest' t' Hin Ht'. apply runs_parse; eauto.
      - intros p Hp. destruct (spine_tops _ _ (H1 _ _ Hin) p Hp) as [Cp _]. unfold matches. cbn [existsb]. rewrite orb_false_r. apply orb_false_iff. split; apply tt_eqb_neq.
        + intros X. destruct (spine_comma _ _ (H1 _ _ Hin) p Hp X) as (x & -> & Y). exact (H4 _ _ _ Hin Hp Y).
        + intros X. rewrite X in Cp. discriminate.
      - destruct Ht' as [-> | ->]; reflexivity. }
    assert (KD : exists kd, forall m, kd <= m -> args_part m [] (args_flat l ++ gen LeftBrace :: flat e ++ gen RightBrace :: rest) = Ok (l, gen LeftBrace :: flat e ++ gen RightBrace :: rest)).
    { destruct l as [|d l]; [exists 0; intros; reflexivity|]. destruct (DD ltac:(discriminate)) as (kd & Kd). exists kd. intros m Lm. apply (declarations_more _ m) in Kd; [|exact Lm].
      unfold args_part, args_flat. cbn [negb andb app]. rewrite (expect_here LeftParen) by reflexivity. cbn [pbind]. rewrite <- app_assoc. cbn [app].
      destruct m as [|m]; [discriminate|]. pose proof Kd as Kd'. rewrite declarations_S in Kd'. unfold declarations_step in Kd'.
      destruct (commas (map decl_flat (d :: l)) ++ gen RightParen :: gen LeftBrace :: flat e ++ gen RightBrace :: rest) as [|y z]; [discriminate|].
      destruct (variable_name y) eqn:Vy; [|discriminate]. rewrite (skip_id _ _ (variable_name_nl _ Vy)). cbn [peeks].
      destruct (tt_eqb (fst y) RightParen) eqn:Ey; [|exact Kd]. apply tt_eqb_eq in Ey. unfold variable_name in Vy. rewrite Ey in Vy. discriminate. }
    destruct KD as (kd & Kd). destruct R as (kr & Kr). exists (S (kb + kd + kr)).
    apply (partials_more _ (kb + kd + kr)) in Kr; [|lia]. apply (block_more _ (kb + kd + kr)) in Kb; [|lia]. specialize (Kd (kb + kd + kr) ltac:(lia)).
    set (k := kb + kd + kr) in *. set (tail := flat e ++ gen RightBrace :: rest) in *.
    assert (St : partials (S k) Value tm acc (t :: args_flat l ++ gen LeftBrace :: tail) =
      let* (params, ts) := params_part k (fst t) (args_flat l ++ gen LeftBrace :: tail) in
      let* (args, ts) := args_part k params ts in
      let* (_, ts) := expect LeftBrace ts in
      let* (e, rb, ts) := value_block k ts in
      partials k Value tm (acc ++ [PExpr (match params with [] => Binder t args e rb | _ => GenericBinder t params args e rb end)]) ts).
    { rewrite partials_S. unfold partials_step. cbv zeta. rewrite M. destruct (fst t); try discriminate H; reflexivity. }
    assert (PP : params_part k (fst t) (args_flat l ++ gen LeftBrace :: tail) = Ok ([], args_flat l ++ gen LeftBrace :: tail)).
    { unfold params_part, args_flat. cbn [app]. destruct (tt_eqb (fst t) Function_); reflexivity. }
    unfold args_flat in St, PP, Kd. repeat (rewrite <- ?app_assoc in St; cbn [app] in St). repeat (rewrite <- ?app_assoc in PP; cbn [app] in PP). repeat (rewrite <- ?app_assoc in Kd; cbn [app] in Kd).
    rewrite St, PP. cbn [pbind]. rewrite Kd. cbn [pbind]. rewrite (expect_here LeftBrace) by reflexivity. cbn [pbind]. rewrite Kb. cbn [pbind]. exact Kr.
  - (* if *)
    pose proof (T _ (or_introl eq_refl)) as M. cbn [ptype] in M. repeat (rewrite <- ?app_assoc; cbn [app]).
    assert (C : Parse Value [LeftBrace] (flat c ++ gen LeftBrace :: flat a ++ gen RightBrace :: gen Else_ :: gen LeftBrace :: flat b ++ gen RightBrace :: rest)
      (c, gen LeftBrace, flat a ++ gen RightBrace :: gen Else_ :: gen LeftBrace :: flat b ++ gen RightBrace :: rest)).
    { apply runs_parse; auto. apply (outer_tops _ _ _ H), outer_one. reflexivity. }
    destruct C as (kc & Kc). destruct (runs_block a (gen Else_ :: gen LeftBrace :: flat b ++ gen RightBrace :: rest) H1 H2 IHwf2) as (ka & Ka).
    destruct (runs_block b rest H3 H4 IHwf3) as (kb & Kb). destruct R as (kr & Kr). exists (S (kc + ka + kb + kr)).
    apply (partials_more _ (kc + ka + kb + kr)) in Kr; [|lia]. apply (block_more _ (kc + ka + kb + kr)) in Kb; [|lia]. apply (block_more _ (kc + ka + kb + kr)) in Ka; [|lia].
    apply (parse_more _ (kc + ka + kb + kr)) in Kc; [|lia]. rewrite partials_S. unfold partials_step. cbv zeta. rewrite M.
    cbn [gen fst tt_eqb tt_index N.eqb Pos.eqb is_binary is_unary is_postfix andb in_type]. change (If_, to_str If_) with (gen If_). rewrite Kc. cbn [pbind]. rewrite Ka. cbn [pbind].
    change (peeks Else_ (gen Else_ :: gen LeftBrace :: flat b ++ gen RightBrace :: rest)) with true. cbn [tl]. rewrite (expect_here LeftBrace) by reflexivity. cbn [pbind].
    rewrite Kb. cbn [pbind]. exact Kr.
Qed.

Theorem wf_parses ety e tm (t : tok) (rest : list tok) n : wf ety e -> level_ok (spine e) -> outer tm -> matches tm (fst t) = true -> 4 * length (flat e ++ t :: rest) + 2 <= n ->
  parse n ety tm (flat e ++ t :: rest) = Ok (e, t, rest).
Proof.
  intros W L O M Hn. destruct (runs_parse ety e tm t rest W L (wf_runs _ _ W) (outer_tops _ _ _ W O) M) as (k & K).
  destruct (enough n) as (X & _). specialize (X ety tm _ Hn). destruct (more_fuel n (n + k) ltac:(lia)) as (Y & _). destruct (Y ety tm (flat e ++ t :: rest)) as [Z|Z]; [congruence|].
  apply (parse_more k (n + k)) in K; [|lia]. congruence.
Qed.

(** ** Generated trees *)
Definition readable (e : expr) : Prop := wf Value e /\ level_ok (spine e).
Definition connective (t : token_type) : bool := operator_ok Value t && negb (tt_eqb t Comma) && negb (tt_eqb t Dot).

Lemma value_operators e : wf Value e -> forall p z b, In p (spine e) -> infix p = Some (z, b) -> b = false /\ (z = 14%Z \/ exists t, p = PBinary t /\ operator_ok Value (fst t) = true).
Proof.
  remember Value as ety eqn:Ev. induction 1; subst; cbn [spine]; intros p z b0 Hp Hi.
  - destruct Hp as [<-|[]]. discriminate.
  - destruct Hp as [<-|Hp]; [discriminate|eauto].
  - apply in_app_iff in Hp. destruct Hp as [Hp|[<-|Hp]]; eauto. cbn in Hi. injection Hi as <- <-. split; [|eauto]. destruct (fst t); try discriminate H; reflexivity.
  - apply in_app_iff in Hp. destruct Hp as [Hp|[<-|[<-|[]]]]; eauto; [|discriminate]. cbn in Hi. injection Hi as <- <-. auto.
  - apply in_app_iff in Hp. destruct Hp as [Hp|[<-|[<-|[]]]]; eauto; [|discriminate]. cbn in Hi. injection Hi as <- <-. auto.
  - destruct Hp as [<-|[]]. discriminate.
  - destruct Hp as [<-|[]]. discriminate.
  - destruct Hp as [<-|[]]. discriminate.
Qed.
(** the operator at the top is the loosest *)
Lemma top_is_loosest e : wf Value e -> (forall p z b, In p (spine e) -> infix p = Some (z, b) -> (top_level_precedence false e <= z)%Z) /\
  (forall t ps, spine e = PUnary t :: ps -> (top_level_precedence false e <= unary_precedence (fst t))%Z).
Proof.
  intros W. inversion W; subst; cbn [spine top_level_precedence].
  - split; [intros p z b9 [<-|[]]; discriminate|discriminate].
  - split; [|intros t' ps E; injection E as -> _; lia]. intros p z b9 [<-|Hp] Hi; [discriminate|]. destruct (H1 _ _ _ Hp Hi) as [X|(_ & X & _)]; [lia|discriminate].
  - destruct H2 as [L1 L2]. split.
    + intros p z b9 Hp Hi. apply in_app_iff in Hp. destruct Hp as [Hp|[<-|Hp]].
      * destruct (L1 _ _ _ Hp Hi) as [X|[X _]]; lia.
      * cbn in Hi. injection Hi as <- _. lia.
      * destruct (H3 _ _ _ Hp Hi) as [X|[X _]]; lia.
    + intros t' ps E. destruct (spine l) as [|q s] eqn:El; [destruct (spine_some _ El)|]. cbn in E. injection E as -> _. destruct (L2 _ _ eq_refl). assumption.
  - destruct H0 as [L1 L2]. split.
    + intros p z b9 Hp Hi. apply in_app_iff in Hp. destruct Hp as [Hp|[<-|[<-|[]]]]; [|cbn in Hi; injection Hi as <- _; cbn; lia|discriminate].
      destruct (L1 _ _ _ Hp Hi) as [X|[X _]]; cbn in *; lia.
    + intros t' ps E. destruct (spine l) as [|q s] eqn:El; [destruct (spine_some _ El)|]. cbn in E. injection E as -> _. destruct (L2 _ _ eq_refl). assumption.
  - destruct H0 as [L1 L2]. split.
    + intros p z b9 Hp Hi. apply in_app_iff in Hp. destruct Hp as [Hp|[<-|[<-|[]]]]; [|cbn in Hi; injection Hi as <- _; cbn; lia|discriminate].
      destruct (L1 _ _ _ Hp Hi) as [X|[X _]]; cbn in *; lia.
    + intros t' ps E. destruct (spine l) as [|q s] eqn:El; [destruct (spine_some _ El)|]. cbn in E. injection E as -> _. destruct (L2 _ _ eq_refl). assumption.
  - split; [intros p z b9 [<-|[]]; discriminate|discriminate].
  - split; [intros p z b9 [<-|[]]; discriminate|discriminate].
  - split; [intros p z b9 [<-|[]]; discriminate|discriminate].
Qed.

Lemma level_single e : level_ok [PExpr e].
Proof. split; [|reflexivity]. intros [|q a] x b y c E; [discriminate|]. injection E as _ E. destruct a; discriminate. Qed.
Lemma readable_paren e : readable e -> readable (paren e).
Proof. intros [W L]. split; [apply WParen; auto|apply level_single]. Qed.
(** without [implies] and commas *)
Definition tight (ps : list partial) : Prop := forall t, In (PBinary t) ps -> fst t <> Implies /\ fst t <> Comma.
Lemma tight_check ps : forall saw, tight ps -> check_implies saw ps = true.
Proof.
  induction ps as [|p ps IH]; intros saw T; [reflexivity|]. cbn [check_implies]. assert (T' : tight ps) by (intros t H; apply T; right; exact H).
  destruct p; auto. destruct (T t (or_introl eq_refl)). destruct (fst t); auto; congruence.
Qed.
Lemma loose_check l t r : tight l -> tight r -> check_implies false (l ++ PBinary t :: r) = true.
Proof.
  induction l as [|p l IH]; intros Tl Tr.
  - cbn [app check_implies]. destruct (fst t); apply tight_check; exact Tr.
  - cbn [app check_implies]. assert (Tl' : tight l) by (intros x H; apply Tl; right; exact H).
    destruct p; auto. destruct (Tl t0 (or_introl eq_refl)). destruct (fst t0); auto; congruence.
Qed.
Lemma connective_cases op : connective op = true -> operator_ok Value op = true /\ op <> Comma /\ op <> Dot /\ (3 <= binary_precedence op)%Z /\ (binary_precedence op = 3%Z -> op = Implies) /\
  is_right_associative op = false.
Proof. unfold connective. destruct op; cbn; intros H; try discriminate; repeat split; try discriminate; try lia; auto. Qed.
Lemma split_at (a a' : list partial) (x x' : partial) (b b' : list partial) : a ++ x :: b = a' ++ x' :: b' ->
  (exists m, a = a' ++ x' :: m /\ b' = m ++ x :: b) \/ (a = a' /\ x = x' /\ b = b') \/ (exists m, a' = a ++ x :: m /\ b = m ++ x' :: b').
Proof.
  revert a'. induction a as [|y a IH]; intros [|y' a'] E; cbn in E.
  - injection E as -> ->. auto.
  - injection E as -> ->. right; right. exists a'. auto.
  - injection E as -> <-. left. exists a. auto.
  - injection E as -> E. destruct (IH _ E) as [(m & -> & ->)|[(-> & -> & ->)|(m & -> & ->)]].
    + left. exists m. auto.
    + auto.
    + right; right. exists m. auto.
Qed.
Lemma level_join l t r : level_ok l -> level_ok r -> type_like (PBinary t) = false -> check_implies false (l ++ PBinary t :: r) = true ->
  (fst t = LessThan -> forall y, In (PBinary y) r -> fst y <> GreaterThan) -> (fst t = GreaterThan -> forall x, In (PBinary x) l -> fst x <> LessThan) ->
  level_ok (l ++ PBinary t :: r).
Proof.
  intros [Al _] [Ar _] Tt Ck C1 C2. split; [|exact Ck]. intros a x b y c E Hx Hy. symmetry in E. apply split_at in E.
  destruct E as [(m & -> & E)|[(-> & E & E')|(m & -> & E)]].
  - (* < in r *) rewrite E in Ar. apply (Ar m x b y c); auto.
  - injection E as ->. exfalso. apply (C1 Hx y); [|exact Hy]. rewrite <- E'. apply in_app_iff. right. left. reflexivity.
  - apply split_at in E. destruct E as [(m' & -> & E)|[(-> & E & E')|(m' & -> & E)]].
    + rewrite existsb_app. cbn [existsb]. rewrite Tt. cbn [negb orb]. apply orb_true_r.
    + injection E as ->. exfalso. apply (C2 Hy x); [|exact Hx]. apply in_app_iff. right. left. reflexivity.
    + apply (Al a x b y m'); auto.
Qed.

Theorem binary_readable l op r : connective op = true -> readable l -> readable r ->
  (forall t e, r = Unary t e -> right_ok (binary_precedence op) false (spine e)) ->
  (op = Implies -> forall a t b, l = Binary a t b -> fst t <> Implies) ->
  (op = LessThan -> forall y, In (PBinary y) (spine r) -> fst y <> GreaterThan) ->
  readable (generate_binary l op r).
Proof.
  intros Hop Rl Rr Hu Hi Hlt. destruct (connective_cases _ Hop) as (Ho & Nc & Nd & H3 & HI & Ra). unfold generate_binary.
  set (l' := if (top_level_precedence false l <? binary_precedence op)%Z then paren l else l).
  set (r' := if (top_level_precedence true r <=? binary_precedence op)%Z then paren r else r).
  assert (Rl' : readable l') by (unfold l'; destruct (_ <? _)%Z; [apply readable_paren|]; exact Rl).
  assert (Rr' : readable r') by (unfold r'; destruct (_ <=? _)%Z; [apply readable_paren|]; exact Rr).
  assert (Ll : (forall p z b, In p (spine l') -> infix p = Some (z, b) -> (binary_precedence op <= z)%Z) /\ left_ok (binary_precedence op) false (spine l')).
  { unfold l'. destruct (_ <? _)%Z eqn:E.
    - split; [intros p z b [<-|[]]; discriminate|]. split; [intros p z b [<-|[]]; discriminate|discriminate].
    - apply Z.ltb_ge in E. destruct (top_is_loosest _ (proj1 Rl)) as [T1 T2].
      assert (X : forall p z b, In p (spine l) -> infix p = Some (z, b) -> (binary_precedence op <= z)%Z) by (intros p z b A B; specialize (T1 _ _ _ A B); lia).
      split; [exact X|]. split.
      + intros p z b A B. specialize (X _ _ _ A B). lia.
      + intros t ps A. specialize (T2 _ _ A). split; [lia|discriminate]. }
  assert (Lr : forall p z b, In p (spine r') -> infix p = Some (z, b) -> (binary_precedence op < z)%Z).
  { unfold r'. destruct (_ <=? _)%Z eqn:E; [intros p z b [<-|[]]; discriminate|]. apply Z.leb_gt in E. destruct (top_is_loosest _ (proj1 Rr)) as [T1 _].
    intros p z b A B. assert (U : (exists t e, r = Unary t e) \/ top_level_precedence true r = top_level_precedence false r) by (destruct r; eauto; right; reflexivity).
    destruct U as [(t & e & ->)|U]; [|specialize (T1 _ _ _ A B); lia]. cbn [spine] in A. destruct A as [<-|A]; [discriminate|].
    destruct (Hu _ _ eq_refl _ _ _ A B) as [X|(_ & X & _)]; [exact X|discriminate]. }
  assert (Wf : wf Value (Binary l' (gen op) r')).
  { apply WBinary; [exact Ho|apply Rl'|apply Rr'| |]; cbn [gen fst]; rewrite Ra; [apply Ll|]. intros p z b A B. left. exact (Lr _ _ _ A B). }
  split; [exact Wf|]. cbn [spine]. destruct Ll as [Ll _].
  assert (Tr : tight (spine r')).
  { intros t A. specialize (Lr _ _ _ A eq_refl). split; intros E; rewrite E in Lr; cbn in Lr; lia. }
  assert (Tl : tight (spine l')).
  { intros t A. pose proof (Ll _ _ _ A eq_refl) as X. cbn in X. split; intros E; rewrite E in X; cbn in X; [|lia].
    assert (E3 : binary_precedence op = 3%Z) by lia. specialize (HI E3). subst op. revert A. unfold l'. destruct (_ <? _)%Z eqn:El; [intros [A|[]]; discriminate|]. apply Z.ltb_ge in El.
    destruct Rl as [Wl _]. clear Rl' Rr' Wf Ll l'. intros A. inversion Wl; subst; cbn [spine] in A; try (destruct A as [A|[]]; discriminate).
    - destruct A as [A|A]; [discriminate|]. destruct (H1 _ _ _ A eq_refl) as [Y|(_ & Y & _)]; [|discriminate]. rewrite E in Y. cbn in Y. destruct (fst t0); cbn in *; try discriminate; lia.
    - cbn in El. assert (Et : binary_precedence (fst t0) = 3%Z).
      { apply in_app_iff in A. destruct A as [A|[A|A]].
        - destruct (proj1 H2 _ _ _ A eq_refl) as [Y|[Y _]]; rewrite E in Y; cbn in Y; lia.
        - injection A as ->. rewrite E. reflexivity.
        - destruct (H4 _ _ _ A eq_refl) as [Y|[Y _]]; rewrite E in Y; cbn in Y; lia. }
      apply (Hi eq_refl _ _ _ eq_refl). destruct (fst t0); cbn in *; try discriminate; reflexivity.
    - apply in_app_iff in A. destruct A as [A|[A|[A|[]]]]; try discriminate. destruct (proj1 H0 _ _ _ A eq_refl) as [Y|[Y _]]; rewrite E in Y; cbn in Y; lia.
    - apply in_app_iff in A. destruct A as [A|[A|[A|[]]]]; try discriminate. destruct (proj1 H0 _ _ _ A eq_refl) as [Y|[Y _]]; rewrite E in Y; cbn in Y; lia. }
  apply level_join; [apply Rl'|apply Rr'| |apply loose_check; assumption| |].
  - cbn. destruct op; try discriminate Hop; reflexivity.
  - cbn [gen fst]. intros -> y A. unfold r' in A. destruct (_ <=? _)%Z; [destruct A as [A|[]]; discriminate|]. exact (Hlt eq_refl y A).
  - cbn [gen fst]. intros -> x A E. specialize (Ll _ _ _ A eq_refl). rewrite E in Ll. cbn in Ll. lia.
Qed.

Theorem unary_readable op e : is_unary op = true -> readable e ->
  (forall t e', e = Unary t e' -> right_ok (unary_precedence op) false (spine e')) -> readable (generate_unary op e).
Proof.
  intros Hop Re Hu. unfold generate_unary. set (e' := if (top_level_precedence true e <? unary_precedence op)%Z then paren e else e).
  assert (Re' : readable e') by (unfold e'; destruct (_ <? _)%Z; [apply readable_paren|]; exact Re).
  assert (Ro : right_ok (unary_precedence op) false (spine e')).
  { unfold e'. destruct (_ <? _)%Z eqn:E; [intros p z b [<-|[]]; discriminate|]. apply Z.ltb_ge in E. destruct (top_is_loosest _ (proj1 Re)) as [T1 _].
    assert (U : (exists t e0, e = Unary t e0) \/ top_level_precedence true e = top_level_precedence false e) by (destruct e; eauto; right; reflexivity).
    destruct U as [(t & e0 & ->)|U].
    - intros p z b A B. cbn [spine] in A. destruct A as [<-|A]; [discriminate|]. exact (Hu _ _ eq_refl _ _ _ A B).
    - intros p z b A B. left. pose proof (T1 _ _ _ A B) as X. destruct (value_operators _ (proj1 Re) _ _ _ A B) as (_ & [-> |(t & -> & Ot)]).
      + destruct op; try discriminate Hop; cbn; lia.
      + cbn in B. injection B as <- _. assert (Y : (unary_precedence op <= binary_precedence (fst t))%Z) by lia.
        destruct op; try discriminate Hop; cbn in *; destruct (fst t); try discriminate Ot; cbn in *; lia. }
  assert (W : wf Value (Unary (gen op) e')) by (apply WUnary; [exact Hop|apply Re'|exact Ro]).
  split; [exact W|]. cbn [spine]. destruct Re' as [_ [A C]]. split; [|exact C].
  intros [|q a] x b y c E; [discriminate|]. injection E as _ E. exact (A _ _ _ _ _ E).
Qed.
