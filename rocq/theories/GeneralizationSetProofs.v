(** Lemmas about the substitution-invariant order and the forms of the generalization set. *)
From Coq Require Import List Arith NArith Bool Lia Permutation Sorted.
Import ListNotations.
From Verif Require Import Term FlatTerm LocalContext TermProofs Kbo KboProofs TermNorm TermNormProofs Literal Clause ClauseProofs
  RenumberProofs Typing TypingProofs VariableMap VariableMapProofs InferenceProofs Fingerprint P_Fingerprint Pdt PdtProofs P_PdtKeys
  P_LiteralSet GeneralizationSet.

(** Built from symbols and applications only. *)
Fixpoint ground (t : term) : Prop :=
  match t with
  | TAtom (Sym _) => True
  | TApp f a => ground f /\ ground a
  | _ => False
  end.
(** Every subterm has a type. *)
Fixpoint has_types (K : kctx) (c : lctx) (t : term) : Prop :=
  get_type K c t <> None /\
  match t with
  | TApp f a => has_types K c f /\ has_types K c a
  | TBind _ A b => has_types K c A /\ has_types K c b
  | _ => True
  end.

Lemma comp_tri a b c : tri comp_cmp a b c.
Proof.
  assert (R : forall a b, comp_cmp a b = lexc (N.compare (match a with CMark _ _ => 0 | CAtom _ => 1 end)%N (match b with CMark _ _ => 0 | CAtom _ => 1 end)%N)
     (match a, b with CMark m x, CMark n y => lexc (N.compare (mark_rank m) (mark_rank n)) (N.compare x y)
      | CAtom a, CAtom b => atom_cmp a b | _, _ => Eq end)).
  { intros [m x|x] [n y|y]; reflexivity. }
  eapply tri_ext; [exact R|]. apply tri_lex.
  - apply (tri_N (fun a => match a with CMark _ _ => 0 | CAtom _ => 1 end)%N).
  - destruct a as [m x|x], b as [n y|y], c as [o z|z]; simpl; try discriminate; intros _ _.
    + change (tri (fun a b => lexc (N.compare (mark_rank (fst a)) (mark_rank (fst b))) (N.compare (snd a) (snd b))) (m, x) (n, y) (o, z)).
      apply tri_lex; [apply (tri_N (fun a : mark * N => mark_rank (fst a)))|intros _ _; apply (tri_N snd)].
    + apply atom_cmp_tri.
Qed.
Lemma flat_tri a : forall b c, tri flat_cmp a b c.
Proof.
  induction a as [|x a IH]; intros [|y b] [|z c]; try (unfold tri; simpl; repeat split; intros; congruence).
  - assert (T : tri (fun p q : FlatTerm.component * flat => lexc (comp_cmp (fst p) (fst q)) (flat_cmp (snd p) (snd q))) (x, a) (y, b) (z, c)).
    { apply (tri_lex (fun p q : FlatTerm.component * flat => comp_cmp (fst p) (fst q)) (fun p q => flat_cmp (snd p) (snd q))).
      - apply comp_tri.
      - intros _ _. apply IH. }
    exact T.
Qed.
Lemma flat_refl a : flat_cmp a a = Eq.
Proof.
  induction a as [|x a IH]; simpl; auto. rewrite IH. destruct x as [m o|x]; simpl.
  - rewrite !N.compare_refl. reflexivity.
  - assert (atom_cmp x x = Eq) by (apply atom_cmp_eq; auto). rewrite H. reflexivity.
Qed.

Section Order.
Context (K : kctx) (HK : kclosed K).

(** Types of ground terms do not depend on the context and have no variables. *)
Lemma ground_vars t : ground t -> vars t = [].
Proof.
  induction t as [[i|i|s]|f IHf a IHa|k A IHA b IHb]; simpl; intros G; try contradiction; [reflexivity|].
  rewrite vars_app, IHf, IHa by tauto. reflexivity.
Qed.
Lemma ground_type c t T : ground t -> get_type K c t = Some T -> vars T = [].
Proof.
  intros G H. destruct (vars T) as [|v l] eqn:E; auto. exfalso.
  destruct (get_type_vars _ K c t T v HK H) as [I|(w & U & I & _)]; [rewrite E; left; auto| |];
    rewrite (ground_vars t G) in I; contradiction.
Qed.
Lemma ground_context c c' t : ground t -> get_type K c t = get_type K c' t.
Proof.
  induction t as [[i|i|s]|f IHf a IHa|k A IHA b IHb]; simpl; intros G; try contradiction; [reflexivity|].
  rewrite !get_type_app, IHf by tauto. reflexivity.
Qed.
Lemma ground_head t : ground t -> exists s, head_atom t = Sym s.
Proof.
  induction t as [[i|i|s]|f IHf a IHa|k A IHA b IHb]; simpl; intros G; try contradiction; [eauto|]. destruct G as [G _]. apply IHf; auto.
Qed.
Lemma ground_ordered t : ground t -> unordered t = false.
Proof. destruct t as [a|f a|[] A b]; simpl; intros; try contradiction; reflexivity. Qed.

(** The comparison of ground typed terms, without its partiality. *)
Definition ty (t : term) : term := match get_type K [] t with Some T => T | None => t end.
Fixpoint gcmp (l r : term) : comparison :=
  lexc (term_cmp (ty l) (ty r))
    match l, r with
    | TAtom a, TAtom b => atom_cmp a b
    | TApp f a, TApp g b => lexc (gcmp f g) (gcmp a b)
    | TAtom _, TApp _ _ => Lt
    | TApp _ _, TAtom _ => Gt
    | _, _ => Eq
    end.
Lemma gcmp_eq l r : gcmp l r = lexc (term_cmp (ty l) (ty r))
    match l, r with
    | TAtom a, TAtom b => atom_cmp a b
    | TApp f a, TApp g b => lexc (gcmp f g) (gcmp a b)
    | TAtom _, TApp _ _ => Lt
    | TApp _ _, TAtom _ => Gt
    | _, _ => Eq
    end.
Proof. destruct l; reflexivity. Qed.

Lemma has_type c t : has_types K c t -> exists T, get_type K c t = Some T.
Proof. intros H. destruct (get_type K c t) eqn:E; eauto. destruct t; simpl in H; destruct H; congruence. Qed.

Lemma sub_cmp_ground c l : forall r n, ground l -> ground r -> has_types K c l -> has_types K c r ->
  sub_cmp K c l n r n = Some (Some (gcmp l r)).
Proof.
  induction l as [[i|i|s]|f IHf a IHa|k A IHA b IHb]; intros r n Gl Gr Tl Tr; try (simpl in Gl; contradiction).
  all: assert (bool_cmp n n = Eq) as Hn by (destruct n; reflexivity).
  all: destruct (ground_head r Gr) as [sr Hr].
  all: destruct (has_type _ _ Tl) as [T ET], (has_type _ _ Tr) as [U EU].
  all: pose proof (ground_type _ _ _ Gl ET) as VT; pose proof (ground_type _ _ _ Gr EU) as VU.
  all: rewrite gcmp_eq; cbn [sub_cmp]; rewrite Hn, Hr.
  - cbn [head_atom is_variable orb unordered]. rewrite (ground_ordered r Gr), ET, EU. unfold has_free_variable. rewrite VT, VU. cbn [orb].
    unfold ty. rewrite (ground_context [] c _ Gl), (ground_context [] c _ Gr), ET, EU.
    destruct (term_cmp T U); cbn [lexc]; auto. destruct r as [b|g b|k B b]; auto. simpl in Gr. contradiction.
  - destruct (ground_head (TApp f a) Gl) as [sl Hl]. rewrite Hl. cbn [is_variable orb unordered].
    rewrite (ground_ordered r Gr), ET, EU. unfold has_free_variable. rewrite VT, VU. cbn [orb].
    unfold ty. rewrite (ground_context [] c _ Gl), (ground_context [] c _ Gr), ET, EU.
    destruct (term_cmp T U); cbn [lexc]; auto. destruct r as [b|g b|k B b]; auto; [|simpl in Gr; contradiction].
    simpl in Gl, Gr, Tl, Tr. rewrite IHf, IHa by tauto. destruct (gcmp f g); reflexivity.
Qed.

Lemma gcmp_refl t : ground t -> gcmp t t = Eq.
Proof.
  induction t as [[i|i|s]|f IHf a IHa|k A IHA b IHb]; simpl; try tauto; intros G; unfold term_cmp; rewrite flat_refl; simpl.
  - apply sym_cmp_eq. auto.
  - rewrite IHf, IHa by tauto. reflexivity.
Qed.
Lemma gcmp_identical l : forall r, ground l -> ground r -> gcmp l r = Eq -> l = r.
Proof.
  induction l as [[i|i|s]|f IHf a IHa|k A IHA b IHb]; intros r Gl Gr; try (simpl in Gl; contradiction); rewrite gcmp_eq, lexc_eq; intros [_ H].
  - destruct r as [b|g b|k B b]; try discriminate; [|simpl in Gr; contradiction]. apply atom_cmp_eq in H. subst. reflexivity.
  - destruct r as [b|g b|k B b]; try discriminate; [|simpl in Gr; contradiction]. apply lexc_eq in H. simpl in Gl, Gr.
    rewrite (IHf g), (IHa b) by tauto. reflexivity.
Qed.
Lemma gcmp_opp l : forall r, ground l -> ground r -> CompOpp (gcmp l r) = gcmp r l.
Proof.
  induction l as [[i|i|s]|f IHf a IHa|k A IHA b IHb]; intros r Gl Gr; try (simpl in Gl; contradiction); rewrite !gcmp_eq, lexc_opp;
    unfold term_cmp; rewrite flat_cmp_opp; f_equal.
  - destruct r as [b|g b|k B b]; [apply atom_cmp_opp|reflexivity|simpl in Gr; contradiction].
  - destruct r as [b|g b|k B b]; [reflexivity| |simpl in Gr; contradiction]. simpl in Gl, Gr. rewrite lexc_opp, IHf, IHa by tauto. reflexivity.
Qed.
Lemma gcmp_tri x : forall y z, ground x -> ground y -> ground z -> tri gcmp x y z.
Proof.
  induction x as [[i|i|s]|f IHf a IHa|k A IHA b IHb]; intros y z Gx Gy Gz; try (simpl in Gx; contradiction).
  - eapply tri_ext; [exact gcmp_eq|]. apply tri_lex; [apply flat_tri|]. intros _ _.
    destruct y as [y|g y|]; [| |simpl in Gy; contradiction]; (destruct z as [z|h z|]; [| |simpl in Gz; contradiction]);
      try (unfold tri; simpl; repeat split; intros; congruence).
    exact (atom_cmp_tri (Sym s) y z).
  - eapply tri_ext; [exact gcmp_eq|]. apply tri_lex; [apply flat_tri|]. intros _ _.
    destruct y as [y|g y|]; [| |simpl in Gy; contradiction]; (destruct z as [z|h z|]; [| |simpl in Gz; contradiction]);
      try (unfold tri; cbv beta iota; repeat split; intros; congruence).
    simpl in Gx, Gy, Gz.
    exact (tri_lex (fun p q : term * term => gcmp (fst p) (fst q)) (fun p q => gcmp (snd p) (snd q)) (f, a) (g, y) (h, z)
        (IHf g h ltac:(tauto) ltac:(tauto) ltac:(tauto)) (fun _ _ => IHa y z ltac:(tauto) ltac:(tauto) ltac:(tauto))).
Qed.

(** ** stability *)
(** No binder is applied. *)
Fixpoint no_redex (t : term) : Prop :=
  match t with
  | TAtom _ => True
  | TApp f a => (exists x, spine_head f = TAtom x) /\ no_redex f /\ no_redex a
  | TBind _ A b => no_redex A /\ no_redex b
  end.
Lemma spine_head_atom t x : spine_head t = TAtom x -> head_atom t = x.
Proof. induction t; simpl; intros H; try discriminate; auto. inversion H; auto. Qed.
Lemma symbol_type_instance c m out t s : typed_map K c m out -> spine_head t = TSym s ->
  forall T, get_type K c t = Some T -> get_type K out (apply_to_term m t) = Some (apply_to_term m T).
Proof.
  intros [Hm _]. induction t as [[i|i|s']|f IHf a _|b A _ x _]; intros Hh T HT; try discriminate.
  - unfold get_type in *. simpl in *. inversion HT; subst. rewrite apply_no_vars; auto.
  - rewrite get_type_app in HT. destruct (get_type K c f) as [F|] eqn:Ef; [|discriminate].
    pose proof (IHf Hh F eq_refl) as E'. apply type_apply_some in HT. destruct HT as (A & B & -> & ->).
    cbn [apply_to_term] in *. rewrite get_type_app, E', open_apply by auto. apply type_apply_pi.
Qed.
Lemma head_apply m t s : head_atom t = Sym s -> head_atom (apply_to_term m t) = Sym s.
Proof. induction t as [[i|i|s']|f IHf a _|b A IHA x _]; simpl; intros H; try discriminate; auto. Qed.
Lemma unordered_apply m t s : head_atom t = Sym s -> unordered t = false -> unordered (apply_to_term m t) = false.
Proof. destruct t as [[i|i|s']|f a|[] A x]; simpl; auto; discriminate. Qed.
Lemma type_apply_stable c m out t s T : typed_map K c m out -> no_redex t -> head_atom t = Sym s -> unordered t = false ->
  get_type K c t = Some T -> vars T = [] -> get_type K out (apply_to_term m t) = Some T.
Proof.
  intros Hm N Hh O HT V.
  assert (S : spine_head t = TSym s \/ exists A b, t = TBind KPi A b).
  { destruct t as [x|f a|k A b].
    - left. simpl in *. congruence.
    - left. destruct N as [[x Hx] _]. simpl in *. rewrite Hx. apply spine_head_atom in Hx. congruence.
    - destruct k; try discriminate. eauto. }
  destruct S as [S|(A & b & ->)].
  - rewrite (symbol_type_instance _ _ _ _ _ Hm S _ HT). f_equal. apply apply_no_vars; auto.
  - exact HT.
Qed.

(** Terms that compare keep their order under maps that respect types. *)
Lemma sub_cmp_stable c m out l : typed_map K c m out -> forall r n n' o, no_redex l -> no_redex r ->
  sub_cmp K c l n r n' = Some (Some o) -> sub_cmp K out (apply_to_term m l) n (apply_to_term m r) n' = Some (Some o).
Proof.
  intros Hm. induction l as [al|f IHf a IHa|k A IHA b IHb]; intros r n n' o Nl Nr H.
  all: cbn [sub_cmp] in H.
  all: destruct (bool_cmp n n') eqn:Hn;
    [|inversion H; subst; match goal with |- sub_cmp _ _ ?x _ _ _ = _ => destruct x; cbn [sub_cmp]; rewrite Hn; reflexivity end ..].
  all: match type of H with context [is_variable ?x || is_variable ?y] =>
         destruct x as [?|?|sl] eqn:Hl; try discriminate; destruct y as [?|?|sr] eqn:Hr; try discriminate end.
  all: cbn [is_variable orb] in H.
  all: match type of H with context [unordered ?x || unordered ?y] => destruct (unordered x) eqn:Ol; [discriminate|]; destruct (unordered y) eqn:Or; [discriminate|] end.
  all: cbn [orb] in H.
  all: match type of H with context [get_type ?k ?d ?x] => destruct (get_type k d x) as [T|] eqn:ET; [|discriminate] end.
  all: match type of H with context [get_type ?k ?d ?x] => destruct (get_type k d x) as [U|] eqn:EU; [|discriminate] end.
  all: unfold has_free_variable in H; destruct (vars T) eqn:VT; [|discriminate]; destruct (vars U) eqn:VU; [|discriminate]; cbn [orb] in H.
  all: pose proof (type_apply_stable _ _ _ _ _ _ Hm Nl Hl Ol ET VT) as ET'.
  all: pose proof (type_apply_stable _ _ _ _ _ _ Hm Nr Hr Or EU VU) as EU'.
  all: pose proof (head_apply m _ _ Hl) as Hl'; pose proof (head_apply m _ _ Hr) as Hr'.
  all: pose proof (unordered_apply m _ _ Hl Ol) as Ol'; pose proof (unordered_apply m _ _ Hr Or) as Or'.
  - cbn [head_atom] in Hl. subst al. cbn [apply_to_term] in *. cbn [sub_cmp]. rewrite Hn, Hl', Hr', Ol', Or', ET', EU'.
    cbn [is_variable orb]. unfold has_free_variable. rewrite VT, VU. cbn [orb]. destruct (term_cmp T U); auto.
    destruct r as [br|g y|k B y]; [|exact H|destruct k; exact H]. simpl in Hr. subst br. exact H.
  - cbn [apply_to_term] in *. cbn [sub_cmp]. rewrite Hn, Hl', Hr', Ol', Or', ET', EU'.
    cbn [is_variable orb]. unfold has_free_variable. rewrite VT, VU. cbn [orb]. destruct (term_cmp T U); auto.
    destruct r as [br|g y|k B y]; [simpl in Hr; subst br; exact H| |destruct k; exact H].
    cbn [apply_to_term]. simpl in Nl, Nr. destruct Nl as (_ & Nl1 & Nl2), Nr as (_ & Nr1 & Nr2).
    destruct (sub_cmp K c f false g false) as [[x|]|] eqn:E1; try discriminate.
    rewrite (IHf g false false x Nl1 Nr1 E1). destruct x; auto.
  - destruct k; try discriminate. cbn [apply_to_term] in *. cbn [sub_cmp]. rewrite Hn, Hl', Hr', Ol', Or', ET', EU'.
    cbn [is_variable orb]. unfold has_free_variable. rewrite VT, VU. cbn [orb]. destruct (term_cmp T U); auto.
    destruct r as [br|g y|k B y]; [simpl in Hr; subst br; exact H|exact H|].
    destruct k; try discriminate.
    cbn [apply_to_term]. simpl in Nl, Nr. destruct Nl as (Nl1 & Nl2), Nr as (Nr1 & Nr2).
    destruct (sub_cmp K c A false B false) as [[x|]|] eqn:E1; try discriminate.
    rewrite (IHA B false false x Nl1 Nr1 E1). destruct x; auto.
Qed.
End Order.

(** ** the forms *)
Section Forms.
Context (K : kctx).

(** The literal, or with its sides exchanged. *)
Definition same_sides (l l' : literal) : Prop := l' = l \/ l' = flip l.
(** The directions the code tries. *)
Definition allowed_side (c : lctx) (l l' : literal) : Prop :=
  (l' = l /\ sub_cmp K c (left l) true (right l) true <> Some (Some Lt)) \/
  (l' = flip l /\ (sub_cmp K c (left l) true (right l) true = Some None \/ sub_cmp K c (left l) true (right l) true = Some (Some Lt))).

Lemma directions_sound c ls : forall ds d, directions K c ls = Some ds -> In d ds -> Forall2 same_sides ls d.
Proof.
  induction ls as [|l ls IH]; intros ds d E I; cbn [directions] in E.
  - inversion E; subst. destruct I as [<-|[]]. constructor.
  - destruct (sub_cmp K c (left l) true (right l) true) as [cmp|]; [|discriminate].
    destruct (directions K c ls) as [ds'|]; [|discriminate]. inversion E; subst. apply in_app_or in I.
    assert (J : exists l' d', d = l' :: d' /\ In d' ds' /\ same_sides l l').
    { unfold same_sides. destruct I as [I|I].
      - exists l. destruct cmp as [[]|]; try contradiction; apply in_map_iff in I; destruct I as (d' & <- & I); eauto.
      - exists (flip l). destruct cmp as [[]|]; try contradiction; apply in_map_iff in I; destruct I as (d' & <- & I); eauto. }
    destruct J as (l' & d' & -> & I' & S). constructor; eauto.
Qed.
Lemma directions_complete c ls : forall ds d, directions K c ls = Some ds -> Forall2 (allowed_side c) ls d -> In d ds.
Proof.
  induction ls as [|l ls IH]; intros ds d E F; cbn [directions] in E; inversion F; subst.
  - inversion E; subst. left. auto.
  - destruct (sub_cmp K c (left l) true (right l) true) as [cmp|] eqn:Ec; [|discriminate].
    destruct (directions K c ls) as [ds'|]; [|discriminate]. inversion E; subst. apply in_or_app.
    match goal with H : allowed_side _ _ _ |- _ => destruct H as [[-> N]|[-> N]] end; rewrite Ec in N.
    + left. destruct cmp as [[]|]; try congruence; apply in_map; auto.
    + right. destruct N as [N|N]; inversion N; subst; apply in_map; auto.
Qed.

Lemma picks_perm {A} (l : list A) x r : In (x, r) (picks l) -> Permutation l (x :: r).
Proof.
  revert x r. induction l as [|y l IH]; simpl; intros x r; [tauto|]. intros [E|I].
  - inversion E; subst. auto.
  - apply in_map_iff in I. destruct I as ([z s] & E & I). inversion E; subst. apply IH in I. cbn [fst snd].
    rewrite perm_swap. constructor. auto.
Qed.
Lemma picks_all {A} (l : list A) x r : Permutation l (x :: r) -> exists r', In (x, r') (picks l) /\ Permutation r r'.
Proof.
  revert x r. induction l as [|y l IH]; intros x r P; [apply Permutation_nil in P; discriminate|].
  assert (I : In x (y :: l)) by (eapply Permutation_in; [apply Permutation_sym; eauto|left; auto]).
  destruct I as [->|I].
  - exists l. split; [left; auto|]. apply Permutation_cons_inv in P. apply Permutation_sym; auto.
  - apply in_split in I. destruct I as (l1 & l2 & ->).
    destruct (IH x (l1 ++ l2)) as (r' & I' & P'); [apply Permutation_sym, Permutation_middle|].
    exists (y :: r'). split.
    + right. apply in_map_iff. exists (x, r'). auto.
    + rewrite <- P'. apply (Permutation_cons_inv (a := x)). rewrite <- P. rewrite perm_swap. constructor.
      apply Permutation_sym, Permutation_middle.
Qed.

(** One level of [orders], outside of the recursion. *)
Fixpoint order_each (c : lctx) (n : nat) (last : option literal) (ps : list (literal * list literal))
  : option (list (list literal)) :=
  match ps with
  | [] => Some []
  | (x, others) :: ps =>
    match match last with None => Some (Some Gt) | Some y => sub_literal_cmp K c y x end with
    | None => None
    | Some (Some Lt) => order_each c n last ps
    | _ =>
      match orders K c n (Some x) others, order_each c n last ps with
      | Some os, Some rest => Some (map (cons x) os ++ rest)
      | _, _ => None
      end
    end
  end.
Lemma orders_step c n last ls : orders K c (S n) last ls = order_each c n last (picks ls).
Proof.
  cbn [orders]. generalize (picks ls). induction l as [|[x o] l IH]; auto. cbn [order_each].
  destruct (match last with None => Some (Some Gt) | Some y => sub_literal_cmp K c y x end) as [[[]|]|]; auto; rewrite IH; auto.
Qed.

Lemma orders_sound c n : forall last ls os o, length ls = n -> orders K c n last ls = Some os -> In o os -> Permutation ls o.
Proof.
  induction n as [|n IH]; intros last ls os o L E I.
  - simpl in E. inversion E; subst. destruct ls; [|discriminate]. destruct I as [<-|[]]. constructor.
  - rewrite orders_step in E.
    assert (G : forall ps os, (forall x r, In (x, r) ps -> Permutation ls (x :: r)) -> order_each c n last ps = Some os -> In o os -> Permutation ls o).
    { clear E I os. induction ps as [|[x r] ps IHps]; intros os Hp E I; cbn [order_each] in E.
      - inversion E; subst. contradiction.
      - assert (R : forall os, order_each c n last ps = Some os -> In o os -> Permutation ls o).
        { intros. eapply IHps; eauto. intros; apply Hp; right; auto. }
        assert (O : forall os', orders K c n (Some x) r = Some os' -> In o (map (cons x) os') -> Permutation ls o).
        { intros os' Eo Io. apply in_map_iff in Io. destruct Io as (o' & <- & Io).
          pose proof (Hp x r (or_introl eq_refl)) as P. rewrite P. constructor. eapply IH; eauto.
          apply Permutation_length in P. simpl in P. lia. }
        destruct (match last with None => Some (Some Gt) | Some y => sub_literal_cmp K c y x end) as [cm|]; [|discriminate].
        assert (B : order_each c n last ps = Some os \/ exists os1 os2, orders K c n (Some x) r = Some os1 /\ order_each c n last ps = Some os2 /\ os = map (cons x) os1 ++ os2).
        { destruct cm as [[]|]; auto; right;
            (destruct (orders K c n (Some x) r) as [os1|]; [|discriminate]); (destruct (order_each c n last ps) as [os2|]; [|discriminate]);
            inversion E; subst; eauto. }
        destruct B as [B|(os1 & os2 & E1 & E2 & ->)]; eauto.
        apply in_app_or in I. destruct I; eauto. }
    eapply G; eauto. intros x r. apply picks_perm.
Qed.

(** No literal is less than the next. *)
Fixpoint descending (c : lctx) (last : option literal) (o : list literal) : Prop :=
  match o with
  | [] => True
  | x :: r => (match last with Some y => sub_literal_cmp K c y x <> Some (Some Lt) | None => True end) /\ descending c (Some x) r
  end.
Lemma orders_complete c n : forall last ls os o, length ls = n -> orders K c n last ls = Some os -> Permutation ls o ->
  descending c last o -> In o os.
Proof.
  induction n as [|n IH]; intros last ls os o L E P D.
  - destruct ls; [|discriminate]. apply Permutation_nil in P. subst. simpl in E. inversion E. left. auto.
  - rewrite orders_step in E. destruct o as [|x o]; [apply Permutation_sym, Permutation_nil in P; subst; discriminate|].
    destruct D as [D1 D2]. destruct (picks_all _ _ _ P) as (r & I & P').
    assert (Lr : length r = n).
    { apply Permutation_length in P, P'. simpl in P. lia. }
    clear P L. revert os E I. generalize (picks ls). induction l as [|[y s] l IHl]; intros os E I; [contradiction|].
    cbn [order_each] in E.
    destruct (match last with None => Some (Some Gt) | Some y0 => sub_literal_cmp K c y0 y end) as [cm|] eqn:Ec; [|discriminate].
    destruct I as [Exy|I].
    + inversion Exy; subst y s.
      assert (B : exists os1 os2, orders K c n (Some x) r = Some os1 /\ order_each c n last l = Some os2 /\ os = map (cons x) os1 ++ os2).
      { destruct cm as [[]|]; try (destruct (orders K c n (Some x) r) as [os1|]; [|discriminate]; destruct (order_each c n last l) as [os2|]; [|discriminate];
            inversion E; subst; eauto; fail).
        exfalso. destruct last; [apply D1; auto|discriminate]. }
      destruct B as (os1 & os2 & E1 & E2 & ->). apply in_or_app. left. apply in_map.
      eapply IH; eauto. apply Permutation_sym. auto.
    + assert (B : order_each c n last l = Some os \/ exists os1 os2, order_each c n last l = Some os2 /\ os = os1 ++ os2).
      { destruct cm as [[]|]; auto; right;
          (destruct (orders K c n (Some y) s) as [os1|]; [|discriminate]); (destruct (order_each c n last l) as [os2|]; [|discriminate]);
          inversion E; subst; eauto. }
      destruct B as [B|(os1 & os2 & E1 & ->)]; eauto. apply in_or_app. right. eauto.
Qed.

Lemma concat_options_in {A} (l : list (option (list A))) : forall r x, concat_options l = Some r ->
  (In x r <-> exists y, In (Some y) l /\ In x y).
Proof.
  induction l as [|[y|] l IH]; intros r x E; simpl in E; try discriminate.
  - inversion E; subst. simpl. firstorder.
  - destruct (concat_options l) as [r'|]; [|discriminate]. inversion E; subst. rewrite in_app_iff, (IH r' x eq_refl). split.
    + intros [I|(z & I1 & I2)]; [exists y|exists z]; simpl; auto.
    + intros (z & [Ez|I1] & I2); [inversion Ez; subst; auto|right; eauto].
Qed.
Lemma concat_options_some {A} (l : list (option (list A))) r : concat_options l = Some r -> ~ In None l.
Proof.
  revert r. induction l as [|[y|] l IH]; intros r E; simpl in *; try discriminate; [tauto|].
  destruct (concat_options l); [|discriminate]. intros [C|C]; [discriminate|]. eapply IH; eauto.
Qed.
Lemma all_some_in {A} (l : list (option A)) : forall r, all_some l = Some r -> l = map Some r.
Proof.
  induction l as [|[y|] l IH]; intros r E; simpl in E; try discriminate.
  - inversion E; subst. auto.
  - destruct (all_some l) as [r'|]; [|discriminate]. inversion E; subst. simpl. f_equal. auto.
Qed.

(** What is stored for a clause. *)
Lemma forms_sound cl cs f : generalized_forms K cl = Some cs -> In f cs -> exists d o, Forall2 same_sides (literals cl) d /\
  Permutation d o /\ normalize_var_ids_types_last (Clause o (context cl)) = Some f.
Proof.
  unfold generalized_forms. destruct (directions K (context cl) (literals cl)) as [ds|] eqn:Ed; [|discriminate].
  destruct (concat_options _) as [os|] eqn:Eo; [|discriminate]. intros E I. apply all_some_in in E.
  assert (J : In (Some f) (map Some cs)) by (apply in_map; auto). rewrite <- E in J. apply in_map_iff in J. destruct J as (o & Ef & Io).
  apply (concat_options_in _ _ o Eo) in Io. destruct Io as (y & Iy & Io). apply in_map_iff in Iy. destruct Iy as (d & Ey & Id).
  exists d, o. split; [eapply directions_sound; eauto|]. split; auto. eapply orders_sound; eauto.
Qed.
Lemma forms_complete cl cs d o : generalized_forms K cl = Some cs -> Forall2 (allowed_side (context cl)) (literals cl) d ->
  Permutation d o -> descending (context cl) None o ->
  exists f, In f cs /\ normalize_var_ids_types_last (Clause o (context cl)) = Some f.
Proof.
  unfold generalized_forms. destruct (directions K (context cl) (literals cl)) as [ds|] eqn:Ed; [|discriminate].
  destruct (concat_options _) as [os|] eqn:Eo; [|discriminate]. intros E F P D. apply all_some_in in E.
  pose proof (directions_complete _ _ _ _ Ed F) as Id.
  assert (J : In (orders K (context cl) (length d) None d) (map (fun ls => orders K (context cl) (length ls) None ls) ds)) by (apply in_map_iff; eauto).
  destruct (orders K (context cl) (length d) None d) as [os'|] eqn:Eos; [|apply concat_options_some in Eo; contradiction].
  pose proof (orders_complete _ _ _ _ _ _ eq_refl Eos P D) as Io'.
  assert (Io : In o os) by (apply (concat_options_in _ _ o Eo); eauto).
  apply (in_map (fun ls => normalize_var_ids_types_last (Clause ls (context cl)))) in Io. rewrite E in Io.
  apply in_map_iff in Io. destruct Io as (f & Ef & If). eauto.
Qed.
End Forms.

(** ** renumbering by first occurrence *)
Lemma collect_app ids f a : collect_vars ids (TApp f a) = collect_vars (collect_vars ids f) a.
Proof. unfold collect_vars. rewrite vars_app, fold_left_app. auto. Qed.
Lemma collect_bind ids k f a : collect_vars ids (TBind k f a) = collect_vars (collect_vars ids f) a.
Proof. unfold collect_vars. rewrite vars_bind, fold_left_app. auto. Qed.
Lemma collect_fold l : forall ids, NoDup ids ->
  let ids1 := fold_left (fun ids v => if existsb (Nat.eqb v) ids then ids else ids ++ [v]) l ids in
  NoDup ids1 /\ (exists ext, ids1 = ids ++ ext) /\ forall v, In v ids1 <-> In v ids \/ In v l.
Proof.
  induction l as [|v l IH]; intros ids N; cbn [fold_left].
  - split; auto. split; [exists []; rewrite app_nil_r; auto|]. simpl. tauto.
  - destruct (existsb (Nat.eqb v) ids) eqn:E.
    + apply existsb_in in E. destruct (IH ids N) as (N1 & (ext & X) & I1). split; auto. split; [eauto|].
      intros w. rewrite I1. simpl. split; [tauto|]. intros [|[<-|]]; auto.
    + apply existsb_notin in E. destruct (IH (ids ++ [v])) as (N1 & (ext & X) & I1).
      { apply NoDup_rev in N.
        rewrite <- (rev_involutive (ids ++ [v])). apply NoDup_rev. rewrite rev_app_distr. simpl. constructor; auto.
        rewrite <- in_rev. auto. }
      split; auto. split; [exists (v :: ext); rewrite X, <- app_assoc; auto|].
      intros w. rewrite I1, in_app_iff. simpl. tauto.
Qed.
Lemma collect_spec ids t : NoDup ids -> NoDup (collect_vars ids t) /\ (exists ext, collect_vars ids t = ids ++ ext) /\
  forall v, In v (collect_vars ids t) <-> In v ids \/ In v (vars t).
Proof. apply collect_fold. Qed.

Lemma renumber_first t : forall ids ext tids, NoDup ids ->
  let ids2 := collect_vars ids t ++ ext in
  number (length ids) (apply_var_renumbering ids2 tids t) = Some (length (collect_vars ids t)) /\
  renumber_variables ids2 t = Some (apply_var_renumbering ids2 tids t).
Proof.
  induction t as [[i|i|s]|f IHf a IHa|k A IHA b IHb]; intros ids ext tids N.
  - cbn [apply_var_renumbering renumber_variables]. unfold collect_vars. cbn [vars fold_left]. unfold vars; cbn.
    destruct (existsb (Nat.eqb i) ids) eqn:E.
    + apply existsb_in in E. destruct (position_in_ex _ _ E) as [p Ep]. rewrite (position_app _ ext _ _ Ep). apply position_some in Ep. destruct Ep as [_ L]. split; auto.
      cbn [number]. apply Nat.ltb_lt in L. rewrite L. reflexivity.
    + apply existsb_notin in E. rewrite <- app_assoc, (position_app_r _ _ _ E). cbn [app position]. rewrite Nat.eqb_refl. cbn [option_map].
      split; auto. cbn [number]. rewrite Nat.add_0_r, Nat.ltb_irrefl, Nat.eqb_refl, app_length. simpl. f_equal. lia.
  - split; reflexivity.
  - split; reflexivity.
  - cbn zeta. rewrite collect_app. cbn [apply_var_renumbering renumber_variables number].
    destruct (collect_spec ids f N) as (N1 & _ & _). destruct (collect_spec _ a N1) as (_ & (x & X) & _).
    destruct (IHa (collect_vars ids f) ext tids N1) as [A1 A2]. destruct (IHf ids (x ++ ext) tids N) as [F1 F2].
    rewrite app_assoc, <- X in F1, F2. cbv zeta in A1, A2. rewrite F1, F2, A1, A2. auto.
  - cbn zeta. rewrite collect_bind. cbn [apply_var_renumbering renumber_variables number].
    destruct (collect_spec ids A N) as (N1 & _ & _). destruct (collect_spec _ b N1) as (_ & (x & X) & _).
    destruct (IHb (collect_vars ids A) ext tids N1) as [A1 A2]. destruct (IHA ids (x ++ ext) tids N) as [F1 F2].
    rewrite app_assoc, <- X in F1, F2. cbv zeta in A1, A2. rewrite F1, F2, A1, A2. auto.
Qed.
Lemma renumber_all ts : forall ids ext tids, NoDup ids ->
  let ids1 := fold_left collect_vars ts ids in
  let ids2 := ids1 ++ ext in
  NoDup ids1 /\ (exists x, ids1 = ids ++ x) /\
  (forall v, In v ids1 <-> In v ids \/ exists t, In t ts /\ In v (vars t)) /\
  numbers (length ids) (map (apply_var_renumbering ids2 tids) ts) = Some (length ids1) /\
  Forall (fun t => renumber_variables ids2 t = Some (apply_var_renumbering ids2 tids t)) ts.
Proof.
  induction ts as [|t ts IH]; intros ids ext tids N; cbn [fold_left map numbers].
  - split; auto. split; [exists []; rewrite app_nil_r; auto|]. split; [intros v; split; [auto|intros [|(t & [] & _)]; auto]|]. split; auto.
  - destruct (collect_spec ids t N) as (N1 & (x & X) & I1). destruct (IH _ ext tids N1) as (N2 & (y & Y) & I2 & Nb & F).
    cbv zeta in *. split; auto. split; [exists (x ++ y); rewrite Y, X, <- app_assoc; auto|]. split.
    { intros v. rewrite I2, I1. split.
      - intros [[|]|(u & J & V)]; [auto|right; exists t; simpl; auto|right; exists u; simpl; auto].
      - intros [|(u & [<-|J] & V)]; auto. right. eauto. }
    destruct (renumber_first t ids (y ++ ext) tids N) as [A1 A2]. cbv zeta in A1, A2. rewrite app_assoc, <- Y in A1, A2.
    rewrite A1, Nb. split; auto.
Qed.
Lemma types_last_spec o c f : normalize_var_ids_types_last (Clause o c) = Some f -> exists ids tids,
  NoDup ids /\ (forall v, In v ids <-> exists t, In t (literal_terms o) /\ In v (vars t)) /\
  literals f = map (fun l => Lit (positive l) (apply_var_renumbering ids tids (left l)) (apply_var_renumbering ids tids (right l))) o /\
  Forall (fun t => renumber_variables ids t = Some (apply_var_renumbering ids tids t)) (literal_terms o) /\
  numbers 0 (literal_terms (literals f)) = Some (length ids) /\ remap c (ids ++ tids) = Some (context f).
Proof.
  unfold normalize_var_ids_types_last. cbn [literals context].
  assert (G : forall l ids, fold_left (fun ids l => collect_vars (collect_vars ids (left l)) (right l)) l ids = fold_left collect_vars (literal_terms l) ids).
  { induction l as [|x l IH]; intros ids; simpl; auto. }
  rewrite G. set (ids := fold_left collect_vars (literal_terms o) []).
  set (tids := filter _ _). intros E. exists ids, tids.
  destruct (renumber_all (literal_terms o) [] [] tids (NoDup_nil _)) as (N & _ & I & Nb & F). fold ids in N, I, Nb, F. rewrite app_nil_r in Nb, F.
  destruct (remap c (ids ++ tids)) as [c'|]; [|discriminate]. cbn [option_map] in E. inversion E; subst f. cbn [literals context].
  split; auto. split; [intros v; rewrite I; split; [intros [[]|]; auto|auto]|]. split; auto. split; auto. split; auto.
  rewrite <- Nb. f_equal. clearbody ids tids. clear. induction o as [|l o IH]; simpl; auto. rewrite IH. auto.
Qed.

(** ** the tree of clauses *)
Section Tree.
Context (be : bool) (K : kctx) (mi : lctx -> term -> lctx -> term -> bool).
Notation find := (find_matches be K mi).

Record tree_holds (p : pdt nat) (R : list (clause * nat)) : Prop := {
  t_nodup : NoDup (map fst (entries _ p));
  t_values : values _ p = map snd R;
  t_metas : metas _ p = map (fun s => context (fst s)) R;
  t_sound : forall k id, In (k, id) (entries _ p) -> exists s, nth_error R id = Some s /\ key_from_clause be (fst s) = Some k;
  t_all : forall s, In s R -> exists k, key_from_clause be (fst s) = Some k /\ In k (map fst (entries _ p)) }.
Lemma tree_insert p R cl id p' : tree_holds p R -> insert_clause be p cl id = Some p' -> tree_holds p' (R ++ [(cl, id)]).
Proof.
  intros [N V M S A] E. unfold insert_clause in E. destruct (key_from_clause be cl) as [k|] eqn:Ek; [|discriminate].
  inversion E; subst p'. clear E.
  assert (L : length (values _ p) = length R) by (rewrite V; apply map_length).
  constructor; cbn [insert_key entries values metas].
  - apply nodup_trie_insert; auto.
  - rewrite map_app, V. reflexivity.
  - rewrite map_app, M. reflexivity.
  - intros k' i I. apply in_trie_insert in I. destruct I as [[-> ->]|I].
    + exists (cl, id). rewrite L, nth_error_app2, Nat.sub_diag by auto. split; [reflexivity|exact Ek].
    + destruct (S _ _ I) as (s & Ns & Ks). exists s. split; auto. rewrite nth_error_app1; auto.
      apply nth_error_Some. congruence.
  - intros s I. apply in_app_or in I. destruct I as [I|[<-|[]]].
    + destruct (A s I) as (k' & Ks & Ik). exists k'. split; auto. apply keys_trie_insert. auto.
    + exists k. split; [exact Ek|]. apply keys_trie_insert. auto.
Qed.
Lemma tree_new : tree_holds pdt_new [].
Proof. constructor; simpl; auto; try constructor; intros; tauto. Qed.

Lemma edge_not_nil e : edge_bytes be e <> [].
Proof. intros H. pose proof (edge_bytes_length be e) as L. rewrite H in L. simpl in L. lia. Qed.
Lemma sign_key_cons x s : sign_key be (x :: s) = edge_bytes be (ELit (positive x)) ++ sign_key be s.
Proof. reflexivity. Qed.

(** The keys below the signs of a query are those of clauses with the same signs, or go on with a sign. *)
Definition signed (k : list N) (e : list N * nat) : bool :=
  prefixb (k ++ edge_bytes be (ELit true)) (fst e) || prefixb (k ++ edge_bytes be (ELit false)) (fst e).
Lemma signed_spec k e : signed k e = true <-> exists b r, fst e = k ++ edge_bytes be (ELit b) ++ r.
Proof.
  unfold signed. rewrite orb_true_iff, !prefixb_spec. split.
  - intros [[r H]|[r H]]; rewrite <- app_assoc in H; eauto.
  - intros (b & r & H). rewrite app_assoc in H. destruct b; eauto.
Qed.
Lemma terms_first_edge ts k : Forall fits ts -> ts <> [] -> key_from_terms be ts = Some k ->
  exists e r, (forall p, e <> ELit p) /\ fits_edge e /\ key_edge e /\ k = edge_bytes be e ++ r.
Proof.
  intros F N Kt. destruct ts as [|x a]; [congruence|]. simpl in Kt. inversion F; subst.
  destruct (key_from_term be x) eqn:E; [|discriminate]. destruct (key_from_terms be a); [|discriminate].
  destruct (top_edge_key _ _ _ E) as (e & r & T & ->). exists e. rewrite <- app_assoc in Kt. inversion Kt; subst.
  destruct (top_edge_ok x e ltac:(assumption) T). eexists. split; [intros p; eapply top_edge_not_lit; eauto|].
  split; [assumption|]. split; [assumption|]. reflexivity.
Qed.
Lemma same_signs s : forall q ks r, (exists e r', (forall p, e <> ELit p) /\ fits_edge e /\ key_edge e /\ ks = edge_bytes be e ++ r') ->
  sign_key be s ++ ks = sign_key be q ++ r -> (forall b r', r <> edge_bytes be (ELit b) ++ r') ->
  map positive s = map positive q /\ ks = r.
Proof.
  induction s as [|x s IH]; intros [|y q] ks r T E N.
  - auto.
  - exfalso. destruct T as (e & r' & Ne & Fe & Ke & ->). rewrite sign_key_cons, <- app_assoc in E. cbn [sign_key flat_map app] in E.
    apply edge_prefix in E; simpl; auto. destruct E. eapply Ne; eauto.
  - exfalso. rewrite sign_key_cons, <- app_assoc in E. cbn [sign_key flat_map app] in E. eapply N. symmetry. exact E.
  - rewrite !sign_key_cons, <- !app_assoc in E. apply edge_prefix in E; simpl; auto. destruct E as [E1 E2].
    inversion E1 as [E3]. destruct (IH _ _ _ T E2 N) as [-> ->]. simpl. rewrite E3. auto.
Qed.

(** What a hit means. *)
Lemma find_clause_sound p R q id : tree_holds p R -> (forall s, In s R -> clause_fits (fst s)) -> clause_fits q ->
  find_clause be K mi p q = Hit _ id ->
  exists s repl ext, In s R /\ snd s = id /\ map positive (literals (fst s)) = map positive (literals q) /\
    map (instance repl) (literal_terms (literals (fst s))) = literal_terms (literals q) /\
    numbers 0 (literal_terms (literals (fst s))) = Some (length repl) /\
    verify_from K mi 0 repl (context (fst s)) (context q ++ ext) = Some true.
Proof.
  intros H FR Fq. unfold find_clause, answer_of. generalize limit_ok. generalize stack_limit. intros n L.
  destruct (find n (metas nat p) _ _ _ _ _) as [i repl| | |] eqn:F; try discriminate.
  destruct (nth_error (values nat p) i) as [v|] eqn:Nv; [|discriminate]. intros E; inversion E; subst v. clear E.
  apply find_sound in F; [|exact L|apply literal_terms_fit; auto].
  destruct F as (ps & k2 & pctx & ext & qext & I & Kp & Fp & Mp & Er & Nb & Nm & V).
  apply in_subtrie in I. destruct I as [I _]. destruct (t_sound _ _ H _ _ I) as (s & Ns & Ks).
  pose proof (nth_error_In _ _ Ns) as Is. pose proof (FR _ Is) as Fs. unfold key_from_clause in Ks.
  destruct (key_from_terms be (literal_terms (literals (fst s)))) as [ks|] eqn:Eks; [|discriminate]. cbn [option_map] in Ks. inversion Ks as [Ks'].
  assert (Lp : length ps = 2 * length (literals q)) by (rewrite <- (map_length (instance repl) ps), Mp; apply literal_terms_length).
  assert (G : map positive (literals (fst s)) = map positive (literals q) /\ literal_terms (literals (fst s)) = ps).
  { destruct (literals q) as [|x qs] eqn:Eq.
    - destruct ps; [|simpl in Lp; discriminate]. inversion Kp; subst k2. cbn [sign_key flat_map app] in Ks'.
      destruct (literals (fst s)) as [|y ys]; [auto|]. exfalso. rewrite sign_key_cons, <- app_assoc in Ks'.
      apply app_eq_nil in Ks'. destruct Ks' as [C _]. apply edge_not_nil in C. auto.
    - destruct (literals (fst s)) as [|y ys] eqn:Es.
      { exfalso. simpl in Eks. inversion Eks; subst ks. cbn [sign_key flat_map app] in Ks'. symmetry in Ks'. rewrite <- app_assoc in Ks'.
        apply app_eq_nil in Ks'. destruct Ks' as [C _]. apply edge_not_nil in C. auto. }
      destruct (sign_terms_inj be (y :: ys) (x :: qs) (literal_terms (y :: ys)) ps ks k2 [] []) as (E1 & E2 & _); auto; try discriminate.
      + rewrite <- Es. apply literal_terms_fit; auto.
      + apply literal_terms_length.
      + rewrite !app_nil_r. exact Ks'. }
  destruct G as [G1 G2]. exists s, repl, qext. rewrite G2, Mp.
  rewrite (t_values _ _ H), (map_nth_error snd _ _ Ns) in Nv. inversion Nv.
  rewrite (t_metas _ _ H), (map_nth_error _ _ _ Ns) in Nm. inversion Nm. subst pctx. auto 10.
Qed.

(** The search ignores what goes on with a sign. *)
Lemma step_filter n metas t k e terms q repl : (forall p, e <> ELit p) -> fits_edge e -> key_edge e ->
  step be K mi n metas t k e terms q repl = step be K mi n metas (filter (fun x => negb (signed k x)) t) k e terms q repl.
Proof.
  intros Ne Fe Ke. unfold step. f_equal. unfold subtrie. induction t as [|x t IH]; simpl; auto.
  destruct (prefixb (k ++ edge_bytes be e) (fst x)) eqn:P.
  - destruct (signed k x) eqn:S; simpl; [|rewrite P, IH; auto]. exfalso. apply signed_spec in S. destruct S as (b & r & Sx).
    apply prefixb_spec in P. destruct P as [r' P]. rewrite Sx, <- app_assoc in P. apply app_inv_head in P.
    apply edge_prefix in P; simpl; auto. destruct P. eapply Ne; eauto.
  - destruct (signed k x) eqn:S; simpl; [auto|]. rewrite P. auto.
Qed.
Lemma find_filter n metas t k first rest q repl : length repl + S n <= 500 -> fits first ->
  find (S n) metas t k (first :: rest) q repl = find (S n) metas (filter (fun x => negb (signed k x)) t) k (first :: rest) q repl.
Proof.
  intros L Ff. destruct t as [|x t]; [reflexivity|].
  assert (S1 : forall i rest q repl', i < 500 -> step be K mi n metas (x :: t) k (EAtom (PVar i)) rest q repl' =
     step be K mi n metas (filter (fun x => negb (signed k x)) (x :: t)) k (EAtom (PVar i)) rest q repl').
  { intros i rest' q' repl' Hi. apply step_filter; simpl; auto; [discriminate|unfold small; lia]. }
  assert (B : forall g h rs i, (forall j, j < length rs -> g (i + j) = h (i + j)) -> back g first i rs = back h first i rs).
  { clear. intros g h. induction rs as [|r rs IH]; intros i H; simpl; auto. rewrite (IH (S i)).
    - pose proof (H 0) as H0. rewrite Nat.add_0_r in H0. simpl in H0. rewrite H0 by lia. auto.
    - intros j J. rewrite plus_Sn_m, plus_n_Sm. apply H. simpl. lia. }
  assert (E : forall t', filter (fun x => negb (signed k x)) (x :: t) = t' ->
    find (S n) metas (x :: t) k (first :: rest) q repl =
    seq (back (fun i => step be K mi n metas t' k (EAtom (PVar i)) rest q repl) first 0 repl)
    (seq (step be K mi n metas t' k (EAtom (PVar (length repl))) rest q (repl ++ [first]))
       (match first with
        | TAtom (FreeVar _) => Continue
        | TAtom a =>
          match edge_atom a with
          | None => Continue
          | Some p => step be K mi n metas t' k (EAtom p) rest q repl
          end
        | TApp f a => step be K mi n metas t' k EApp (f :: a :: rest) q repl
        | TBind b A body => step be K mi n metas t' k (EBind b) (A :: body :: rest) (push_type q A) repl
        end))).
  { intros t' <-. rewrite find_cons. f_equal; [|f_equal].
    - apply B. intros j J. simpl plus. apply S1. lia.
    - apply S1. lia.
    - destruct first as [a|f a|b A body].
      + destruct (edge_atom a) as [p|] eqn:Ea.
        * rewrite step_filter; eauto using edge_atom_fits, edge_atom_key. discriminate.
        * reflexivity.
      + apply step_filter; simpl; auto. discriminate.
      + apply step_filter; simpl; auto. discriminate. }
  destruct (filter (fun x => negb (signed k x)) (x :: t)) as [|y t'] eqn:Et.
  - rewrite (E _ eq_refl), find_nil.
    assert (C : forall e terms q repl, step be K mi n metas [] k e terms q repl = Continue) by (intros; apply find_nil).
    rewrite (B _ (fun _ => Continue)) by (intros; apply C). rewrite C.
    assert (Bc : forall rs i, back (fun _ => Continue) first i rs = Continue).
    { induction rs as [|r rs IH]; intros i; simpl; auto. destruct (term_eqb first r); simpl; auto. }
    rewrite Bc. cbn [seq]. destruct first as [a|f a|b A body]; rewrite ?C; auto. destruct (edge_atom a); rewrite ?C; destruct a; auto.
  - rewrite (E _ eq_refl), find_cons. reflexivity.
Qed.

Lemma clause_covers p R q : tree_holds p R -> (forall s, In s R -> clause_fits (fst s)) -> literals q <> [] ->
  let k := sign_key be (literals q) in
  covers be (metas _ p) (filter (fun x => negb (signed k x)) (subtrie (entries _ p) k)) k (length (literal_terms (literals q))).
Proof.
  intros H FR Nq k kk i I. apply filter_In in I. destruct I as [I S]. apply in_subtrie in I. destruct I as [I [r Er]]. cbn [fst] in Er.
  destruct (t_sound _ _ H _ _ I) as (s & Ns & Ks). pose proof (FR _ (nth_error_In _ _ Ns)) as Fs.
  unfold key_from_clause in Ks. destruct (key_from_terms be (literal_terms (literals (fst s)))) as [ks|] eqn:Eks; [|discriminate].
  cbn [option_map] in Ks. inversion Ks as [Ks']. rewrite <- Ks' in Er.
  assert (Ts : literal_terms (literals (fst s)) <> []).
  { destruct (literals (fst s)) as [|y ys]; [|discriminate]. exfalso. simpl in Eks. inversion Eks; subst ks. simpl in Er.
    symmetry in Er. apply app_eq_nil in Er. destruct Er as [C _]. unfold k in C. destruct (literals q); [congruence|].
    rewrite sign_key_cons in C. apply app_eq_nil in C. destruct C as [C _]. exact (edge_not_nil _ C). }
  destruct (same_signs (literals (fst s)) (literals q) ks r) as [E1 E2]; auto.
  { exact (terms_first_edge _ _ (literal_terms_fit _ Fs) Ts Eks). }
  { intros b r' ->. assert (C : signed k (kk, i) = true).
    { apply signed_spec. exists b, r'. cbn [fst]. rewrite <- Ks', Er. auto. }
    rewrite C in S. discriminate. }
  subst r.
  exists (literal_terms (literals (fst s))), ks. split; [|split; [|split; [|split]]].
  - rewrite !literal_terms_length, <- (map_length positive (literals (fst s))), E1, map_length. auto.
  - apply literal_terms_fit; auto.
  - auto.
  - exact Er.
  - rewrite (t_metas _ _ H), map_length. apply nth_error_Some. congruence.
Qed.

(** A search that is not over a limit does not panic, and neither does one that is. *)
Lemma find_no_crash n : forall metas t k terms q repl,
  covers be metas t k (length terms) -> length repl + n <= 500 -> Forall fits terms ->
  Forall (typed K q) terms -> Forall (typed K q) repl -> find n metas t k terms q repl <> Crash.
Proof.
  assert (Sq : forall a b, a <> Crash -> b <> Crash -> seq a b <> Crash) by (intros [] b; simpl; auto; discriminate).
  induction n as [|n IH]; intros metas t k terms q repl C L F Tt Tr; [destruct t; discriminate|].
  destruct t as [|x t]; [discriminate|].
  destruct terms as [|first rest].
  - rewrite find_end. destruct x as [kk id].
    destruct (C kk id (or_introl eq_refl)) as (ps & k2 & L0 & _ & K2 & E & _).
    destruct ps; [|discriminate]. inversion K2; subst k2. rewrite app_nil_r in E. subst kk.
    destruct (in_trie_get ((k, id) :: t) k (or_introl eq_refl)) as [v G]. rewrite G.
    apply trie_get_in in G. destruct (C _ _ G) as (_ & _ & _ & _ & _ & _ & Lv).
    apply nth_error_Some in Lv. destruct (nth_error metas v) as [pctx|]; [|congruence].
    pose proof (verify_total K mi repl 0 pctx q Tr).
    destruct (verify_from K mi 0 repl pctx q) as [[|]|]; try discriminate. congruence.
  - rewrite find_cons. inversion F as [|? ? Ff Fr]; subst. inversion Tt as [|? ? Tf Ts]; subst.
    assert (Step : forall i repl', i < 500 -> length repl' + n <= 500 -> Forall (typed K q) repl' ->
       step be K mi n metas (x :: t) k (EAtom (PVar i)) rest q repl' <> Crash).
    { intros i repl' Hi L' T'. apply IH; auto.
      apply (covers_step be metas (x :: t) k (length rest) (EAtom (PVar i))); simpl; auto; [|discriminate].
      unfold small. lia. }
    apply Sq; [|apply Sq].
    + assert (Bk : forall rs i, i + length rs <= length repl ->
        back (fun i => step be K mi n metas (x :: t) k (EAtom (PVar i)) rest q repl) first i rs <> Crash).
      { induction rs as [|r rs IHr]; intros i Hi; simpl in *; [discriminate|]. apply Sq; [|apply IHr; lia].
        destruct (term_eqb first r); [|discriminate]. apply Step; auto; lia. }
      apply Bk. lia.
    + apply Step; [lia|rewrite app_length; simpl; lia|]. apply Forall_app. auto.
    + destruct first as [a|f a|b A body].
      * destruct (edge_atom a) as [p|] eqn:Ea; [|destruct a; discriminate].
        assert (G : step be K mi n metas (x :: t) k (EAtom p) rest q repl <> Crash).
        { apply IH; auto; [|lia].
          apply (covers_step be metas (x :: t) k (length rest) (EAtom p)); eauto using edge_atom_fits, edge_atom_key. discriminate. }
        destruct a; auto. discriminate.
      * destruct Ff as [F1 F2]. apply IH; auto; [|lia|].
        { apply (covers_step be metas (x :: t) k (length rest) EApp); simpl; auto. discriminate. }
        apply typed_app in Tf. destruct Tf. auto.
      * destruct Ff as [F1 F2]. apply IH; auto; [|lia| |].
        { apply (covers_step be metas (x :: t) k (length rest) (EBind b)); simpl; auto. discriminate. }
        { apply typed_bind in Tf. destruct Tf. constructor; [apply typed_push; auto|]. constructor; [apply typed_push; auto|].
          eapply Forall_impl; [|exact Ts]. intros; apply typed_push; auto. }
        { eapply Forall_impl; [|exact Tr]. intros; apply typed_push; auto. }
Qed.
Lemma find_clause_no_panic p R q : tree_holds p R -> (forall s, In s R -> clause_fits (fst s)) -> literals q <> [] ->
  clause_fits q -> Forall (typed K (context q)) (literal_terms (literals q)) -> find_clause be K mi p q <> Panics _.
Proof.
  intros H FR Nq Fq Tq. unfold find_clause, answer_of.
  assert (G : forall n, length (@nil term) + S n <= 500 ->
    find (S n) (metas nat p) (subtrie (entries nat p) (sign_key be (literals q))) (sign_key be (literals q)) (literal_terms (literals q)) (context q) [] <> Crash).
  { intros n L. pose proof (literal_terms_fit _ Fq) as Ft. pose proof (clause_covers p R q H FR Nq) as C. cbv zeta in C.
    assert (Nt : literal_terms (literals q) <> []) by (destruct (literals q); [congruence|discriminate]).
    destruct (literal_terms (literals q)) as [|first rest] eqn:Et; [congruence|].
    rewrite find_filter; [|exact L|inversion Ft; auto]. apply find_no_crash; auto. }
  assert (Sound : forall n i repl, length (@nil term) + n <= 500 -> find n (metas nat p) (subtrie (entries nat p) (sign_key be (literals q))) (sign_key be (literals q)) (literal_terms (literals q)) (context q) [] = Found i repl ->
     nth_error (values nat p) i <> None).
  { intros n i repl L F. apply find_sound in F; [|exact L|apply literal_terms_fit; auto].
    destruct F as (ps & k2 & pctx & ext & qext & I & _). apply in_subtrie in I. destruct I as [I _].
    destruct (t_sound _ _ H _ _ I) as (s & Ns & _). rewrite (t_values _ _ H), (map_nth_error snd _ _ Ns). discriminate. }
  specialize (G 499 (le_n 500)). specialize (Sound stack_limit). change 500 with stack_limit in G.
  specialize (fun i r => Sound i r limit_ok).
  revert G Sound. change (S 499) with stack_limit. generalize stack_limit. intros n G Sound.
  destruct (find n _ _ _ _ _ _) as [i repl| | |] eqn:F; try discriminate; [|congruence].
  specialize (Sound i repl eq_refl). destruct (nth_error (values nat p) i); [discriminate|congruence].
Qed.

(** A stored clause with the query as instance is found. *)
Lemma find_clause_complete p R s sigma q : tree_holds p R -> (forall s, In s R -> clause_fits (fst s)) -> literals q <> [] ->
  clause_fits q -> Forall (typed K (context q)) (literal_terms (literals q)) ->
  In s R -> (forall s', In s' R -> literals (fst s') = literals (fst s) -> context (fst s') = context (fst s)) ->
  map positive (literals (fst s)) = map positive (literals q) ->
  map (instance sigma) (literal_terms (literals (fst s))) = literal_terms (literals q) ->
  numbers 0 (literal_terms (literals (fst s))) = Some (length sigma) ->
  (forall ext, verify_from K mi 0 sigma (context (fst s)) (context q ++ ext) = Some true) ->
  sizes (literal_terms (literals q)) < 500 ->
  exists v, find_clause be K mi p q = Hit _ v.
Proof.
  intros H FR Nq Fq Tq Is Only Ep Ei Nb V Sz.
  assert (G : exists i r, find (S 499) (metas nat p) (subtrie (entries nat p) (sign_key be (literals q))) (sign_key be (literals q)) (literal_terms (literals q)) (context q) [] = Found i r).
  { pose proof (literal_terms_fit _ Fq) as Ft. pose proof (clause_covers p R q H FR Nq) as C. cbv zeta in C.
    assert (Nt : literal_terms (literals q) <> []) by (destruct (literals q); [congruence|discriminate]).
    assert (Ef : forall t, find (S 499) (metas nat p) t (sign_key be (literals q)) (literal_terms (literals q)) (context q) [] =
      find (S 499) (metas nat p) (filter (fun x => negb (signed (sign_key be (literals q)) x)) t) (sign_key be (literals q)) (literal_terms (literals q)) (context q) []).
    { intros t. destruct (literal_terms (literals q)) as [|first rest]; [congruence|]. apply find_filter; [exact (le_n 500)|inversion Ft; auto]. }
    rewrite Ef. clear Ef.
    destruct (t_all _ _ H s Is) as (k & Ks & Ik). apply in_map_iff in Ik. destruct Ik as ([k' i] & Ek & Ik). cbn in Ek. subst k'.
    destruct (t_sound _ _ H _ _ Ik) as (s' & Ns & Ks').
    assert (Nl : literals (fst s) <> []).
    { intros C'. rewrite C' in Ep. destruct (literals q); [congruence|discriminate]. }
    pose proof (FR _ Is) as F1. pose proof (FR _ (nth_error_In _ _ Ns)) as F2.
    assert (Es : literals (fst s') = literals (fst s)).
    { destruct (literals (fst s')) as [|y ys] eqn:Ey.
      - exfalso. unfold key_from_clause in Ks', Ks. rewrite Ey in Ks'. simpl in Ks'. inversion Ks'; subst k.
        destruct (key_from_terms be _) in Ks; [|discriminate]. cbn [option_map] in Ks. inversion Ks as [Z]. apply app_eq_nil in Z. destruct Z as [Z _].
        destruct (literals (fst s)); [congruence|]. rewrite sign_key_cons in Z. apply app_eq_nil in Z. destruct Z as [Z _]. exact (edge_not_nil _ Z).
      - rewrite <- Ey. apply (clause_keys_faithful be (fst s') (fst s) k []); auto; [congruence|]. rewrite app_nil_r. auto. }
    pose proof (Only _ (nth_error_In _ _ Ns) Es) as Ec.
    unfold key_from_clause in Ks. destruct (key_from_terms be (literal_terms (literals (fst s)))) as [ks|] eqn:Eks; [|discriminate].
    cbn [option_map] in Ks. inversion Ks as [Kq].
    assert (Esg : sign_key be (literals (fst s)) = sign_key be (literals q)).
    { clear -Ep. revert Ep. generalize (literals q). induction (literals (fst s)) as [|x l IH]; intros [|y m] E; try discriminate; auto.
      simpl in E. inversion E. rewrite !sign_key_cons, (IH m) by auto. congruence. }
    rewrite Esg in Kq.
    destruct (find_complete be K mi (S 499) (metas nat p) (filter (fun x => negb (signed (sign_key be (literals q)) x)) (subtrie (entries nat p) (sign_key be (literals q))))
      (sign_key be (literals q)) (literal_terms (literals (fst s))) ks i (context (fst s)) sigma (context q) [] sigma) as (i' & r' & Fd); auto.
    - assert (N1 : NoDup (map fst (subtrie (entries nat p) (sign_key be (literals q))))) by (apply nodup_subtrie, (t_nodup _ _ H)).
      revert N1. generalize (subtrie (entries nat p) (sign_key be (literals q))). clear. induction l as [|x l IH]; simpl; auto. intros N. inversion N; subst.
      destruct (negb (signed (sign_key be (literals q)) x)); auto. simpl. constructor; auto. intros C. apply H1. apply in_map_iff in C. destruct C as (y & E & C).
      apply filter_In in C. rewrite <- E. apply in_map. tauto.
    - apply filter_In. split.
      + apply in_subtrie. split; [rewrite Kq; exact Ik|]. exists ks. auto.
      + apply negb_true_iff. destruct (signed _ _) eqn:S; auto. exfalso. apply signed_spec in S. destruct S as (b & r & S). cbn [fst] in S.
        apply app_inv_head in S. destruct (terms_first_edge (literal_terms (literals (fst s))) ks) as (e & r' & Ne & Fe & Ke & X); auto using literal_terms_fit.
        { destruct (literals (fst s)); [congruence|discriminate]. }
        rewrite X in S. apply edge_prefix in S; simpl; auto. destruct S. eapply Ne; eauto.
    - apply literal_terms_fit; auto.
    - rewrite (t_metas _ _ H), (map_nth_error _ _ _ Ns), Ec. reflexivity.
    - rewrite Ei. exact C.
    - rewrite Ei. exact Sz.
    - rewrite Ei. auto.
    - rewrite Ei. auto.
    - rewrite Ei in Fd. eauto. }
  unfold find_clause, answer_of. destruct G as (i & r & G). change (S 499) with stack_limit in G.
  assert (Sound : nth_error (values nat p) i <> None).
  { revert G. generalize limit_ok. generalize stack_limit. intros n L G. apply find_sound in G; [|exact L|apply literal_terms_fit; auto].
    destruct G as (ps & k2 & pctx & ext & qext & I & _). apply in_subtrie in I. destruct I as [I _].
    destruct (t_sound _ _ H _ _ I) as (s' & Ns & _). rewrite (t_values _ _ H), (map_nth_error snd _ _ Ns). discriminate. }
  revert G. generalize stack_limit. intros n ->. destruct (nth_error (values nat p) i); [eauto|congruence].
Qed.
End Tree.
