(** Property C44: the generalization set.  Its order on terms, the soundness of its lookups, when they
    cannot panic, and which instances are found. *)
From Coq Require Import List Arith NArith Bool Lia Permutation.
Import ListNotations.
From Verif Require Import Term LocalContext TermProofs Kbo Literal Clause ClauseProofs RenumberProofs Typing VariableMap VariableMapProofs
  InferenceProofs Fingerprint P_Fingerprint Pdt PdtProofs P_PdtKeys P_LiteralSet GeneralizationSet GeneralizationSetProofs.

(** ** the order *)
(** On typed terms without variables and binders the comparison always answers; it is a total order. *)
Theorem concrete_terms_are_ordered :
  forall K c, kclosed K ->
  exists cmp, (forall a b n, ground a -> ground b -> has_types K c a -> has_types K c b ->
                 sub_cmp K c a n b n = Some (Some (cmp a b))) /\
    (forall a b, ground a -> ground b -> (cmp a b = Eq <-> a = b)) /\
    (forall a b, ground a -> ground b -> cmp b a = CompOpp (cmp a b)) /\
    (forall a b d, ground a -> ground b -> ground d -> cmp a b = Lt -> cmp b d = Lt -> cmp a d = Lt).
Proof.
  intros K c HK. exists (gcmp K). split; [|split; [|split]].
  - intros. apply sub_cmp_ground; auto.
  - intros a b Ga Gb. split; [apply gcmp_identical; auto|]. intros <-. apply gcmp_refl; auto.
  - intros. symmetry. apply gcmp_opp; auto.
  - intros a b d Ga Gb Gd. apply (gcmp_tri K a b d Ga Gb Gd).
Qed.
Print Assumptions concrete_terms_are_ordered.

(** Terms that compare keep their order under every map that respects types. *)
Theorem comparison_is_stable :
  forall K c m out, kclosed K -> typed_map K c m out -> forall l n r n' o, no_redex l -> no_redex r ->
  sub_cmp K c l n r n' = Some (Some o) -> sub_cmp K out (apply_to_term m l) n (apply_to_term m r) n' = Some (Some o).
Proof. intros K c m out HK Hm l n r n' o Nl Nr. apply sub_cmp_stable; auto. Qed.
Print Assumptions comparison_is_stable.

(** ** the set *)
Fixpoint insert_all (be : bool) (K : kctx) (p : pdt nat) (ops : list (clause * nat)) : option (pdt nat) :=
  match ops with
  | [] => Some p
  | (cl, id) :: r => match gset_insert be K p cl id with Some p' => insert_all be K p' r | None => None end
  end.
(** [x] is an instance of [l] under [m], perhaps with the sides exchanged. *)
Definition instance_of (m : vmap) (l x : literal) : Prop :=
  positive x = positive l /\
  ((left x = apply_to_term m (left l) /\ right x = apply_to_term m (right l)) \/
   (left x = apply_to_term m (right l) /\ right x = apply_to_term m (left l))).
(** [q] is an instance of [cl] up to the order of the literals and the sides of the literals. *)
Definition clause_instance (m : vmap) (cl q : clause) : Prop :=
  exists ls, Permutation (literals q) ls /\ Forall2 (instance_of m) (literals cl) ls.
(** No variables. *)
Definition concrete (q : clause) : Prop := forall t, In t (literal_terms (literals q)) -> vars t = [].

Definition forms_of (K : kctx) (o : clause * nat) : list (clause * nat) :=
  match generalized_forms K (fst o) with Some cs => map (fun f => (f, snd o)) cs | None => [] end.

Section Set_.
Context (be : bool) (K : kctx) (mi : lctx -> term -> lctx -> term -> bool).

Lemma holds_forms cs id : forall p R p', tree_holds be p R -> insert_forms be p id cs = Some p' ->
  tree_holds be p' (R ++ map (fun f => (f, id)) cs).
Proof.
  induction cs as [|f cs IH]; intros p R p' H E; cbn [insert_forms map] in *.
  - inversion E; subst. rewrite app_nil_r. auto.
  - destruct (insert_clause be p f id) as [p1|] eqn:E1; [|discriminate].
    pose proof (tree_insert _ _ _ _ _ _ H E1) as H1. apply (IH _ _ _ H1) in E. rewrite <- app_assoc in E. exact E.
Qed.
Lemma holds_ops ops : forall p R p', tree_holds be p R -> insert_all be K p ops = Some p' ->
  tree_holds be p' (R ++ flat_map (forms_of K) ops).
Proof.
  induction ops as [|[cl id] ops IH]; intros p R p' H E; cbn [insert_all flat_map] in *.
  - inversion E; subst. rewrite app_nil_r. auto.
  - destruct (gset_insert be K p cl id) as [p1|] eqn:E1; [|discriminate]. unfold gset_insert in E1.
    unfold forms_of at 1. cbn [fst snd]. destruct (generalized_forms K cl) as [cs|]; [|discriminate].
    apply (holds_forms _ _ _ _ _ H) in E1. rewrite app_assoc. eapply IH; eauto.
Qed.
Lemma inserted_forms ops : forall p p' cl id, insert_all be K p ops = Some p' -> In (cl, id) ops ->
  exists cs, generalized_forms K cl = Some cs.
Proof.
  induction ops as [|[cl0 id0] ops IH]; intros p p' cl id E I; [contradiction|]. cbn [insert_all] in E.
  destruct (gset_insert be K p cl0 id0) as [p1|] eqn:E1; [|discriminate]. destruct I as [I|I]; [|eauto].
  inversion I; subst. unfold gset_insert in E1. destruct (generalized_forms K cl); [eauto|discriminate].
Qed.

(** The forms fit when the clause does. *)
Lemma nodup_bound k l : NoDup l -> (forall x, In x l -> x < k) -> length l <= k.
Proof.
  intros N B. rewrite <- (seq_length k 0). apply NoDup_incl_length; auto. intros x I. apply in_seq. specialize (B x I). lia.
Qed.
Lemma flip_flip l : flip (flip l) = l.
Proof. destruct l; reflexivity. Qed.
Lemma same_sides_sym a b : same_sides a b -> same_sides b a.
Proof. unfold same_sides. intros [->| ->]; auto. rewrite flip_flip. auto. Qed.
Lemma sides_terms ls d t : Forall2 same_sides ls d -> In t (literal_terms d) <-> In t (literal_terms ls).
Proof.
  induction 1 as [|l l' ls d S _ IH]; [simpl; tauto|]. cbn [literal_terms flat_map]. rewrite !in_app_iff.
  change (flat_map _ d) with (literal_terms d). change (flat_map _ ls) with (literal_terms ls). rewrite IH.
  destruct S as [->| ->]; simpl; tauto.
Qed.
Lemma perm_terms ls d t : Permutation ls d -> In t (literal_terms d) <-> In t (literal_terms ls).
Proof.
  intros P. unfold literal_terms. rewrite !in_flat_map. split; intros (x & I & J); exists x; split; auto.
  - apply Permutation_sym in P. eapply Permutation_in; eauto.
  - eapply Permutation_in; eauto.
Qed.
Lemma fits_vars t v : fits t -> In v (vars t) -> small (N.of_nat v).
Proof.
  induction t as [[i|i|s]|f IHf a IHa|k A IHA b IHb]; simpl; intros F I.
  - destruct I as [<-|[]]. auto.
  - contradiction.
  - contradiction.
  - rewrite vars_app in I. apply in_app_or in I. destruct F, I; auto.
  - rewrite vars_bind in I. apply in_app_or in I. destruct F, I; auto.
Qed.
Lemma renumber_fits ids t : length ids <= N.to_nat 65536 -> fits t -> forall t', renumber_variables ids t = Some t' -> fits t'.
Proof.
  intros L. induction t as [[i|i|s]|f IHf a IHa|k A IHA b IHb]; intros F t'; cbn [renumber_variables].
  - destruct (position i ids) as [p|] eqn:E; [|discriminate]. intros E'; inversion E'; subst. cbn [fits]. apply position_some in E.
    unfold small. lia.
  - intros E; inversion E; subst. auto.
  - intros E; inversion E; subst. auto.
  - destruct F as [F1 F2]. destruct (renumber_variables ids f); [|discriminate]. destruct (renumber_variables ids a); [|discriminate].
    intros E; inversion E; subst. simpl. auto.
  - destruct F as [F1 F2]. destruct (renumber_variables ids A); [|discriminate]. destruct (renumber_variables ids b); [|discriminate].
    intros E; inversion E; subst. simpl. auto.
Qed.
Lemma terms_fit cl : clause_fits cl <-> Forall fits (literal_terms (literals cl)).
Proof.
  split; [apply literal_terms_fit|]. unfold clause_fits. induction (literals cl) as [|l ls IH]; intros H; [constructor|].
  cbn [literal_terms flat_map app] in H. inversion H as [|? ? F1 H1]; subst. inversion H1 as [|? ? F2 H2]; subst.
  constructor; auto.
Qed.
Lemma form_fits cl cs f : clause_fits cl -> generalized_forms K cl = Some cs -> In f cs -> clause_fits f.
Proof.
  intros Fc E I. destruct (forms_sound K _ _ _ E I) as (d & o & S & P & N).
  apply types_last_spec in N. destruct N as (ids & tids & Nd & Iv & El & R & _).
  apply terms_fit. apply terms_fit in Fc. rewrite Forall_forall in *.
  assert (Fo : forall t, In t (literal_terms o) -> fits t).
  { intros t It. apply Fc. rewrite (perm_terms _ _ _ P), (sides_terms _ _ _ S) in It. auto. }
  assert (L : length ids <= N.to_nat 65536).
  { apply nodup_bound; auto. intros v V. apply Iv in V. destruct V as (t & It & V). pose proof (fits_vars _ _ (Fo t It) V) as Sv. unfold small in Sv. lia. }
  intros t It. rewrite El in It.
  assert (J : exists u, In u (literal_terms o) /\ t = apply_var_renumbering ids tids u).
  { clear -It. unfold literal_terms in *. rewrite in_flat_map in It. destruct It as (l & Il & It). apply in_map_iff in Il. destruct Il as (x & <- & Ix).
    cbn [left right] in It. destruct It as [<-|[<-|[]]]; eexists; (split; [apply in_flat_map; exists x; split; [auto|]|reflexivity]); simpl; auto. }
  destruct J as (u & Iu & ->). eapply (renumber_fits ids); eauto.
Qed.
Lemma stored_fit ops s : Forall (fun o => clause_fits (fst o)) ops -> In s (flat_map (forms_of K) ops) -> clause_fits (fst s).
Proof.
  intros F I. apply in_flat_map in I. destruct I as (o & Io & I). unfold forms_of in I.
  destruct (generalized_forms K (fst o)) as [cs|] eqn:E; [|contradiction]. apply in_map_iff in I. destruct I as (f & <- & If).
  cbn [fst]. eapply form_fits; eauto. rewrite Forall_forall in F. auto.
Qed.

(** *** the specialized form of a concrete clause *)
Lemma normalize_no_vars c t : vars t = [] -> forall ids, normalize_var_ids c ids t = Some (t, ids).
Proof.
  induction t as [[i|i|s]|f IHf a IHa|k A IHA b IHb]; intros V ids; cbn [normalize_var_ids]; auto.
  - discriminate.
  - rewrite vars_app in V. apply app_eq_nil in V. destruct V. rewrite IHf, IHa; auto.
  - rewrite vars_bind in V. apply app_eq_nil in V. destruct V. rewrite IHA, IHb; auto.
Qed.
Lemma compact_no_vars ls c : (forall t, In t (literal_terms ls) -> vars t = []) -> compact_var_ids (Clause ls c) = Some (Clause ls []).
Proof.
  intros V. unfold compact_var_ids. cbn [literals context].
  assert (G : compact_literals c [] ls = Some (ls, [])).
  { induction ls as [|[s a b] ls IH]; auto. cbn [compact_literals left right positive].
    rewrite !normalize_no_vars by (apply V; simpl; auto). rewrite IH by (intros; apply V; simpl; auto). reflexivity. }
  rewrite G. reflexivity.
Qed.
Lemma orient_sides c l l' : orient K c l = Some l' -> same_sides l l'.
Proof. unfold orient, same_sides. destruct (sub_cmp _ _ _ _ _ _) as [[[]|]|]; intros E; inversion E; auto. Qed.
Lemma specialized_spec q s : concrete q -> specialized_form K q = Some s -> exists ls,
  map Some ls = map (orient K (context q)) (literals q) /\ Forall2 same_sides (literals q) ls /\ Permutation ls (literals s) /\
  literals s = sort (decreasing_cmp K (context q)) ls /\ context s = [].
Proof.
  intros V E. unfold specialized_form in E. destruct (all_some _) as [ls|] eqn:Ea; [|discriminate]. apply all_some_in in Ea.
  destruct (all_pairs _ _); [|discriminate].
  assert (S : Forall2 same_sides (literals q) ls).
  { clear -Ea. revert ls Ea. induction (literals q) as [|l r IH]; intros [|x ls] E; try discriminate; constructor; simpl in E; inversion E.
    - eapply orient_sides; eauto.
    - auto. }
  rewrite compact_no_vars in E.
  - inversion E; subst. cbn [literals context]. exists ls. split; auto. split; auto. split; auto. apply sort_perm.
  - intros t It. apply V. apply (sides_terms _ _ _ S). rewrite <- (perm_terms ls); [exact It|]. apply sort_perm.
Qed.
End Set_.

Lemma sides_instance m l d x q : same_sides l d -> positive x = positive d -> left x = apply_to_term m (left d) ->
  right x = apply_to_term m (right d) -> same_sides q x -> instance_of m l q.
Proof.
  intros S P L R Q. apply same_sides_sym in Q. unfold instance_of.
  destruct S as [->| ->], Q as [->| ->]; cbn [flip positive left right] in *; auto.
Qed.

Local Opaque find_clause.
(** What a lookup returns is the id of an inserted clause that has the query as instance: some map of
    variables turns its literals into the query's, up to order and sides.  A variable whose type has no
    variables gets a term of that type. *)
Theorem found_clauses_are_generalizations :
  forall be K mi, (forall pc T qc T', vars T = [] -> mi pc T qc T' = true -> T' = T) ->
  forall ops p q id, Forall (fun o => clause_fits (fst o)) ops -> insert_all be K pdt_new ops = Some p ->
  clause_fits q -> concrete q -> gset_find be K mi p q = Hit _ id ->
  exists cl m out, In (cl, id) ops /\ clause_instance m cl q /\
    (forall t v T, In t (literal_terms (literals cl)) -> In v (vars t) -> get_var_type (context cl) v = Some T -> plain_type T ->
       exists u, vget m v = Some u /\ get_type K out u = Some T).
Proof.
  intros be K mi Hmi ops p q id F Ins Fq V E.
  pose proof (holds_ops be K ops _ _ _ (tree_new be) Ins) as H. cbn [app] in H.
  unfold gset_find in E. destruct (specialized_form K q) as [s|] eqn:Es; [|discriminate].
  destruct (specialized_spec K q s V Es) as (ls & _ & Sl & Pl & _ & _).
  assert (Fs : clause_fits s).
  { apply terms_fit. apply terms_fit in Fq. rewrite Forall_forall in *. intros t It. apply Fq.
    rewrite (perm_terms _ _ _ Pl), (sides_terms _ _ _ Sl) in It. auto. }
  apply (find_clause_sound be K mi p _ s id H) in E; auto; [|intros; eapply stored_fit; eauto].
  destruct E as (st & repl & ext & Is & Ei & Ep & Et & Nb & Ver).
  apply in_flat_map in Is. destruct Is as ([cl id0] & Io & Is). unfold forms_of in Is. cbn [fst snd] in Is.
  destruct (generalized_forms K cl) as [cs|] eqn:Eg; [|contradiction]. apply in_map_iff in Is. destruct Is as (f & <- & If).
  cbn [fst snd] in *. subst id0.
  destruct (forms_sound K _ _ _ Eg If) as (d & o & Sd & Pd & Nf).
  apply types_last_spec in Nf. destruct Nf as (ids & tids & Nd & Iv & El & R & Nb' & Rm).
  rewrite Nb in Nb'. inversion Nb' as [Lr].
  destruct (set_all ids repl []) as [m|] eqn:Em.
  2:{ exfalso. clear -Em Lr. assert (G : forall ids repl m, length repl = length ids -> set_all ids repl m <> None).
      { clear. induction ids as [|i ids IH]; intros [|t repl] m L; simpl in *; try discriminate. apply IH. lia. }
      eapply G; eauto. }
  destruct (set_all_get _ _ _ _ Em Nd) as (_ & Gm & _).
  assert (Lv : forall t, In t (literal_terms o) -> apply_to_term m t = instance repl (apply_var_renumbering ids tids t)).
  { intros t It. rewrite Forall_forall in R. apply (apply_renumbered m ids repl t _ (R t It)); auto.
    intros v J. destruct (proj2 (renumber_vars _ _ _ (R t It)) v J) as (w & Nw & _). rewrite Lr. apply nth_error_Some. congruence. }
  exists cl, m, (context s ++ ext). split; auto. split.
  2:{ intros t v T It Jv Gv Pt.
      assert (Vi : In v ids).
      { apply Iv. exists t. split; auto. rewrite (perm_terms _ _ _ Pd), (sides_terms _ _ _ Sd). auto. }
      apply In_nth_error in Vi. destruct Vi as [i Ni].
      assert (Bi : i < length repl) by (rewrite Lr; apply nth_error_Some; congruence).
      apply nth_error_Some in Bi. destruct (nth_error repl i) as [u|] eqn:Eu; [|congruence].
      exists u. split; [eapply Gm; eauto|].
      destruct (remap_get _ _ _ Rm) as [_ Gr].
      assert (Ni' : nth_error (ids ++ tids) i = Some v) by (rewrite nth_error_app1; auto; apply nth_error_Some; congruence).
      destruct (Gr _ _ Ni') as (T0 & T1 & G0 & R0 & G1). rewrite Gv in G0. inversion G0; subst T0.
      apply renumber_closed in R0; [|apply Pt]. subst T1.
      exact (verify_types K mi Hmi repl 0 _ _ i u T Ver Eu G1 Pt). }
  (* the literals of the form, pointwise *)
  assert (Fo : Forall2 (fun x y => positive y = positive x /\ left y = apply_to_term m (left x) /\ right y = apply_to_term m (right x)) o (literals s)).
  { clear -El Ep Et Lv. rewrite El in Ep, Et. clear El. revert Ep Et Lv. generalize (literals s). induction o as [|x o IH]; intros [|y l] Ep Et Lv; try discriminate; constructor.
    - cbn [map literal_terms flat_map app left right positive] in Ep, Et. inversion Ep. inversion Et. rewrite !Lv by (simpl; auto). auto.
    - cbn [map literal_terms flat_map app left right positive] in Ep, Et. inversion Ep. inversion Et. apply IH; auto. intros t It. apply Lv. simpl. auto. }
  destruct (Permutation_Forall2 (Permutation_sym Pd) Fo) as (s' & P1 & F1).
  assert (P2 : Permutation ls s') by (rewrite Pl; auto).
  assert (Sl' : Forall2 (fun a b => same_sides b a) ls (literals q)).
  { clear -Sl. induction Sl; constructor; auto. }
  destruct (Permutation_Forall2 P2 Sl') as (q' & P3 & F3).
  exists q'. split; auto.
  clear -Sd F1 F3. revert s' q' F1 F3. induction Sd as [|l d0 ls d S _ IH]; intros s' q' F1 F3; inversion F1; subst; inversion F3; subst; constructor.
  - match goal with H : _ /\ _ |- _ => destruct H as (? & ? & ?) end. eapply sides_instance; eauto.
  - eapply IH; eauto.
Qed.
Print Assumptions found_clauses_are_generalizations.

(** ** lookups that cannot panic *)
(** Symbols and applications only, every part with a type. *)
Definition simple_clause (K : kctx) (q : clause) : Prop :=
  forall t, In t (literal_terms (literals q)) -> ground t /\ has_types K (context q) t.

Section Simple.
Context (K : kctx) (HK : kclosed K).
Definition simple_literal (c : lctx) (l : literal) : Prop :=
  (ground (left l) /\ has_types K c (left l)) /\ (ground (right l) /\ has_types K c (right l)).
Lemma simple_flip c l : simple_literal c l -> simple_literal c (flip l).
Proof. unfold simple_literal, flip. cbn. tauto. Qed.
Lemma simple_sides c l l' : same_sides l l' -> simple_literal c l -> simple_literal c l'.
Proof. intros [->| ->]; auto. apply simple_flip. Qed.
Lemma simple_literals q l : simple_clause K q -> In l (literals q) -> simple_literal (context q) l.
Proof.
  intros S I. split; apply S; unfold literal_terms; apply in_flat_map; exists l; simpl; auto.
Qed.
Lemma simple_concrete q : simple_clause K q -> concrete q.
Proof. intros S t I. apply ground_vars. apply S. auto. Qed.

Definition side_cmp (l : literal) : comparison := gcmp K (left l) (right l).
Lemma orient_simple c l : simple_literal c l -> orient K c l = Some (match side_cmp l with Lt => flip l | _ => l end).
Proof.
  intros [[G1 T1] [G2 T2]]. unfold orient. rewrite sub_cmp_ground by auto. unfold side_cmp. destruct (gcmp _ _ _); reflexivity.
Qed.
Definition lit_order (a b : literal) : comparison :=
  match bool_cmp (negb (positive a)) (negb (positive b)) with
  | Eq => match gcmp K (left a) (left b) with Eq => gcmp K (right a) (right b) | x => x end
  | x => x
  end.
Lemma sub_cmp_signs c l n r n' x : bool_cmp n n' = x -> x <> Eq -> sub_cmp K c l n r n' = Some (Some x).
Proof. intros E N. destruct l; cbn [sub_cmp]; rewrite E; destruct x; congruence. Qed.
Lemma literal_order c a b : simple_literal c a -> simple_literal c b -> sub_literal_cmp K c a b = Some (Some (lit_order a b)).
Proof.
  intros [[G1 T1] [G2 T2]] [[G3 T3] [G4 T4]]. unfold sub_literal_cmp, lit_order.
  destruct (positive a), (positive b); cbn [negb]; try (rewrite (sub_cmp_signs _ _ _ _ _ _ eq_refl); [reflexivity|discriminate]).
  all: rewrite !sub_cmp_ground by auto; destruct (gcmp K (left a) (left b)); reflexivity.
Qed.
Lemma lit_order_opp a b : ground (left a) -> ground (left b) -> ground (right a) -> ground (right b) ->
  lit_order b a = CompOpp (lit_order a b).
Proof.
  intros. unfold lit_order. destruct (positive a), (positive b); cbn [negb bool_cmp CompOpp]; auto.
  all: rewrite <- (gcmp_opp K (left a) (left b)), <- (gcmp_opp K (right a) (right b)) by auto; destruct (gcmp K (left a) (left b)); reflexivity.
Qed.
Lemma simple_form q : simple_clause K q -> exists s, specialized_form K q = Some s.
Proof.
  intros S. unfold specialized_form.
  assert (E : exists ls, all_some (map (orient K (context q)) (literals q)) = Some ls /\ Forall (simple_literal (context q)) ls /\
     Forall2 same_sides (literals q) ls).
  { assert (F : Forall (simple_literal (context q)) (literals q)) by (apply Forall_forall; intros; apply simple_literals; auto).
    clear S. induction F as [|l ls Sl _ (r & E & F & F2)]; [exists []; simpl; auto|].
    cbn [map all_some]. rewrite (orient_simple _ _ Sl), E. cbn [option_map]. eexists. split; [reflexivity|].
    assert (SS : same_sides l (match side_cmp l with Lt => flip l | _ => l end)) by (unfold same_sides; destruct (side_cmp l); auto).
    split; constructor; auto. eapply simple_sides; eauto. }
  destruct E as (ls & E & F & F2). rewrite E.
  assert (P : all_pairs (comparable K (context q)) ls = true).
  { clear E F2. induction F as [|l r Sl F IH]; cbn [all_pairs]; auto. rewrite IH, andb_true_r. apply forallb_forall. intros x I.
    rewrite Forall_forall in F. unfold comparable. rewrite !literal_order; auto. }
  rewrite P. eexists. apply compact_no_vars. intros t I. apply (simple_concrete q S). apply (sides_terms _ _ _ F2).
  rewrite <- (perm_terms ls); [exact I|apply sort_perm].
Qed.
Lemma simple_typed c d t : ground t -> has_types K c t -> typed K d t.
Proof.
  intros G H s I _ ext. assert (GH : ground s /\ has_types K c s).
  { clear -I G H. induction I; simpl in *; try contradiction; tauto. }
  destruct GH as [Gs Hs]. rewrite (ground_context K _ c s Gs). destruct (has_type K c s Hs) as [T ->]. discriminate.
Qed.
End Simple.

(** Looking up a typed clause without binders and variables never panics. *)
Theorem simple_lookups_do_not_panic :
  forall be K mi ops p q, kclosed K -> Forall (fun o => clause_fits (fst o)) ops -> insert_all be K pdt_new ops = Some p ->
  clause_fits q -> simple_clause K q -> literals q <> [] -> gset_find be K mi p q <> Panics _.
Proof.
  intros be K mi ops p q HK F Ins Fq S Nq.
  pose proof (holds_ops be K ops _ _ _ (tree_new be) Ins) as H. cbn [app] in H.
  unfold gset_find. destruct (simple_form K HK q S) as [s Es]. rewrite Es.
  destruct (specialized_spec K q s (simple_concrete K q S) Es) as (ls & _ & Sl & Pl & _ & Cs).
  assert (St : forall t, In t (literal_terms (literals s)) -> In t (literal_terms (literals q))).
  { intros t It. rewrite (perm_terms _ _ _ Pl), (sides_terms _ _ _ Sl) in It. auto. }
  eapply (find_clause_no_panic be K mi p _ s H).
  - intros; eapply stored_fit; eauto.
  - intros C. rewrite C in Pl. apply Permutation_sym, Permutation_nil in Pl. subst. inversion Sl. congruence.
  - apply terms_fit. apply terms_fit in Fq. rewrite Forall_forall in *. auto.
  - apply Forall_forall. intros t It. destruct (S t (St t It)). eapply simple_typed; eauto.
Qed.
Print Assumptions simple_lookups_do_not_panic.

(** ** instances are found *)
(** Stored forms with the same literals have the same types. *)
Definition one_context (K : kctx) (ops : list (clause * nat)) : Prop :=
  forall cl id cs f cl' id' cs' f', In (cl, id) ops -> In (cl', id') ops ->
    generalized_forms K cl = Some cs -> In f cs -> generalized_forms K cl' = Some cs' -> In f' cs' ->
    literals f = literals f' -> context f = context f'.

Section Complete.
Context (K : kctx) (HK : kclosed K).

Definition exact_instance (m : vmap) (d x : literal) : Prop :=
  positive x = positive d /\ left x = apply_to_term m (left d) /\ right x = apply_to_term m (right d).

Lemma directions_total c ls : directions K c ls <> None -> Forall (fun l => sub_cmp K c (left l) true (right l) true <> None) ls.
Proof.
  induction ls as [|l ls IH]; intros H; constructor; cbn [directions] in H; destruct (sub_cmp K c (left l) true (right l) true);
    try congruence; destruct (directions K c ls); congruence || (apply IH; congruence).
Qed.

(** The oriented instance is an instance of an allowed direction. *)
Lemma oriented_instance c m out l y x : typed_map K c m out -> no_redex (left l) -> no_redex (right l) ->
  sub_cmp K c (left l) true (right l) true <> None -> simple_literal K out y -> instance_of m l y -> orient K out y = Some x ->
  exists d, allowed_side K c l d /\ exact_instance m d x.
Proof.
  intros Hm N1 N2 Nn Sy [Py Iy] O. rewrite (orient_simple K HK) in O by auto. injection O as Ox.
  assert (Ly : exact_instance m l y \/ exact_instance m (flip l) y).
  { unfold exact_instance, flip. cbn. destruct Iy as [[]|[]]; tauto. }
  assert (Lx : (x = y /\ side_cmp K y <> Lt) \/ (x = flip y /\ side_cmp K y = Lt)).
  { rewrite <- Ox. destruct (side_cmp K y); auto; left; split; auto; discriminate. }
  assert (Fl : forall d z, exact_instance m d z -> exact_instance m (flip d) (flip z)).
  { unfold exact_instance, flip. cbn. tauto. }
  destruct Sy as [[G1 T1] [G2 T2]].
  destruct (sub_cmp K c (left l) true (right l) true) as [[o|]|] eqn:Ec; [|clear Nn|congruence].
  - pose proof (comparison_is_stable K c m out HK Hm (left l) true (right l) true o N1 N2 Ec) as Es.
    assert (Ey : (exact_instance m l y /\ side_cmp K y = o) \/ (exact_instance m (flip l) y /\ side_cmp K y = CompOpp o)).
    { unfold side_cmp. destruct Ly as [Ly|Ly]; [left|right]; split; auto; destruct Ly as (_ & L1 & L2); cbn [flip left right] in L1, L2.
      - rewrite <- L1, <- L2, sub_cmp_ground in Es by auto. congruence.
      - rewrite <- L1, <- L2, sub_cmp_ground in Es by auto. inversion Es. symmetry. apply gcmp_opp; auto. }
    destruct o.
    + assert (Q : left y = right y) by (apply (gcmp_identical K); auto; destruct Ey as [[_ E]|[_ E]]; exact E).
      assert (Fy : flip y = y) by (destruct y; cbn in *; subst; reflexivity).
      assert (x = y) as -> by (destruct Lx as [[-> _]|[-> _]]; auto).
      exists l. split; [left; split; auto; rewrite Ec; discriminate|].
      destruct Ly as [Ly|Ly]; auto. pose proof (Fl _ _ Ly) as Lz. rewrite (flip_flip l), Fy in Lz. auto.
    + exists (flip l). split; [right; auto|]. destruct Ey as [[Ly' E]|[Ly' E]], Lx as [[-> Lx]|[-> Lx]]; auto; try congruence.
      rewrite E in Lx. discriminate.
    + exists l. split; [left; split; auto; rewrite Ec; discriminate|].
      destruct Ey as [[Ly' E]|[Ly' E]], Lx as [[-> Lx]|[-> Lx]]; auto; try (rewrite E in Lx; cbn in Lx; congruence).
      pose proof (Fl _ _ Ly') as Lz. rewrite flip_flip in Lz. auto.
  - assert (Al : allowed_side K c l l) by (left; split; auto; rewrite Ec; discriminate).
    assert (Af : allowed_side K c l (flip l)) by (right; auto).
    destruct Ly as [Ly|Ly], Lx as [[-> _]|[-> _]]; [exists l|exists (flip l)|exists (flip l)|exists l]; (split; [assumption|]).
    + exact Ly.
    + apply Fl. exact Ly.
    + exact Ly.
    + pose proof (Fl _ _ Ly) as Lz. rewrite (flip_flip l) in Lz. exact Lz.
Qed.

Lemma literal_stable c m out a b x y o : typed_map K c m out ->
  no_redex (left a) -> no_redex (right a) -> no_redex (left b) -> no_redex (right b) ->
  exact_instance m a x -> exact_instance m b y ->
  sub_literal_cmp K c a b = Some (Some o) -> sub_literal_cmp K out x y = Some (Some o).
Proof.
  intros Hm N1 N2 N3 N4 (Px & Lx & Rx) (Py & Ly & Ry). unfold sub_literal_cmp. rewrite Px, Py, Lx, Ly, Rx, Ry.
  destruct (sub_cmp K c (left a) (negb (positive a)) (left b) (negb (positive b))) as [[o1|]|] eqn:E1; try discriminate.
  rewrite (comparison_is_stable K c m out HK Hm _ _ _ _ _ N1 N3 E1). destruct o1; auto. apply comparison_is_stable; auto.
Qed.

(** The literals of the specialized form do not increase. *)
Lemma insert_descending c x l : Forall (simple_literal K c) (x :: l) -> forall last,
  (match last with Some y => sub_literal_cmp K c y x <> Some (Some Lt) | None => True end) ->
  descending K c last l -> descending K c last (insert (decreasing_cmp K c) x l).
Proof.
  intros F. inversion F as [|? ? Sx Fl]; subst. clear F. induction Fl as [|y l Sy _ IH]; intros last Hx D; cbn [insert].
  - cbn. auto.
  - destruct D as [D1 D2]. unfold decreasing_cmp. rewrite literal_order by auto.
    destruct (lit_order K x y) eqn:E; cbn [CompOpp].
    + split; auto. split; auto. rewrite literal_order by auto. congruence.
    + split; auto. apply IH; auto. rewrite literal_order by auto. destruct Sx as [[] []], Sy as [[] []].
      rewrite lit_order_opp, E by auto. discriminate.
    + split; auto. split; auto. rewrite literal_order by auto. congruence.
Qed.
Lemma sort_descending c l : Forall (simple_literal K c) l -> descending K c None (sort (decreasing_cmp K c) l).
Proof.
  unfold sort. induction 1 as [|x l Sx F IH]; cbn [fold_right]; [exact I|]. apply insert_descending; auto. constructor; auto.
  apply Forall_forall. intros y Iy. rewrite Forall_forall in F. apply F. apply (Permutation_in y (Permutation_sym (sort_perm (decreasing_cmp K c) l))). exact Iy.
Qed.

Lemma descending_back c m out o ls : typed_map K c m out -> (forall t, In t (literal_terms o) -> no_redex t) ->
  Forall2 (exact_instance m) o ls -> forall last last',
  match last, last' with Some a, Some x => exact_instance m a x /\ no_redex (left a) /\ no_redex (right a) | None, None => True | _, _ => False end ->
  descending K out last' ls -> descending K c last o.
Proof.
  intros Hm N F. induction F as [|a x o ls Ex F IH]; intros last last' Hl D; cbn; auto.
  assert (N1 : no_redex (left a)) by (apply N; simpl; auto). assert (N2 : no_redex (right a)) by (apply N; simpl; auto).
  destruct D as [D1 D2]. split.
  - destruct last as [b|], last' as [y|]; try contradiction; auto. destruct Hl as (Ey & N3 & N4). intros C. apply D1.
    eapply literal_stable; [exact Hm|exact N3|exact N4|exact N1|exact N2|exact Ey|exact Ex|exact C].
  - apply (IH (fun t It => N t (or_intror (or_intror It))) (Some a) (Some x)); auto.
Qed.

Lemma ground_image m t v : ground (apply_to_term m t) -> In v (vars t) -> exists u, vget m v = Some u /\ ground u.
Proof.
  induction t as [[i|i|s]|f IHf a IHa|k A IHA b IHb]; cbn [apply_to_term]; intros G I; try contradiction.
  - destruct I as [<-|[]]. destruct (vget m i) as [u|]; eauto. simpl in G. contradiction.
  - rewrite vars_app in I. apply in_app_or in I. simpl in G. destruct G, I; auto.
Qed.
Lemma ground_escapes t : ground t -> has_escaping_bound_variable t = false.
Proof.
  unfold has_escaping_bound_variable. generalize 0.
  induction t as [[i|i|s]|f IHf a IHa|k A IHA b IHb]; simpl; intros n G; try contradiction; auto. destruct G. rewrite IHf, IHa; auto.
Qed.
End Complete.

(** A typed instance of an inserted clause is found, whatever the order of its literals and of their sides.
    Partial: for clauses without type variables and without applied binders, queries without binders and below the stack
    limit, and only if forms with the same literals have the same types. *)
Theorem instances_are_found_partial :
  forall be K mi ops p cl id m q, kclosed K -> Forall (fun o => clause_fits (fst o)) ops -> insert_all be K pdt_new ops = Some p ->
  one_context K ops -> In (cl, id) ops ->
  (forall v T, get_var_type (context cl) v = Some T -> vars T = [] /\ ~ kind T) ->
  (forall t, In t (literal_terms (literals cl)) -> no_redex t) ->
  typed_map K (context cl) m (context q) -> clause_instance m cl q ->
  clause_fits q -> simple_clause K q -> literals q <> [] -> sizes (literal_terms (literals q)) < 500 ->
  exists v, gset_find be K mi p q = Hit _ v.
Proof.
  intros be K mi ops p cl id m q HK F Ins One Io Cl Nr Hm (q1 & Pq & Fi) Fq S Nq Sz.
  pose proof (holds_ops be K ops _ _ _ (tree_new be) Ins) as H. cbn [app] in H.
  destruct (inserted_forms be K ops _ _ _ _ Ins Io) as [cs Ecs].
  unfold gset_find. destruct (simple_form K HK q S) as [s Es]. rewrite Es.
  destruct (specialized_spec K q s (simple_concrete K q S) Es) as (ls & Or & Sl & Pl & So & Cs).
  assert (St : forall t, In t (literal_terms (literals s)) -> In t (literal_terms (literals q))).
  { intros t It. rewrite (perm_terms _ _ _ Pl), (sides_terms _ _ _ Sl) in It. auto. }
  assert (Ns : literals s <> []).
  { intros C. rewrite C in Pl. apply Permutation_sym, Permutation_nil in Pl. subst. inversion Sl. congruence. }
  (* the directions *)
  assert (Fo : Forall2 (fun y x => orient K (context q) y = Some x /\ simple_literal K (context q) y) (literals q) ls).
  { assert (G : Forall (simple_literal K (context q)) (literals q)) by (apply Forall_forall; intros; apply simple_literals; auto).
    clear -Or G. revert ls Or G. induction (literals q) as [|y r IH]; intros [|x ls] E G; try discriminate; constructor; simpl in E; inversion E; inversion G; subst; auto. }
  destruct (Permutation_Forall2 Pq Fo) as (xs & Px & Fx).
  assert (Dt : Forall (fun l => sub_cmp K (context cl) (left l) true (right l) true <> None) (literals cl)).
  { apply directions_total. intros C. unfold generalized_forms in Ecs. rewrite C in Ecs. discriminate. }
  assert (D : exists d, Forall2 (allowed_side K (context cl)) (literals cl) d /\ Forall2 (exact_instance m) d xs).
  { clear -HK Fi Fx Dt Nr Hm. revert q1 xs Fi Fx Dt Nr. induction (literals cl) as [|l r IH]; intros q1 xs Fi Fx Dt Nr; inversion Fi; subst; inversion Fx; subst.
    - exists []. split; constructor.
    - inversion Dt; subst. match goal with H : orient _ _ _ = _ /\ _ |- _ => destruct H as [Eo Sy] end.
      destruct (oriented_instance K HK (context cl) m (context q) l y y0) as (d & A1 & A2); auto; try (apply Nr; simpl; auto).
      destruct (IH l' l'0) as (ds & B1 & B2); auto; [intros t It; apply Nr; simpl; auto|].
      exists (d :: ds). split; constructor; auto. }
  destruct D as (d & Da & De).
  assert (Pxs : Permutation xs (literals s)) by (rewrite <- Px; exact Pl).
  assert (De' : Forall2 (fun x d => exact_instance m d x) xs d).
  { clear -De. induction De; constructor; auto. }
  destruct (Permutation_Forall2 Pxs De') as (o & Pd & Eo).
  assert (Eo' : Forall2 (exact_instance m) o (literals s)).
  { clear -Eo. induction Eo; constructor; auto. }
  assert (Ds : Forall2 same_sides (literals cl) d).
  { clear -Da. induction Da; constructor; auto. destruct H as [[-> _]|[-> _]]; [left|right]; auto. }
  assert (In_o : forall t, In t (literal_terms o) <-> In t (literal_terms (literals cl))).
  { intros t. rewrite (perm_terms _ _ _ Pd). apply (sides_terms _ _ _ Ds). }
  assert (Dq : descending K (context q) None (literals s)).
  { rewrite So. apply sort_descending; auto. clear -Fo Sl. induction Fo as [|y x qs xs [_ Sy] _ IH]; inversion Sl; subst; constructor; auto.
    eapply simple_sides; eauto. }
  assert (Do : descending K (context cl) None o).
  { apply (descending_back K HK (context cl) m (context q) o (literals s) Hm) with (last' := None); auto. intros t It. apply Nr, In_o, It. }
  destruct (forms_complete K cl cs d o Ecs Da Pd Do) as (f & If & Nf).
  pose proof Nf as Nf'. apply types_last_spec in Nf'. destruct Nf' as (ids & tids & Nd & Iv & El & R & Nb & Rm).
  (* the map, on the new names *)
  assert (Gi : forall v, In v ids -> exists u, vget m v = Some u /\ ground u).
  { intros v V. apply Iv in V. destruct V as (t & It & V). apply (ground_image m t v); auto.
    assert (J : In (apply_to_term m t) (literal_terms (literals s))).
    { clear -Eo' It. induction Eo' as [|a x o l (_ & E1 & E2) _ IH]; [contradiction|]. cbn [literal_terms flat_map app] in *.
      destruct It as [<-|[<-|It]]; [left; auto|right; left; auto|right; right; auto]. }
    apply S. auto. }
  set (sg := map (fun v => apply_to_term m (TVar v)) ids).
  assert (Ls : length sg = length ids) by apply map_length.
  assert (Sg : forall i v, nth_error ids i = Some v -> exists u, nth_error sg i = Some u /\ vget m v = Some u /\ ground u).
  { intros i v E. destruct (Gi v (nth_error_In _ _ E)) as (u & Eu & Gu). exists u. split; auto. unfold sg.
    rewrite (map_nth_error (fun v => apply_to_term m (TVar v)) i ids E). cbn [apply_to_term]. rewrite Eu. reflexivity. }
  assert (Ai : forall t, In t (literal_terms o) -> instance sg (apply_var_renumbering ids tids t) = apply_to_term m t).
  { intros t It. rewrite Forall_forall in R. symmetry. apply (apply_renumbered m ids sg t _ (R t It)).
    - intros i v u E1 E2. destruct (Sg i v E1) as (u' & E3 & E4 & _). congruence.
    - intros v J. destruct (proj2 (renumber_vars _ _ _ (R t It)) v J) as (w & Nw & _). rewrite Ls. apply nth_error_Some. congruence. }
  apply (find_clause_complete be K mi p _ (f, id) sg s H); cbn [fst].
  - intros; eapply stored_fit; eauto.
  - exact Ns.
  - apply terms_fit. apply terms_fit in Fq. rewrite Forall_forall in *. auto.
  - apply Forall_forall. intros t It. destruct (S t (St t It)). eapply simple_typed; eauto.
  - apply in_flat_map. exists (cl, id). split; auto. unfold forms_of. cbn [fst snd]. rewrite Ecs. apply in_map_iff. eauto.
  - intros [f' id'] I' E'. cbn [fst] in *. apply in_flat_map in I'. destruct I' as ([cl' id1] & Io' & I'). unfold forms_of in I'. cbn [fst snd] in I'.
    destruct (generalized_forms K cl') as [cs'|] eqn:E1; [|contradiction]. apply in_map_iff in I'. destruct I' as (f1 & E2 & If1). inversion E2; subst.
    exact (One _ _ _ _ _ _ _ _ Io' Io E1 If1 Ecs If E').
  - rewrite El. clear -Eo'. induction Eo' as [|a x o l (E1 & _) _ IH]; simpl; auto. rewrite IH, E1. auto.
  - rewrite El. clear -Eo' Ai. induction Eo' as [|a x o l (_ & E1 & E2) _ IH]; auto. cbn [map literal_terms flat_map app left right].
    rewrite !Ai by (simpl; auto). rewrite E1, E2. do 2 f_equal. apply IH. intros t It. apply Ai. simpl. auto.
  - rewrite Ls. exact Nb.
  - intros ext. apply verify_exact. intros j u Hj.
    assert (Bj : j < length ids) by (rewrite <- Ls; apply nth_error_Some; congruence).
    pose proof Bj as Bj'. apply nth_error_Some in Bj. destruct (nth_error ids j) as [v|] eqn:Ej; [|congruence].
    destruct (Sg _ _ Ej) as (u' & E3 & E4 & Gu). rewrite Hj in E3. inversion E3; subst u'.
    split; [apply ground_escapes; auto|]. cbn [plus]. intros T GT.
    destruct (remap_get _ _ _ Rm) as [_ Gm].
    assert (Ni' : nth_error (ids ++ tids) j = Some v) by (rewrite nth_error_app1; auto).
    destruct (Gm _ _ Ni') as (T0 & T1 & G0 & R0 & G1). rewrite GT in G1. inversion G1; subst T1.
    destruct (Cl _ _ G0) as [V0 K0]. apply renumber_closed in R0; auto. subst T.
    destruct Hm as [_ Hm]. destruct (Hm _ _ G0) as (T' & GT' & Cs'). cbn [apply_to_term] in GT'. rewrite E4 in GT'.
    rewrite (apply_no_vars m T0 V0) in Cs'. split; [intros C; exfalso; apply K0; left; auto|].
    rewrite (ground_context K _ (context q) u Gu), GT'. destruct Cs' as [->|[C _]]; [auto|contradiction].
  - assert (Z : forall l l', Permutation l l' -> sizes (literal_terms l) = sizes (literal_terms l')).
    { clear. assert (C : forall a l, sizes (literal_terms (a :: l)) = tsize (left a) + tsize (right a) + sizes (literal_terms l)).
      { intros a l. change (tsize (left a) + (tsize (right a) + sizes (literal_terms l)) = tsize (left a) + tsize (right a) + sizes (literal_terms l)). lia. }
      induction 1; rewrite ?C; lia. }
    assert (Z2 : forall l l', Forall2 same_sides l l' -> sizes (literal_terms l) = sizes (literal_terms l')).
    { clear. assert (C : forall a l, sizes (literal_terms (a :: l)) = tsize (left a) + tsize (right a) + sizes (literal_terms l)).
      { intros a l. change (tsize (left a) + (tsize (right a) + sizes (literal_terms l)) = tsize (left a) + tsize (right a) + sizes (literal_terms l)). lia. }
      induction 1 as [|a b l l' S _ IH]; rewrite ?C; auto. destruct S as [->| ->]; cbn [flip left right]; lia. }
    rewrite <- (Z _ _ Pl), <- (Z2 _ _ Sl). exact Sz.
Qed.
Print Assumptions instances_are_found_partial.
Local Transparent find_clause.

(** ** what goes wrong *)
Definition lam : term := TBind KLam A (sc 1).
(** A clause without variables can have terms that do not compare: a lambda makes the lookup panic. *)
Theorem lambda_lookup_panics_refuted :
  exists q, concrete q /\ clause_fits q /\ literals q <> [] /\ get_type Kx [] lam = Some (TBind KPi A A) /\
    gset_find false Kx exactly pdt_new q = Panics _.
Proof.
  exists (Clause [Lit true lam lam] []). split; [intros t [<-|[<-|[]]]; reflexivity|].
  split; [apply Forall_cons; [|apply Forall_nil]; cbn; unfold small; repeat split; lia|]. split; [discriminate|].
  split; reflexivity.
Qed.
Print Assumptions lambda_lookup_panics_refuted.
(** So does the empty clause, once anything is stored. *)
Theorem empty_query_panics_refuted :
  exists p, insert_all false Kx pdt_new [(Clause [Lit true (TVar 0) (sc 1)] [Some A], 7)] = Some p /\
    gset_find false Kx exactly p (Clause [] []) = Panics _.
Proof. eexists. split; vm_compute; reflexivity. Qed.
Print Assumptions empty_query_panics_refuted.

(** A matcher that accepts every type for a type variable. *)
Definition var_or_exact : lctx -> term -> lctx -> term -> bool :=
  fun _ T _ T' => match T with TAtom (FreeVar _) => true | _ => term_eqb T' T end.
Definition one_type : clause :=
  Clause [Lit true (TVar 0) (TVar 1); Lit true (TVar 2) (TVar 3)]
    [Some (TVar 4); Some (TVar 4); Some (TVar 4); Some (TVar 4); Some (TSym SType0)].
Definition two_types : clause := Clause [Lit true (sc 1) (sc 2); Lit true (sc 3) (sc 4)] [].
(** The types of different variables are checked one by one: [x0 = x1 or x2 = x3] over a single type variable
    is returned for a clause with literals at two types, which no type-respecting map makes an instance. *)
Theorem types_are_matched_separately_refuted :
  exists p, insert_all false Kx pdt_new [(one_type, 7)] = Some p /\ simple_clause Kx two_types /\
    gset_find false Kx var_or_exact p two_types = Hit _ 7 /\
    forall m out, typed_map Kx (context one_type) m out -> ~ clause_instance m one_type two_types.
Proof.
  eexists. split; [vm_compute; reflexivity|]. split.
  { intros t I. cbn in I. destruct I as [<-|[<-|[<-|[<-|[]]]]]; cbn; repeat split; discriminate. }
  split; [vm_compute; reflexivity|].
  intros m out [_ Hm] (ls & P & F). apply Permutation_length_2_inv in P.
  assert (T : forall i, i < 4 -> get_type Kx out (apply_to_term m (TVar i)) = Some (apply_to_term m (TVar 4))).
  { intros i L. destruct (Hm i (TVar 4)) as (T' & G & [->|[[C|(a & b & C)] _]]); try discriminate; auto.
    destruct i as [|[|[|[|i]]]]; try reflexivity; lia. }
  pose proof (T 0 ltac:(lia)) as T0. pose proof (T 1 ltac:(lia)) as T1. pose proof (T 2 ltac:(lia)) as T2. pose proof (T 3 ltac:(lia)) as T3. clear T.
  assert (G : forall x y, Forall2 (instance_of m) (literals one_type) [x; y] -> get_type Kx out (left x) = get_type Kx out (left y)).
  { intros x y F2. inversion F2 as [|? ? ? ? I1 F3]; subst. inversion F3 as [|? ? ? ? I2 _]; subst.
    destruct I1 as [_ I1], I2 as [_ I2]. cbn [left right] in I1, I2.
    destruct I1 as [[-> _]|[-> _]], I2 as [[-> _]|[-> _]]; congruence. }
  destruct P as [->| ->]; apply G in F; discriminate F.
Qed.
Print Assumptions types_are_matched_separately_refuted.

(** ** a case: [f(x0) = x0 or x1 != x0] *)
Definition pattern : clause :=
  Clause [Lit true (TApp (sc 5) (TVar 0)) (TVar 0); Lit false (TVar 1) (TVar 0)] [Some A; Some A].
Definition shuffled : clause := Clause [Lit false (sc 1) (sc 2); Lit true (sc 1) (TApp (sc 5) (sc 1))] [].
Definition shifted : clause := Clause [Lit false (sc 1) (sc 2); Lit true (sc 2) (TApp (sc 5) (sc 1))] [].
Example set_case : exists p, insert_all false Kx pdt_new [(pattern, 3); (one_type, 7)] = Some p /\
  gset_find false Kx exactly p shuffled = Hit _ 3 /\ gset_find false Kx exactly p shifted = Miss _.
Proof. eexists. split; [vm_compute; reflexivity|]. split; vm_compute; reflexivity. Qed.
Example closed_case : kclosed Kx.
Proof.
  intros s. destruct s; try reflexivity. cbn. destruct (N.leb _ 2); auto. destruct (N.leb _ 4); reflexivity.
Qed.
Lemma Kx_map c : c = [] \/ c = [Some A] -> typed_map Kx [Some A; Some A] [Some (sc 1); Some (sc 2)] c.
Proof.
  intros Hc. split.
  - intros [|[|[|]]] t E; inversion E; subst; unfold lc; simpl; auto.
  - intros [|[|[|]]] T E; inversion E; subst; exists A; split; auto; destruct Hc; subst; reflexivity.
Qed.
(** The hypotheses of the completeness theorem. *)
Example found_case :
  Forall (fun o => clause_fits (fst o)) [(pattern, 3)] /\ one_context Kx [(pattern, 3)] /\
  (forall v T, get_var_type (context pattern) v = Some T -> vars T = [] /\ ~ kind T) /\
  (forall t, In t (literal_terms (literals pattern)) -> no_redex t) /\
  typed_map Kx (context pattern) [Some (sc 1); Some (sc 2)] (context shuffled) /\
  clause_instance [Some (sc 1); Some (sc 2)] pattern shuffled /\
  clause_fits shuffled /\ simple_clause Kx shuffled /\ sizes (literal_terms (literals shuffled)) < 500.
Proof.
  split; [|split; [|split; [|split; [|split; [|split; [|split; [|split]]]]]]].
  - apply Forall_cons; [|apply Forall_nil]. repeat apply Forall_cons; [..|apply Forall_nil]; cbn; unfold small; repeat split; lia.
  - intros cl id cs f cl' id' cs' f' [E|[]] [E'|[]] G1 I1 G2 I2 _. inversion E; inversion E'; subst.
    vm_compute in G1, G2. inversion G1; inversion G2; subst.
    cbn in I1, I2. destruct I1 as [<-|[<-|[<-|[<-|[]]]]], I2 as [<-|[<-|[<-|[<-|[]]]]]; reflexivity.
  - intros [|[|[|]]] T E; inversion E; subst; (split; [reflexivity|]); intros [C|(? & ? & C)]; discriminate.
  - intros t I. cbn in I. destruct I as [<-|[<-|[<-|[<-|[]]]]]; cbn; eauto.
  - apply Kx_map. auto.
  - exists [Lit true (sc 1) (TApp (sc 5) (sc 1)); Lit false (sc 1) (sc 2)]. split; [apply perm_swap|].
    constructor; [split; [reflexivity|right; auto]|]. constructor; [|constructor]. split; [reflexivity|right; auto].
  - repeat apply Forall_cons; [..|apply Forall_nil]; cbn; unfold small; repeat split; lia.
  - intros t I. cbn in I. destruct I as [<-|[<-|[<-|[<-|[]]]]]; cbn; repeat split; discriminate.
  - cbn. lia.
Qed.
(** Two terms with variables that compare, and their images. *)
Example stable_case :
  sub_cmp Kx [Some A; Some A] (TApp (sc 5) (TVar 0)) true (sc 3) true = Some (Some Lt) /\
  sub_cmp Kx [] (TApp (sc 5) (sc 1)) true (sc 3) true = Some (Some Lt) /\
  sub_cmp Kx [Some A; Some A] (TApp (sc 5) (TVar 0)) true (TApp (sc 5) (sc 1)) true = Some None /\
  sub_cmp Kx [Some A; Some A] (TApp (sc 5) (sc 2)) true (TApp (sc 5) (sc 1)) true = Some (Some Gt).
Proof. repeat split. Qed.
