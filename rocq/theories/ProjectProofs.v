(** Interpretations of whole projects: the declarations are interpreted one after the other. *)
From Coq Require Import List Arith Bool Lia.
Import ListNotations.
From Verif Require Import Positivity PositivitySem PositivitySpec Containers PositivityProofs PositivityPoly P_Positivity.

(** ** Another interpretation of one datatype *)
Section Agree.
Context (J J' : interpretation) (d : datatype) (AD : forall e, e <> d -> data J' e = data J e) (AF : family J' = family J).
Lemma den_agree E t : mentions d t = false -> den J' E t = den J E t.
Proof.
  induction t as [|e l IH|e l IH|l r IH IHr|p|p| |p] using atype_ind'; intros M; cbn [mentions] in M; try reflexivity.
  - apply orb_false_elim in M. destruct M as [M1 M2]. cbn [den]. rewrite AD by (intros ->; rewrite datatype_eqb_refl in M1; discriminate).
    f_equal. apply map_at. intros i t Hi. exact (IH i t Hi (none_at _ _ _ _ M2 Hi)).
  - cbn [den]. rewrite AF. f_equal. apply map_at. intros i [t|v] Hi; auto. f_equal. exact (IH i t Hi (none_at _ _ _ _ M Hi)).
  - apply orb_false_elim in M. destruct M as [M1 M2]. cbn [den]. rewrite (IHr M2). f_equal. apply map_at. intros i t Hi. exact (IH i t Hi (none_at _ _ _ _ M1 Hi)).
Qed.
Definition apart (t : atype) : bool := negb (mentions d t).
Lemma apart_agree E t : apart t = true -> den J' E t = den J E t.
Proof. unfold apart. intros H. apply negb_true_iff in H. apply den_agree. exact H. Qed.

Lemma structure_transport (E E' : nat -> Type) (good : atype -> bool) (same : forall t, good t = true -> den J' E t = den J E' t) str fields :
  forallb good fields = true -> den J' E str = den J E' str -> structure_facts J E' str fields -> structure_facts J' E str fields.
Proof.
  intros G S (new & parts & H1 & H2).
  exists (fun v => uncast S (new (tuple_cast J' J E E' good same fields G v))), (fun x => tuple_uncast J' J E E' good same fields G (parts (cast S x))). split.
  - intros v. rewrite cast_uncast, H1. apply tuple_uncast_cast.
  - intros x. rewrite tuple_cast_uncast, H2. apply uncast_cast.
Qed.

Definition item_apart (m : nat) (i : item) : bool :=
  match i with
  | Import _ => true
  | Structure n ps O fields => apart (own_type m n ps) && forallb apart fields
  | Structure _ _ (S _) _ => false
  | Inductive_ n ps ctors => apart (own_type m n ps) && forallb (forallb apart) ctors
  end.
Lemma item_agree m i : item_apart m i = true -> item_holds J m i -> item_holds J' m i.
Proof.
  destruct i as [k|n ps [|vals] fields|n ps ctors]; cbn [item_apart item_holds]; auto; try discriminate; intros A H; apply andb_prop in A; destruct A as [A1 A2].
  - intros E [|? ?] LE; [|discriminate]. apply (structure_transport E E apart (apart_agree E)); auto using apart_agree.
  - intros E. exact (facts_transport J' J E E apart (apart_agree E) (own_type m n ps) A1 ctors A2 (H E)).
Qed.
End Agree.

(** ** Structures *)
Section Structure.
Context (I : interpretation) (m n : nat) (ps : list nat) (fields : list atype).
Definition with_structure : interpretation :=
  {| data := fun e L => if datatype_eq_dec e (m, n) then tuple I (env ps L) fields else data I e L; family := family I |}.
Lemma structure_agree e : e <> (m, n) -> data with_structure e = data I e.
Proof. intros H. cbn [with_structure data]. destruct (datatype_eq_dec e (m, n)); [contradiction|reflexivity]. Qed.
Context (E : nat -> Type).
Definition simple (t : atype) : bool := apart (m, n) t && closed ps t.
Lemma simple_same t : simple t = true -> den with_structure E t = den I (env ps (map E ps)) t.
Proof.
  unfold simple. intros H. apply andb_prop in H. destruct H as [A C]. rewrite (apart_agree I with_structure (m, n) structure_agree eq_refl E t A). clear A.
  induction t as [|e l IH|e l IH|l r IH IHr|p|p| |p] using atype_ind'; cbn [closed] in C; try reflexivity; try discriminate.
  - cbn [den]. f_equal. apply map_at. intros i t Hi. exact (IH i t Hi (all_at _ _ _ _ C Hi)).
  - cbn [den]. f_equal. apply map_at. intros i [t|v] Hi; auto. f_equal. exact (IH i t Hi (all_at _ _ _ _ C Hi)).
  - apply andb_prop in C. destruct C as [C1 C2]. cbn [den]. rewrite (IHr C2). f_equal. apply map_at. intros i t Hi. exact (IH i t Hi (all_at _ _ _ _ C1 Hi)).
  - cbn [den]. symmetry. apply env_map. exact C.
Qed.
Lemma structure_own : den with_structure E (own_type m n ps) = tuple I (env ps (map E ps)) fields.
Proof. cbn [den own_type with_structure data]. destruct (datatype_eq_dec (m, n) (m, n)); [|congruence]. rewrite map_map. reflexivity. Qed.
Lemma structure_exists : forallb simple fields = true -> structure_facts with_structure E (own_type m n ps) fields.
Proof.
  intros G. exists (fun v => uncast structure_own (tuple_cast with_structure I E _ simple simple_same fields G v)),
    (fun x => tuple_uncast with_structure I E _ simple simple_same fields G (cast structure_own x)). split.
  - intros v. rewrite cast_uncast. apply tuple_uncast_cast.
  - intros x. rewrite tuple_cast_uncast. apply uncast_cast.
Qed.
End Structure.

(** ** Well-formed types *)
Lemma arity_new decl d k e : arity_of ((d, k) :: decl) e = if datatype_eqb d e then Some k else arity_of decl e.
Proof. unfold arity_of. cbn. destruct (datatype_eqb d e); reflexivity. Qed.
Lemma well_formed_apart decl d t : arity_of decl d = None -> well_formed decl t = true -> apart d t = true.
Proof.
  intros ND W. unfold apart. apply negb_true_iff. revert W. induction t as [|e l IH|e l IH|l r IH IHr|p|p| |p] using atype_ind'; intros W; cbn [well_formed mentions] in *; try reflexivity; try discriminate.
  - apply andb_prop in W. destruct W as [W1 W2]. destruct (datatype_eqb e d) eqn:X; [apply datatype_eqb_eq in X; subst; rewrite ND in W1; discriminate|]. cbn [orb].
    destruct (existsb (mentions d) l) eqn:Y; auto. apply existsb_exists in Y. destruct Y as (t & I & Y). apply In_nth_error in I. destruct I as [i I].
    rewrite (IH i t I (all_at _ _ _ _ W2 I)) in Y. discriminate.
  - apply andb_prop in W. destruct W as [W1 W2]. rewrite (IHr W2), orb_false_r.
    destruct (existsb (mentions d) l) eqn:Y; auto. apply existsb_exists in Y. destruct Y as (t & I & Y). apply In_nth_error in I. destruct I as [i I].
    rewrite (IH i t I (all_at _ _ _ _ W1 I)) in Y. discriminate.
Qed.
Lemma well_formed_more decl d k t : arity_of decl d = None -> well_formed decl t = true -> well_formed ((d, k) :: decl) t = true.
Proof.
  intros ND. induction t as [|e l IH|e l IH|l r IH IHr|p|p| |p] using atype_ind'; intros W; cbn [well_formed] in *; try reflexivity; try discriminate.
  - apply andb_prop in W. destruct W as [W1 W2]. rewrite arity_new. destruct (datatype_eqb d e) eqn:X; [apply datatype_eqb_eq in X; subst; rewrite ND in W1; discriminate|].
    rewrite W1. apply forallb_forall. intros t I. apply In_nth_error in I. destruct I as [i I]. exact (IH i t I (all_at _ _ _ _ W2 I)).
  - apply andb_prop in W. destruct W as [W1 W2]. rewrite (IHr W2), andb_true_r. apply forallb_forall. intros t I. apply In_nth_error in I. destruct I as [i I]. exact (IH i t I (all_at _ _ _ _ W1 I)).
Qed.
Lemma well_formed_outside decl d t : well_formed decl t = true -> outside_families d t = true.
Proof.
  induction t as [|e l IH|e l IH|l r IH IHr|p|p| |p] using atype_ind'; intros W; cbn [well_formed outside_families] in *; try reflexivity; try discriminate.
  - apply andb_prop in W. destruct W as [W1 W2]. apply forallb_forall. intros t I. apply In_nth_error in I. destruct I as [i I]. exact (IH i t I (all_at _ _ _ _ W2 I)).
  - apply andb_prop in W. destruct W as [W1 W2]. rewrite (IHr W2), andb_true_r. apply forallb_forall. intros t I. apply In_nth_error in I. destruct I as [i I]. exact (IH i t I (all_at _ _ _ _ W1 I)).
Qed.
(** the table has the right numbers of variances *)
Definition table_arities (decl : list (datatype * nat)) (tb : table) : Prop := forall d vs, look tb d = Some vs -> arity_of decl d = Some (length vs).
Lemma well_formed_arities decl tb t : table_arities decl tb -> well_formed decl t = true -> arities tb t = true.
Proof.
  intros TA. induction t as [|e l IH|e l IH|l r IH IHr|p|p| |p] using atype_ind'; intros W; cbn [well_formed arities] in *; try reflexivity; try discriminate.
  - apply andb_prop in W. destruct W as [W1 W2]. apply andb_true_intro. split.
    + destruct (look tb e) as [vs|] eqn:LK; auto. rewrite (TA e vs LK) in W1. apply Nat.eqb_eq in W1. apply Nat.leb_le. lia.
    + apply forallb_forall. intros t I. apply In_nth_error in I. destruct I as [i I]. exact (IH i t I (all_at _ _ _ _ W2 I)).
  - apply andb_prop in W. destruct W as [W1 W2]. rewrite (IHr W2), andb_true_r. apply forallb_forall. intros t I. apply In_nth_error in I. destruct I as [i I]. exact (IH i t I (all_at _ _ _ _ W1 I)).
Qed.
Lemma unnested_nests ind e t : unnested ind t = true -> nests ind e t = false.
Proof.
  induction t as [|e' l IH|e' l IH|l r IH IHr|p|p| |p] using atype_ind'; intros U; cbn [unnested nests] in *; try reflexivity.
  - apply orb_false_intro.
    + replace (existsb (contains ind) l) with false; [apply andb_false_r|]. symmetry. destruct (existsb _ l) eqn:Y; auto. apply existsb_exists in Y. destruct Y as (t & I & Y).
      rewrite forallb_forall in U. apply U in I. rewrite Y in I. discriminate.
    + destruct (existsb _ l) eqn:Y; auto. apply existsb_exists in Y. destruct Y as (t & I & Y). apply In_nth_error in I. destruct I as [i I].
      pose proof (all_at _ _ _ _ U I) as V. cbn beta in V. apply andb_prop in V. rewrite (IH i t I (proj2 V)) in Y. discriminate.
  - apply andb_prop in U. destruct U as [U1 U2]. rewrite (IHr U2), orb_false_r. destruct (existsb _ l) eqn:Y; auto. apply existsb_exists in Y. destruct Y as (t & I & Y). apply In_nth_error in I. destruct I as [i I].
    rewrite (IH i t I (all_at _ _ _ _ U1 I)) in Y. discriminate.
Qed.

(** the types of an item are well formed *)
Definition item_formed (decl : list (datatype * nat)) (m : nat) (i : item) : bool :=
  match i with
  | Import _ => true
  | Structure n ps O fields => well_formed decl (own_type m n ps) && forallb (well_formed decl) fields
  | Structure _ _ (S _) _ => false
  | Inductive_ n ps ctors => well_formed decl (own_type m n ps) && forallb (forallb (well_formed decl)) ctors
  end.
Lemma forallb_impl {A} (f g : A -> bool) l : (forall x, f x = true -> g x = true) -> forallb f l = true -> forallb g l = true.
Proof. intros H. rewrite !forallb_forall. auto. Qed.
Lemma item_formed_apart decl d m i : arity_of decl d = None -> item_formed decl m i = true -> item_apart d m i = true.
Proof.
  intros ND. destruct i as [k|n ps [|vals] fields|n ps ctors]; cbn [item_formed item_apart]; auto; intros H; apply andb_prop in H; destruct H as [H1 H2]; apply andb_true_intro; split.
  - eapply well_formed_apart; eauto.
  - revert H2. apply forallb_impl. intros t. apply well_formed_apart. exact ND.
  - eapply well_formed_apart; eauto.
  - revert H2. apply forallb_impl. intros ts. apply forallb_impl. intros t. apply well_formed_apart. exact ND.
Qed.
Lemma item_formed_more decl d k m i : arity_of decl d = None -> item_formed decl m i = true -> item_formed ((d, k) :: decl) m i = true.
Proof.
  intros ND. destruct i as [k'|n ps [|vals] fields|n ps ctors]; cbn [item_formed]; auto; intros H; apply andb_prop in H; destruct H as [H1 H2]; apply andb_true_intro; split.
  - apply well_formed_more; auto.
  - revert H2. apply forallb_impl. intros t. apply well_formed_more. exact ND.
  - apply well_formed_more; auto.
  - revert H2. apply forallb_impl. intros ts. apply forallb_impl. intros t. apply well_formed_more. exact ND.
Qed.
Lemma own_formed decl m n ps : well_formed (((m, n), length ps) :: decl) (own_type m n ps) = true.
Proof.
  cbn [own_type well_formed]. rewrite arity_new, datatype_eqb_refl, map_length, Nat.eqb_refl. cbn [andb]. apply forallb_forall. intros t I. apply in_map_iff in I. destruct I as (p & <- & _). reflexivity.
Qed.

(** ** One declaration after the other *)
Definition done := list (nat * item).
Definition all_hold (J : interpretation) (l : done) : Prop := Forall (fun x => item_holds J (fst x) (snd x)) l.
Definition all_formed (decl : list (datatype * nat)) (l : done) : Prop := Forall (fun x => item_formed decl (fst x) (snd x) = true) l.

Lemma all_agree J J' d decl l : arity_of decl d = None -> (forall e, e <> d -> data J' e = data J e) -> family J' = family J ->
  all_formed decl l -> all_hold J l -> all_hold J' l.
Proof.
  intros ND AD AF F H. unfold all_hold, all_formed in *. rewrite Forall_forall in *. intros x I. apply (item_agree J J' d AD AF); [|apply H; exact I].
  eapply item_formed_apart; eauto.
Qed.
Lemma all_formed_more decl d k l : arity_of decl d = None -> all_formed decl l -> all_formed ((d, k) :: decl) l.
Proof. intros ND. apply Forall_impl. intros x. apply item_formed_more. exact ND. Qed.
Lemma table_more decl d k tb : arity_of decl d = None -> table_arities decl tb -> table_arities ((d, k) :: decl) tb.
Proof.
  intros ND TA e vs LK. rewrite arity_new. destruct (datatype_eqb d e) eqn:X; [apply datatype_eqb_eq in X; subst; rewrite (TA e vs LK) in ND; discriminate|]. exact (TA e vs LK).
Qed.
Lemma look_cons tb d v e : look ((d, v) :: tb) e = if datatype_eqb d e then v else look tb e.
Proof. unfold look, look_entry. cbn. destruct (datatype_eqb d e); reflexivity. Qed.
Lemma table_new decl d vs tb : table_arities ((d, length vs) :: decl) tb -> table_arities ((d, length vs) :: decl) ((d, Some vs) :: tb).
Proof.
  intros TA e us LK. rewrite look_cons in LK. destruct (datatype_eqb d e) eqn:X; [|exact (TA e us LK)]. injection LK as <-. rewrite arity_new, X. reflexivity.
Qed.
Lemma table_none decl d tb : table_arities decl tb -> table_arities decl ((d, None) :: tb).
Proof. intros TA e us LK. rewrite look_cons in LK. destruct (datatype_eqb d e); [discriminate|exact (TA e us LK)]. Qed.
Lemma import_arities decl other : forall tb, table_arities decl tb -> table_arities decl (import_table tb other).
Proof.
  unfold import_table. induction other as [|[d v] other IH]; intros tb TA; cbn [fold_left fst]; auto. apply IH. destruct (look_entry tb d); auto using table_none.
Qed.

Lemma items_exist tables m l : forall tb tb' decl decl' before J,
  run_items tables m tb l = Some tb' -> plain_items m decl l = Some decl' -> table_arities decl tb -> all_formed decl before -> all_hold J before ->
  exists J', all_hold J' (before ++ map (fun i => (m, i)) l) /\ all_formed decl' (before ++ map (fun i => (m, i)) l).
Proof.
  induction l as [|i l IH]; intros tb tb' decl decl' before J RI PI TA AF AH; cbn [plain_items map] in *.
  - injection PI as <-. exists J. rewrite app_nil_r. auto.
  - destruct (plain_item m decl i) as [decl1|] eqn:P1; [|discriminate].
    assert (step : forall tb1 J1, run_items tables m tb1 l = Some tb' -> table_arities decl1 tb1 -> all_formed decl1 before -> item_formed decl1 m i = true -> all_hold J1 before -> item_holds J1 m i ->
      exists J', all_hold J' (before ++ (m, i) :: map (fun i => (m, i)) l) /\ all_formed decl' (before ++ (m, i) :: map (fun i => (m, i)) l)).
    { intros tb1 J1 R1 T1 F1 F2 H1 H2. destruct (IH tb1 tb' decl1 decl' (before ++ [(m, i)]) J1 R1 PI T1) as (J' & A & B).
      - apply Forall_app. split; [assumption|]. constructor; [assumption|constructor].
      - apply Forall_app. split; [assumption|]. constructor; [assumption|constructor].
      - rewrite <- app_assoc in A, B. exists J'. auto. }
    destruct i as [k|n ps [|vals] fields|n ps ctors]; cbn [plain_item run_items] in *.
    + injection P1 as <-. apply (step _ J RI); auto using import_arities. exact I.
    + destruct (arity_of decl (m, n)) eqn:ND; [discriminate|]. destruct (forallb _ fields) eqn:W; [|discriminate]. injection P1 as <-.
      assert (W1 : forallb (well_formed decl) fields = true) by (revert W; apply forallb_impl; intros t H; apply andb_prop in H; apply H).
      apply (step _ (with_structure J m n ps fields) RI).
      * unfold add_structure, set_variances. replace (length ps) with (length (map (variance_in tb fields) ps)) by apply map_length. apply table_new. apply table_more; auto.
      * apply all_formed_more; auto.
      * cbn [item_formed]. rewrite own_formed. revert W1. apply forallb_impl. intros t. apply well_formed_more. exact ND.
      * apply (all_agree J _ (m, n) decl); auto. intros e. apply structure_agree.
      * cbn [item_holds]. intros E [|? ?] LE; [|discriminate]. apply structure_exists. revert W. apply forallb_impl. intros t H. apply andb_prop in H. destruct H as [H1 H2].
        unfold simple. rewrite H2, (well_formed_apart decl (m, n) t ND H1). reflexivity.
    + discriminate.
    + destruct (arity_of decl (m, n)) eqn:ND; [discriminate|]. destruct (forallb _ ctors) eqn:W; [|discriminate]. injection P1 as <-.
      destruct (add_inductive m tb n ps ctors) as [tb1|] eqn:ADD; [|discriminate].
      set (decl1 := ((m, n), length ps) :: decl) in *.
      assert (W' : forall f, (forall t, well_formed decl1 t && closed ps t && regular (own_type m n ps) t && unnested (own_type m n ps) t = true -> f t = true) -> forallb (forallb f) ctors = true).
      { intros f Hf. revert W. apply forallb_impl. intros ts. apply forallb_impl. exact Hf. }
      assert (T1 : table_arities decl1 tb1).
      { unfold add_inductive in ADD. destruct (has_base _ _ && _); [|discriminate]. injection ADD as <-. unfold set_variances, decl1.
        match goal with |- table_arities _ ((_, Some ?v) :: _) => replace (length ps) with (length v) by apply map_length end.
        apply table_new, table_none, table_more; auto. }
      destruct (accepted_plain_types_exist m tb n ps ctors tb1 ADD) with (I := J) as (J1 & A1 & A2 & A3).
      * apply W'. intros t H. rewrite !andb_true_iff in H. apply H.
      * apply W'. intros t H. rewrite !andb_true_iff in H. apply H.
      * apply W'. intros t H. rewrite !andb_true_iff in H. eapply well_formed_outside. apply H.
      * apply W'. intros t H. rewrite !andb_true_iff in H. eapply well_formed_arities; [exact T1|apply H].
      * intros e. destruct (existsb _ ctors) eqn:Y; auto. apply existsb_exists in Y. destruct Y as (ts & I1 & Y). apply existsb_exists in Y. destruct Y as (t & I2 & Y).
        rewrite forallb_forall in W. apply W in I1. rewrite forallb_forall in I1. apply I1 in I2. rewrite !andb_true_iff in I2. rewrite unnested_nests in Y; [discriminate|apply I2].
      * apply (step tb1 J1 RI T1); auto.
        -- apply all_formed_more; auto.
        -- cbn [item_formed]. unfold decl1. rewrite own_formed. apply W'. intros t H. rewrite !andb_true_iff in H. apply H.
        -- apply (all_agree J _ (m, n) decl); auto.
Qed.

Lemma modules_exist ms : forall tables tables' decl before J,
  run_modules tables ms = Some tables' -> plain_modules (length tables) decl ms = true -> all_formed decl before -> all_hold J before ->
  exists J', all_hold J' before /\ modules_hold J' (length tables) ms.
Proof.
  induction ms as [|l ms IH]; intros tables tables' decl before J RM PM AF AH; cbn [run_modules plain_modules modules_hold] in *; [exists J; auto|].
  destruct (run_items tables (length tables) [] l) as [tb|] eqn:RI; [|discriminate]. destruct (plain_items (length tables) decl l) as [decl1|] eqn:PI; [|discriminate].
  destruct (items_exist tables (length tables) l [] tb decl decl1 before J RI PI) as (J1 & H1 & F1); auto; [intros d vs LK; discriminate|].
  destruct (IH (tables ++ [tb]) tables' decl1 (before ++ map (fun i => (length tables, i)) l) J1 RM) as (J2 & H2 & M2); auto.
  { rewrite app_length. cbn. rewrite Nat.add_1_r. exact PM. }
  exists J2. apply Forall_app in H2. destruct H2 as [H2 H3]. split; [exact H2|]. rewrite app_length in M2. cbn in M2. rewrite Nat.add_1_r in M2. split; [|exact M2].
  apply Forall_forall. intros i I. rewrite Forall_forall in H3. exact (H3 (length tables, i) (in_map _ _ _ I)).
Qed.
