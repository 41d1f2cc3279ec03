(** Lemmas about the search for instances of typeclasses, for P_Instances.v *)
From Coq Require Import List Arith Bool Lia.
From Verif Require Import TypeMatch TypeMatchSpec TypeMatchProofs.
Import ListNotations.

Definition ext (r : registry) (a b : nat) : Prop := extends_in r a b = true.
Definition decl (r : registry) (g : ety) (c : nat) : Prop := In (g, c) (instances r).
Definition belongs (r : registry) : ety -> nat -> Prop := of_class (ext r) (decl r).
Definition known (r : registry) (c : nat) : Prop := existsb (fun e => fst e =? c) (classes r) = true.

Definition shape (g : ety) : Prop := exists d ps, g = EData d (map EVar ps) /\ NoDup (map pname ps).

Record fine (r : registry) : Prop := Fine {
  fine_trans : forall a b c, ext r a b -> ext r b c -> ext r a c;
  fine_known : forall a b, ext r a b -> known r b;
  fine_concrete : forall d c, In (d, c) (concrete r) -> decl r (EData d []) c;
  fine_shape : forall g c, decl r g c -> shape g /\ known r c;
  fine_bases : forall g c b, decl r g c -> ext r c b -> belongs r g b
}.

Lemma ext_in r a b : ext r a b <-> In b (extends_of r a).
Proof.
  unfold ext, extends_in. rewrite existsb_exists. split.
  - intros (x & H & E). apply Nat.eqb_eq in E. subst. exact H.
  - intros H. exists b. split; [exact H|apply Nat.eqb_refl].
Qed.

Lemma shape_normal g : shape g -> normal g.
Proof.
  intros (d & ps & -> & _). constructor. rewrite Forall_forall. intros x H. apply in_map_iff in H. destruct H as (p & <- & _). constructor.
Qed.

Lemma shape_occurs p d ps : occurs p (EData d (map EVar ps)) <-> In p ps.
Proof.
  rewrite occurs_data. split.
  - intros (t & H & O). apply in_map_iff in H. destruct H as (q & <- & H). inversion O; subst. exact H.
  - intros H. exists (EVar p). split; [apply in_map; exact H|constructor].
Qed.

Lemma nodup_same (ps : list tparam) p q : NoDup (map pname ps) -> In p ps -> In q ps -> pname p = pname q -> p = q.
Proof.
  induction ps as [|a ps IH]; cbn; [intros _ []|]. intros ND HP HQ E. inversion ND as [|? ? N1 N2]; subst.
  destruct HP as [<-|HP], HQ as [<-|HQ]; [reflexivity| | |apply IH; assumption].
  - exfalso. apply N1. rewrite E. apply in_map. exact HQ.
  - exfalso. apply N1. rewrite <- E. apply in_map. exact HP.
Qed.

Lemma rep_shape s d ps : rep s (EData d (map EVar ps)) = EData d (map (fun p => s (pname p)) ps).
Proof. cbn. f_equal. rewrite map_map. reflexivity. Qed.

(** * The search *)

Lemma search_sound r : fine r -> forall n t c, normal t -> instance_fuel r n t c = true -> belongs r t c.
Proof.
  intros F. induction n as [|n IH]; intros t c N H; [discriminate|]. destruct t as [| |c'|p|p|d args|args ret]; try discriminate.
  cbn [instance_fuel] in H. apply orb_true_iff in H. destruct H as [H|H].
  - destruct args; [|discriminate]. apply existsb_exists in H. destruct H as ([d' c'] & H & E). cbn in E.
    apply andb_true_iff in E. destruct E as (E1 & E2). apply Nat.eqb_eq in E1, E2. subst.
    apply (oc_instance _ _ (EData d []) c (fun _ => EBool)); [apply (fine_concrete r F); exact H|apply (b_data _ d [] []); constructor|].
    intros p a O. apply occurs_data in O. destruct O as (x & [] & _).
  - apply existsb_exists in H. destruct H as ([g c'] & H & E). cbn [fst snd] in E.
    apply andb_true_iff in E. destruct E as (E1 & E2). apply andb_true_iff in E1. destruct E1 as (_ & E1). apply Nat.eqb_eq in E1. subst c'.
    destruct (match_types (instance_fuel r n) (extends_in r) g (EData d args) []) as [m|] eqn:M; [|discriminate].
    destruct (fine_shape r F g c H) as (SH & _). pose proof (shape_normal g SH) as NG.
    destruct (match_types_sound _ _ _ _ _ _ NG N M) as ((A1 & A2 & A3) & B). specialize (B m (within_refl m)).
    assert (L : forall p, occurs p g -> look m (pname p) = Some (value_of m (pname p))).
    { intros p O. specialize (A2 p g eq_refl O). unfold value_of. destruct (look m (pname p)); [reflexivity|contradiction]. }
    apply (oc_instance _ _ g c (value_of m)); [exact H| |].
    + apply becomes_rep; [exact NG|]. rewrite <- B. symmetry. apply instantiate_rep. exact L.
    + intros p a O PC. specialize (L p O). destruct (A3 _ _ L) as [K|(q & h & <- & O' & Q & FT & NV)]; [discriminate|].
      assert (q = p) as ->.
      { destruct SH as (d' & ps & -> & ND). apply shape_occurs in O, O'. eapply nodup_same; eassumption. }
      apply fits_spec in FT. specialize (FT a PC). inversion FT as [? ? ? HI EQ|? ? ? PC' HE EQ|? ? ? PC' HE EQ]; subst.
      * rewrite <- EQ in NV. apply IH; assumption.
      * eapply oc_var; eassumption.
      * eapply oc_arb; eassumption.
Qed.

Lemma search_complete r : fine r -> forall t c, belongs r t c -> normal t -> has_generic t = false ->
  forall n, size t <= n -> satisfies (instance_fuel r n) (extends_in r) t c = true.
Proof.
  intros F t c H. induction H as [p a c PC HE|p a c PC HE|g c s t D HB HP IH]; intros N G n L.
  - discriminate.
  - cbn. rewrite PC. apply orb_true_iff. rewrite Nat.eqb_eq. exact HE.
  - destruct (fine_shape r F g c D) as (SH & _). pose proof (shape_normal g SH) as NG.
    apply becomes_rep in HB; [|exact NG]. destruct SH as (d & ps & -> & ND). rewrite rep_shape in HB. subst t.
    cbn [TypeMatch.satisfies]. destruct n as [|n]; [cbn in L; lia|]. cbn [instance_fuel].
    apply orb_true_iff. right. apply existsb_exists. exists (EData d (map EVar ps), c). split; [exact D|].
    cbn [fst snd datatype_of]. rewrite !Nat.eqb_refl. cbn [andb].
    assert (PP : forall p, In p ps -> normal (s (pname p)) /\ has_generic (s (pname p)) = false /\ size (s (pname p)) <= n).
    { intros p Hp. assert (HI : In (s (pname p)) (map (fun p => s (pname p)) ps)) by (apply (in_map (fun p => s (pname p))); exact Hp).
      split; [|split].
      - apply normal_data in N. rewrite Forall_forall in N. apply N. exact HI.
      - cbn in G. destruct (has_generic (s (pname p))) eqn:E; [|reflexivity].
        assert (existsb has_generic (map (fun p => s (pname p)) ps) = true) by (apply existsb_exists; eexists; split; eassumption). congruence.
      - cbn [size] in L. pose proof (size_in _ _ HI). lia. }
    destruct (match_types_complete (instance_fuel r n) (extends_in r) s (EData d (map EVar ps)) []) as (m & E & _).
    + exact NG.
    + split; [|split].
      * intros p O. apply shape_occurs in O. destruct (PP p O) as (P1 & P2 & P3). split; [exact P1|].
        unfold TypeMatch.fits. destruct (pclass p) as [a|] eqn:PC; [|reflexivity].
        apply (IH p a); [apply shape_occurs; exact O|exact PC|exact P1|exact P2|exact P3].
      * intros p O. inversion O as [|? ? ? x O1 O2| |]; subst. apply in_map_iff in O1. destruct O1 as (q & <- & O1). inversion O2; subst.
        destruct (PP q O1) as (_ & P2 & _). destruct (has_variable (pname q) (s (pname q))) eqn:V; [|reflexivity].
        apply has_variable_spec in V. destruct V as (v & _ & V).
        assert (has_generic (s (pname q)) = true) by (apply has_generic_spec; exists v; exact V). congruence.
      * intros p O. inversion O as [|? ? ? x O1 O2| |]; subst. apply in_map_iff in O1. destruct O1 as (q & <- & O1). inversion O2.
    + intros k x [=].
    + rewrite rep_shape in E. rewrite E. reflexivity.
Qed.

(** * Replacing parameters by types of their class *)

Lemma belongs_rep r : fine r -> forall t c, belongs r t c -> normal t -> forall s,
  (forall p a, occurs p t -> pclass p = Some a -> belongs r (s (pname p)) a /\ forall b, ext r a b -> belongs r (s (pname p)) b) ->
  belongs r (rep s t) c.
Proof.
  intros F t c H. induction H as [p a c PC HE|p a c PC HE|g c s t D HB HP IH]; intros N u HU.
  - destruct (HU p a (o_var p) PC) as (A & B). cbn. destruct HE as [<-|HE]; [exact A|apply B; exact HE].
  - destruct (HU p a (o_arb p) PC) as (A & B). cbn. destruct HE as [<-|HE]; [exact A|apply B; exact HE].
  - destruct (fine_shape r F g c D) as (SH & _). pose proof (shape_normal g SH) as NG.
    apply becomes_rep in HB; [|exact NG]. destruct SH as (d & ps & -> & ND). rewrite rep_shape in HB. subst t.
    apply (oc_instance _ _ (EData d (map EVar ps)) c (fun k => rep u (s k))); [exact D| |].
    + apply becomes_rep; [exact NG|]. rewrite rep_shape. cbn. rewrite map_map. reflexivity.
    + intros p a O PC. assert (HI : In (s (pname p)) (map (fun p => s (pname p)) ps)).
      { apply (in_map (fun p => s (pname p))). apply shape_occurs in O. exact O. }
      apply (IH p a O PC).
      * apply normal_data in N. rewrite Forall_forall in N. apply N. exact HI.
      * intros q b OQ. apply HU. apply occurs_data. eexists. split; eassumption.
Qed.

Lemma inherits r : fine r -> forall t c, belongs r t c -> forall b, ext r c b -> belongs r t b.
Proof.
  intros F t c H. induction H as [p a c PC HE|p a c PC HE|g c s t D HB HP IH]; intros b HX.
  - eapply oc_var; [exact PC|]. right. destruct HE as [<-|HE]; [exact HX|eapply fine_trans; eassumption].
  - eapply oc_arb; [exact PC|]. right. destruct HE as [<-|HE]; [exact HX|eapply fine_trans; eassumption].
  - destruct (fine_shape r F g c D) as (SH & _). pose proof (shape_normal g SH) as NG.
    apply becomes_rep in HB; [|exact NG]. subst t. apply belongs_rep; [exact F|eapply fine_bases; eassumption|exact NG|].
    intros p a O PC. split; [apply (HP p a O PC)|]. intros b' HX'. apply (IH p a O PC b' HX').
Qed.

(** * Declarations keep the registry fine *)

Lemma belongs_mono r r' : (forall a b, ext r a b -> ext r' a b) -> (forall g c, decl r g c -> decl r' g c) ->
  forall t c, belongs r t c -> belongs r' t c.
Proof.
  intros HX HD t c H. induction H as [p a c PC HE|p a c PC HE|g c s t D HB HP IH].
  - eapply oc_var; [exact PC|]. destruct HE as [HE|HE]; [left; exact HE|right; apply HX; exact HE].
  - eapply oc_arb; [exact PC|]. destruct HE as [HE|HE]; [left; exact HE|right; apply HX; exact HE].
  - eapply oc_instance; [apply HD; exact D|exact HB|exact IH].
Qed.

Lemma no_repetition_spec l : no_repetition l = true -> NoDup l.
Proof.
  induction l as [|x l IH]; cbn; [constructor|]. rewrite andb_true_iff, negb_true_iff. intros (A & B). constructor; [|apply IH; exact B].
  intros HI. assert (existsb (Nat.eqb x) l = true) by (apply existsb_exists; exists x; split; [exact HI|apply Nat.eqb_refl]). congruence.
Qed.

Lemma find_name (ps : list tparam) p : NoDup (map pname ps) -> In p ps -> find (fun q => pname q =? pname p) ps = Some p.
Proof.
  intros ND HI. destruct (find (fun q => pname q =? pname p) ps) as [q|] eqn:E.
  - apply find_some in E. destruct E as (E1 & E2). apply Nat.eqb_eq in E2. f_equal. eapply nodup_same; eassumption.
  - exfalso. apply (find_none _ _ E) in HI. rewrite Nat.eqb_refl in HI. discriminate.
Qed.

Lemma genericize_instance ps d : NoDup (map pname ps) -> genericize ps (instance_type ps d) = EData d (map EVar ps).
Proof.
  intros ND. unfold instance_type. cbn. f_equal. rewrite map_map. apply map_ext_in. intros p HI. cbn.
  rewrite (find_name ps p ND HI). reflexivity.
Qed.

Lemma declare_fine r x r' : fine r -> declare r x = Some r' -> fine r'.
Proof.
  intros F H. destruct x as [c bases|ps d c]; cbn [declare] in H.
  - destruct (forallb _ bases && _) eqn:E; [|discriminate]. injection H as <-.
    apply andb_true_iff in E. destruct E as (E1 & E2). apply negb_true_iff in E2. rewrite forallb_forall in E1.
    set (r' := Registry ((c, all_bases r bases) :: classes r) (concrete r) (instances r)).
    assert (X1 : forall a, a <> c -> extends_of r' a = extends_of r a).
    { intros a Ha. unfold extends_of, r'. cbn. destruct (c =? a) eqn:K; [apply Nat.eqb_eq in K; congruence|reflexivity]. }
    assert (X2 : extends_of r' c = all_bases r bases) by (unfold extends_of, r'; cbn; rewrite Nat.eqb_refl; reflexivity).
    assert (K1 : forall a, known r a -> a <> c) by (intros a Ha ->; unfold known in Ha; congruence).
    assert (K2 : forall a, known r a -> known r' a) by (intros a Ha; unfold known, r' in *; cbn; rewrite Ha; apply orb_true_r).
    assert (X3 : forall a b, ext r a b -> ext r' a b).
    { intros a b HX. apply ext_in in HX. apply ext_in. destruct (Nat.eq_dec a c) as [->|Ha]; [|rewrite (X1 a Ha); exact HX].
      exfalso. unfold extends_of in HX. destruct (find (fun e => fst e =? c) (classes r)) as [e|] eqn:K; [|destruct HX].
      apply find_some in K. assert (existsb (fun e => fst e =? c) (classes r) = true) by (apply existsb_exists; exists e; exact K). congruence. }
    assert (X4 : forall b, In b (all_bases r bases) -> known r b /\ forall x, ext r b x -> In x (all_bases r bases)).
    { intros b HI. unfold all_bases in *. apply in_flat_map in HI. destruct HI as (b0 & HB & HI). destruct HI as [<-|HI].
      - split; [apply E1; exact HB|]. intros x HX. apply in_flat_map. exists b0. split; [exact HB|right; apply ext_in; exact HX].
      - apply ext_in in HI. split; [eapply fine_known; eassumption|]. intros x HX. apply in_flat_map. exists b0. split; [exact HB|right].
        apply ext_in. eapply fine_trans; eassumption. }
    assert (X5 : forall a b, ext r' a b -> known r b /\ (a <> c -> ext r a b) /\ (a = c -> In b (all_bases r bases))).
    { intros a b HX. apply ext_in in HX. destruct (Nat.eq_dec a c) as [->|Ha].
      - rewrite X2 in HX. split; [apply X4; exact HX|]. split; [intros K; contradiction|intros _; exact HX].
      - rewrite (X1 a Ha) in HX. apply ext_in in HX. split; [eapply fine_known; eassumption|]. split; [intros _; exact HX|intros K; contradiction]. }
    constructor.
    + intros a b e H1 H2. destruct (X5 a b H1) as (A1 & A2 & A3). destruct (X5 b e H2) as (B1 & B2 & _).
      specialize (B2 (K1 b A1)). destruct (Nat.eq_dec a c) as [->|Ha].
      * apply ext_in. rewrite X2. apply (X4 b (A3 eq_refl)). exact B2.
      * apply X3. eapply fine_trans; [exact F|apply A2; exact Ha|exact B2].
    + intros a b HX. apply K2. apply (X5 a b HX).
    + intros d e HI. apply (fine_concrete r F d e HI).
    + intros g e HI. destruct (fine_shape r F g e HI) as (A & B). split; [exact A|apply K2; exact B].
    + intros g e b HI HX. destruct (fine_shape r F g e HI) as (_ & B). destruct (X5 e b HX) as (_ & A & _).
      eapply (belongs_mono r r'); [exact X3|intros g' c' HD; exact HD|]. eapply fine_bases; [exact F|exact HI|apply A; apply K1; exact B].
  - destruct (existsb (fun e => fst e =? c) (classes r) && no_repetition (map pname ps) && forallb (instance_in r (instance_type ps d)) (extends_of r c)) eqn:E;
      [|discriminate].
    match type of H with Some ?X = _ => assert (EQ : r' = X) by congruence end. clear H. subst r'.
    apply andb_true_iff in E. destruct E as (E1 & E3). apply andb_true_iff in E1. destruct E1 as (E1 & E2).
    apply no_repetition_spec in E2. rewrite forallb_forall in E3. rewrite (genericize_instance ps d E2).
    set (g0 := EData d (map EVar ps)).
    match goal with |- fine ?X => set (r' := X) end.
    assert (D : forall g e, decl r' g e <-> decl r g e \/ (g = g0 /\ e = c)).
    { intros g e. unfold decl, r'. cbn. rewrite in_app_iff. cbn. split.
      - intros [A|[[= <- <-]|[]]]; [left; exact A|right; split; reflexivity].
      - intros [A|[-> ->]]; [left; exact A|right; left; reflexivity]. }
    assert (M : forall t e, belongs r t e -> belongs r' t e).
    { apply belongs_mono; [intros a b HX; exact HX|intros g e HD; apply D; left; exact HD]. }
    constructor.
    + apply (fine_trans r F).
    + apply (fine_known r F).
    + intros d' e HI. apply D. unfold r' in HI. cbn in HI. destruct ps as [|p ps].
      * destruct HI as [[= <- <-]|HI]; [right; split; reflexivity|left; apply (fine_concrete r F); exact HI].
      * left. apply (fine_concrete r F). exact HI.
    + intros g e HD. apply D in HD. destruct HD as [HD|(-> & ->)]; [apply (fine_shape r F g e HD)|].
      split; [exists d, ps; split; [reflexivity|exact E2]|exact E1].
    + intros g e b HD HX. apply M. apply D in HD. destruct HD as [HD|(-> & ->)]; [eapply fine_bases; eassumption|].
      assert (NI : normal (instance_type ps d)).
      { constructor. rewrite Forall_forall. intros x HI. apply in_map_iff in HI. destruct HI as (p & <- & _). constructor. }
      assert (B : belongs r (instance_type ps d) b).
      { eapply search_sound; [exact F|exact NI|]. apply E3. apply ext_in. exact HX. }
      set (s := fun k => match find (fun q => pname q =? k) ps with Some q => EVar q | None => EBool end).
      assert (ES : forall p, In p ps -> s (pname p) = EVar p) by (intros p HI; unfold s; rewrite (find_name ps p E2 HI); reflexivity).
      replace g0 with (rep s (instance_type ps d)).
      * apply belongs_rep; [exact F|exact B|exact NI|]. intros p a O PC.
        apply occurs_data in O. destruct O as (x & O1 & O2). apply in_map_iff in O1. destruct O1 as (q & <- & O1). inversion O2; subst.
        rewrite (ES q O1). split; [eapply oc_var; [exact PC|left; reflexivity]|]. intros b' HX'. eapply oc_var; [exact PC|right; exact HX'].
      * unfold instance_type, g0. cbn. f_equal. rewrite map_map. apply map_ext_in. intros p HI. cbn. apply ES. exact HI.
Qed.

Lemma empty_fine : fine empty_registry.
Proof. constructor; intros; try contradiction; try discriminate. Qed.

Lemma declare_all_fine l : forall r r', fine r -> declare_all r l = Some r' -> fine r'.
Proof.
  induction l as [|x l IH]; intros r r' F H; cbn in H; [injection H as <-; exact F|].
  destruct (declare r x) as [r1|] eqn:E; [|discriminate]. eapply IH; [eapply declare_fine; eassumption|exact H].
Qed.

(** * The tables say what the declarations say *)

Lemma of_class_mono (e e' : nat -> nat -> Prop) (d d' : ety -> nat -> Prop) :
  (forall a b, e a b -> e' a b) -> (forall g c, d g c -> d' g c) -> forall t c, of_class e d t c -> of_class e' d' t c.
Proof.
  intros HX HD t c H. induction H as [p a c PC HE|p a c PC HE|g c s t D HB HP IH].
  - eapply oc_var; [exact PC|]. destruct HE as [HE|HE]; [left; exact HE|right; apply HX; exact HE].
  - eapply oc_arb; [exact PC|]. destruct HE as [HE|HE]; [left; exact HE|right; apply HX; exact HE].
  - eapply oc_instance; [apply HD; exact D|exact HB|exact IH].
Qed.

Definition reflects (r : registry) (l : list declaration) : Prop :=
  (forall a b, ext r a b <-> extends_by l a b) /\ (forall g c, decl r g c <-> declared_by l g c).

Lemma extends_by_mono l l' a b : (forall x, In x l -> In x l') -> extends_by l a b -> extends_by l' a b.
Proof. intros H. induction 1; [eapply eb_direct; [apply H; eassumption|assumption]|eapply eb_step; eassumption]. Qed.

Lemma declare_reflects r x r' l : fine r -> reflects r l -> declare r x = Some r' -> reflects r' (l ++ [x]).
Proof.
  intros F (R1 & R2) H. pose proof (declare_fine r x r' F H) as F'. destruct x as [c bases|ps d c]; cbn [declare] in H.
  - destruct (forallb _ bases && _) eqn:E; [|discriminate].
    match type of H with Some ?X = _ => assert (EQ : r' = X) by congruence end. clear H. subst r'.
    apply andb_true_iff in E. destruct E as (E1 & E2). apply negb_true_iff in E2. rewrite forallb_forall in E1.
    match goal with |- reflects ?X _ => set (r' := X) in * end.
    assert (X1 : forall a, a <> c -> extends_of r' a = extends_of r a).
    { intros a Ha. unfold extends_of, r'. cbn. destruct (c =? a) eqn:K; [apply Nat.eqb_eq in K; congruence|reflexivity]. }
    assert (X2 : extends_of r' c = all_bases r bases) by (unfold extends_of, r'; cbn; rewrite Nat.eqb_refl; reflexivity).
    assert (X3 : forall a b, ext r a b -> ext r' a b).
    { intros a b HX. apply ext_in in HX. apply ext_in. destruct (Nat.eq_dec a c) as [->|Ha]; [|rewrite (X1 a Ha); exact HX].
      exfalso. unfold extends_of in HX. destruct (find (fun e => fst e =? c) (classes r)) as [e|] eqn:K; [|destruct HX].
      apply find_some in K. assert (existsb (fun e => fst e =? c) (classes r) = true) by (apply existsb_exists; exists e; exact K). congruence. }
    assert (MO : forall a b, extends_by l a b -> extends_by (l ++ [DClass c bases]) a b).
    { intros a b. apply extends_by_mono. intros x Hx. apply in_or_app. left; exact Hx. }
    split.
    + intros a b. split.
      * intros HX. apply ext_in in HX. destruct (Nat.eq_dec a c) as [->|Ha].
        -- rewrite X2 in HX. unfold all_bases in HX. apply in_flat_map in HX. destruct HX as (b0 & HB & HI).
           assert (DB : extends_by (l ++ [DClass c bases]) c b0) by (eapply eb_direct; [apply in_or_app; right; left; reflexivity|exact HB]).
           destruct HI as [<-|HI]; [exact DB|]. eapply eb_step; [exact DB|]. apply MO. apply R1. apply ext_in. exact HI.
        -- rewrite (X1 a Ha) in HX. apply MO. apply R1. apply ext_in. exact HX.
      * induction 1 as [a bs b HI HB|a b e H1 IH1 H2 IH2].
        -- apply in_app_or in HI. destruct HI as [HI|[[= <- <-]|[]]].
           ++ apply X3. apply R1. eapply eb_direct; eassumption.
           ++ apply ext_in. rewrite X2. unfold all_bases. apply in_flat_map. exists b. split; [exact HB|left; reflexivity].
        -- eapply fine_trans; eassumption.
    + intros g e. unfold decl, r'. cbn. fold (decl r g e). rewrite (R2 g e). unfold declared_by. split.
      * intros (ps & d & HI & EG). exists ps, d. split; [apply in_or_app; left; exact HI|exact EG].
      * intros (ps & d & HI & EG). apply in_app_or in HI. destruct HI as [HI|[HI|[]]]; [|discriminate]. exists ps, d. split; assumption.
  - destruct (existsb (fun e => fst e =? c) (classes r) && no_repetition (map pname ps) && forallb (instance_in r (instance_type ps d)) (extends_of r c)) eqn:E;
      [|discriminate].
    match type of H with Some ?X = _ => assert (EQ : r' = X) by congruence end. clear H. subst r'.
    apply andb_true_iff in E. destruct E as (E1 & _). apply andb_true_iff in E1. destruct E1 as (_ & E2). apply no_repetition_spec in E2.
    rewrite (genericize_instance ps d E2) in *. split.
    + intros a b. change (ext r a b <-> extends_by (l ++ [DInstance ps d c]) a b). rewrite R1. split.
      * apply extends_by_mono. intros x Hx. apply in_or_app. left; exact Hx.
      * induction 1 as [a bs b HI HB|a b e H1 IH1 H2 IH2]; [|eapply eb_step; eassumption].
        apply in_app_or in HI. destruct HI as [HI|[HI|[]]]; [|discriminate]. eapply eb_direct; eassumption.
    + intros g e. unfold decl. cbn. rewrite in_app_iff. fold (decl r g e). rewrite (R2 g e). unfold declared_by. split.
      * intros [(ps' & d' & HI & EG)|[[= <- <-]|[]]].
        -- exists ps', d'. split; [apply in_or_app; left; exact HI|exact EG].
        -- exists ps, d. split; [apply in_or_app; right; left; reflexivity|reflexivity].
      * intros (ps' & d' & HI & EG). apply in_app_or in HI. destruct HI as [HI|[[= <- <- <-]|[]]].
        -- left. exists ps', d'. split; assumption.
        -- right. left. subst g. reflexivity.
Qed.

Lemma declare_all_reflects l : forall r r' done, fine r -> reflects r done -> declare_all r l = Some r' -> reflects r' (done ++ l).
Proof.
  induction l as [|x l IH]; intros r r' done F R H; cbn in H; [injection H as <-; rewrite app_nil_r; exact R|].
  destruct (declare r x) as [r1|] eqn:E; [|discriminate].
  replace (done ++ x :: l) with ((done ++ [x]) ++ l) by (rewrite <- app_assoc; reflexivity).
  eapply IH; [eapply declare_fine; eassumption|eapply declare_reflects; eassumption|exact H].
Qed.

Lemma empty_reflects : reflects empty_registry [].
Proof.
  split.
  - intros a b. split; [discriminate|]. induction 1 as [a bs b HI HB|a b e H1 IH1 H2 IH2]; [destruct HI|discriminate].
  - intros g c. split; [intros []|intros (ps & d & [] & _)].
Qed.

Lemma reflects_belongs r l : reflects r l -> forall t c, belongs r t c <-> of_class (extends_by l) (declared_by l) t c.
Proof.
  intros (R1 & R2) t c. split; apply of_class_mono; intros; try (apply R1; assumption); apply R2; assumption.
Qed.
