(** Lemmas about the keys and the search of the discrimination tree. *)
From Coq Require Import List Arith NArith Bool Lia.
Import ListNotations.
From Verif Require Import Term LocalContext Kbo Literal Clause Typing VariableMap Pdt.

(** An id that fits into the two bytes the code has for it. *)
Definition small (n : N) : Prop := (n < 65536)%N.
Definition fits_symbol (s : symbol) : Prop :=
  match s with
  | SType m i | STypeclass m i | SGlobal m i => small m /\ small i
  | SScoped i => small i
  | _ => True
  end.
Fixpoint fits (t : term) : Prop :=
  match t with
  | TAtom (FreeVar i) | TAtom (BoundVar i) => small (N.of_nat i)
  | TAtom (Sym s) => fits_symbol s
  | TApp f a => fits f /\ fits a
  | TBind _ A b => fits A /\ fits b
  end.
Definition fits_edge (e : edge) : Prop :=
  match e with
  | EAtom (PVar i) | EAtom (PBound i) => small (N.of_nat i)
  | EAtom (PSym s) => fits_symbol s
  | _ => True
  end.
(** The edges that keys are made of: truth values are never written as symbols. *)
Definition key_edge (e : edge) : Prop :=
  match e with EAtom (PSym STrue) | EAtom (PSym SFalse) => False | _ => True end.

Section Keys.
Context (be : bool).

Lemma u16_spec n : small n -> exists a b, u16_bytes be n = [a; b] /\ u16_value be a b = n.
Proof.
  intros H. unfold u16_bytes, u16_value, small in *.
  assert (E : ((n / 256) mod 256 = n / 256)%N).
  { apply N.mod_small. apply N.div_lt_upper_bound; lia. }
  pose proof (N.div_mod n 256 ltac:(lia)).
  destruct be; do 2 eexists; split; try reflexivity; rewrite E; lia.
Qed.

Lemma u16_length n : length (u16_bytes be n) = 2.
Proof. unfold u16_bytes. destruct be; reflexivity. Qed.

Lemma roundtrip e r : fits_edge e -> key_edge e ->
  from_bytes be (edge_bytes be e ++ r) = Some (e, length (edge_bytes be e)).
Proof.
  intros F Ke. unfold edge_bytes.
  destruct e as [|k|a|b]; [..|destruct b]; try (destruct k); try (destruct a as [i|s| | |i]); try destruct s;
    cbn [fits_edge fits_symbol] in F; try contradiction;
    cbn [discriminant app from_bytes length]; rewrite ?app_length, ?u16_length; try reflexivity.
  all: try (destruct (u16_spec _ F) as (x & y & E & V); rewrite E; cbn [app read2]; rewrite V, ?Nnat.Nat2N.id; reflexivity).
  all: destruct F as [F1 F2]; destruct (u16_spec _ F1) as (x & y & E & V), (u16_spec _ F2) as (z & w & E2 & V2);
    rewrite E, E2; cbn [app read4]; rewrite V, V2; reflexivity.
Qed.

Lemma edge_prefix e1 e2 r1 r2 : fits_edge e1 -> key_edge e1 -> fits_edge e2 -> key_edge e2 ->
  edge_bytes be e1 ++ r1 = edge_bytes be e2 ++ r2 -> e1 = e2 /\ r1 = r2.
Proof.
  intros F1 K1 F2 K2 H.
  pose proof (roundtrip e1 r1 F1 K1) as A. rewrite H, (roundtrip e2 r2 F2 K2) in A.
  assert (e1 = e2) by congruence. subst. split; auto. eapply app_inv_head; eauto.
Qed.

(** The first edge of a term's key. *)
Definition top_edge (t : term) : option edge :=
  match t with
  | TAtom a => option_map EAtom (edge_atom a)
  | TApp _ _ => Some EApp
  | TBind k _ _ => Some (EBind k)
  end.

Lemma edge_atom_key a p : edge_atom a = Some p -> key_edge (EAtom p).
Proof. destruct a as [i|i|s]; simpl; intros E; try (destruct s); inversion E; subst; exact I. Qed.
Lemma edge_atom_fits a p : fits (TAtom a) -> edge_atom a = Some p -> fits_edge (EAtom p).
Proof. destruct a as [i|i|s]; simpl; intros F E; try (destruct s); inversion E; subst; simpl in *; auto. Qed.
Lemma edge_atom_inj a b p : edge_atom a = Some p -> edge_atom b = Some p -> a = b.
Proof.
  destruct a as [i|i|s], b as [j|j|s']; simpl; intros E E';
    try (destruct s); try (destruct s'); inversion E; subst; inversion E'; subst; auto.
Qed.

Lemma term_key_inj a : forall b ka kb r1 r2, fits a -> fits b ->
  key_from_term be a = Some ka -> key_from_term be b = Some kb -> ka ++ r1 = kb ++ r2 -> a = b /\ r1 = r2.
Proof.
  induction a as [x|f IHf x IHx|k A IHA x IHx]; intros b ka kb r1 r2 Fa Fb Ka Kb H;
    destruct b as [y|g y|k' B y]; cbn [key_from_term] in Ka, Kb.
  - destruct (edge_atom x) eqn:E1; [|discriminate]. destruct (edge_atom y) eqn:E2; [|discriminate].
    cbn [option_map] in Ka, Kb. inversion Ka; inversion Kb; subst.
    apply edge_prefix in H; eauto using edge_atom_key, edge_atom_fits.
    destruct H as [H ->]. inversion H; subst. split; auto. f_equal. eapply edge_atom_inj; eauto.
  - destruct (edge_atom x) eqn:E1; [|discriminate]. destruct (key_from_term be g); [|discriminate].
    destruct (key_from_term be y); [|discriminate]. cbn [option_map] in Ka, Kb. inversion Ka; inversion Kb; subst.
    change (edge_bytes be (EAtom p) ++ r1 = (edge_bytes be EApp ++ (l ++ l0)) ++ r2) in H.
    rewrite <- app_assoc in H.
    apply edge_prefix in H; eauto using edge_atom_key, edge_atom_fits; simpl; auto. destruct H; discriminate.
  - destruct (edge_atom x) eqn:E1; [|discriminate]. destruct (key_from_term be B); [|discriminate].
    destruct (key_from_term be y); [|discriminate]. cbn [option_map] in Ka, Kb. inversion Ka; inversion Kb; subst.
    change (edge_bytes be (EAtom p) ++ r1 = (edge_bytes be (EBind k') ++ (l ++ l0)) ++ r2) in H.
    rewrite <- app_assoc in H.
    apply edge_prefix in H; eauto using edge_atom_key, edge_atom_fits; simpl; auto. destruct H; discriminate.
  - destruct (edge_atom y) eqn:E1; [|discriminate]. destruct (key_from_term be f); [|discriminate].
    destruct (key_from_term be x); [|discriminate]. cbn [option_map] in Ka, Kb. inversion Ka; inversion Kb; subst.
    change ((edge_bytes be EApp ++ (l ++ l0)) ++ r1 = edge_bytes be (EAtom p) ++ r2) in H.
    rewrite <- app_assoc in H.
    apply edge_prefix in H; eauto using edge_atom_key, edge_atom_fits; simpl; auto. destruct H; discriminate.
  - destruct (key_from_term be f) as [f1|]; [|discriminate]. destruct (key_from_term be x) as [x1|]; [|discriminate].
    destruct (key_from_term be g) as [g1|] eqn:Eg; [|discriminate]. destruct (key_from_term be y) as [y1|] eqn:Ey; [|discriminate].
    inversion Ka as [Ka']. inversion Kb as [Kb']. clear Ka Kb.
    change ((edge_bytes be EApp ++ f1 ++ x1) = ka) in Ka'. change ((edge_bytes be EApp ++ g1 ++ y1) = kb) in Kb'. subst ka kb.
    rewrite <- !app_assoc in H. apply app_inv_head in H. destruct Fa as [Fa1 Fa2], Fb as [Fb1 Fb2].
    destruct (IHf _ _ _ _ _ Fa1 Fb1 eq_refl Eg H) as [-> H2]. destruct (IHx _ _ _ _ _ Fa2 Fb2 eq_refl Ey H2) as [-> ->]. auto.
  - destruct (key_from_term be f) as [f1|]; [|discriminate]. destruct (key_from_term be x) as [x1|]; [|discriminate].
    destruct (key_from_term be B) as [g1|] eqn:Eg; [|discriminate]. destruct (key_from_term be y) as [y1|] eqn:Ey; [|discriminate].
    inversion Ka as [Ka']. inversion Kb as [Kb']. clear Ka Kb.
    change ((edge_bytes be EApp ++ f1 ++ x1) = ka) in Ka'. change ((edge_bytes be (EBind k') ++ g1 ++ y1) = kb) in Kb'. subst ka kb.
    rewrite <- !app_assoc in H. apply edge_prefix in H; simpl; auto. destruct H; discriminate.
  - destruct (edge_atom y) eqn:E1; [|discriminate]. destruct (key_from_term be A); [|discriminate].
    destruct (key_from_term be x); [|discriminate]. cbn [option_map] in Ka, Kb. inversion Ka; inversion Kb; subst.
    change ((edge_bytes be (EBind k) ++ (l ++ l0)) ++ r1 = edge_bytes be (EAtom p) ++ r2) in H.
    rewrite <- app_assoc in H.
    apply edge_prefix in H; eauto using edge_atom_key, edge_atom_fits; simpl; auto. destruct H; discriminate.
  - destruct (key_from_term be A) as [f1|]; [|discriminate]. destruct (key_from_term be x) as [x1|]; [|discriminate].
    destruct (key_from_term be g) as [g1|] eqn:Eg; [|discriminate]. destruct (key_from_term be y) as [y1|] eqn:Ey; [|discriminate].
    inversion Ka as [Ka']. inversion Kb as [Kb']. clear Ka Kb.
    change ((edge_bytes be (EBind k) ++ f1 ++ x1) = ka) in Ka'. change ((edge_bytes be EApp ++ g1 ++ y1) = kb) in Kb'. subst ka kb.
    rewrite <- !app_assoc in H. apply edge_prefix in H; simpl; auto. destruct H; discriminate.
  - destruct (key_from_term be A) as [f1|]; [|discriminate]. destruct (key_from_term be x) as [x1|]; [|discriminate].
    destruct (key_from_term be B) as [g1|] eqn:Eg; [|discriminate]. destruct (key_from_term be y) as [y1|] eqn:Ey; [|discriminate].
    inversion Ka as [Ka']. inversion Kb as [Kb']. clear Ka Kb.
    change ((edge_bytes be (EBind k) ++ f1 ++ x1) = ka) in Ka'. change ((edge_bytes be (EBind k') ++ g1 ++ y1) = kb) in Kb'. subst ka kb.
    rewrite <- !app_assoc in H. apply edge_prefix in H; simpl; auto. destruct H as [E H]. inversion E; subst. destruct Fa as [Fa1 Fa2], Fb as [Fb1 Fb2].
    destruct (IHA _ _ _ _ _ Fa1 Fb1 eq_refl Eg H) as [-> H2]. destruct (IHx _ _ _ _ _ Fa2 Fb2 eq_refl Ey H2) as [-> ->]. auto.
Qed.

Lemma terms_key_inj a : forall b ka kb r1 r2, Forall fits a -> Forall fits b -> length a = length b ->
  key_from_terms be a = Some ka -> key_from_terms be b = Some kb -> ka ++ r1 = kb ++ r2 -> a = b /\ r1 = r2.
Proof.
  induction a as [|x a IH]; intros [|y b] ka kb r1 r2 Fa Fb L Ka Kb H; simpl in L; try discriminate.
  - simpl in *. inversion Ka; inversion Kb; subst. auto.
  - inversion Fa; inversion Fb; subst. simpl in Ka, Kb.
    destruct (key_from_term be x) as [x1|] eqn:E1; [|discriminate]. destruct (key_from_terms be a) as [a1|]; [|discriminate].
    destruct (key_from_term be y) as [y1|] eqn:E2; [|discriminate]. destruct (key_from_terms be b) as [b1|] eqn:E3; [|discriminate].
    inversion Ka; inversion Kb; subst. rewrite <- !app_assoc in H.
    destruct (term_key_inj x y x1 y1 _ _ ltac:(assumption) ltac:(assumption) E1 E2 H) as [-> H'].
    destruct (IH b a1 b1 r1 r2) as [-> ->]; auto.
Qed.

(** A term's key starts with its first edge. *)
Lemma top_edge_key t k : key_from_term be t = Some k ->
  exists e r, top_edge t = Some e /\ k = edge_bytes be e ++ r.
Proof.
  destruct t as [a|f a|b A x]; cbn [key_from_term top_edge].
  - destruct (edge_atom a); [|discriminate]. intros E. inversion E; subst. exists (EAtom p), []. rewrite app_nil_r. auto.
  - destruct (key_from_term be f); [|discriminate]. destruct (key_from_term be a); [|discriminate].
    intros E. inversion E; subst. exists EApp. eexists. split; reflexivity.
  - destruct (key_from_term be A); [|discriminate]. destruct (key_from_term be x); [|discriminate].
    intros E. inversion E; subst. exists (EBind b). eexists. split; reflexivity.
Qed.
Lemma top_edge_ok t e : fits t -> top_edge t = Some e -> fits_edge e /\ key_edge e.
Proof.
  destruct t as [a|f a|b A x]; cbn [top_edge]; intros F E; try (inversion E; subst; simpl; auto; fail).
  destruct (edge_atom a) eqn:Ea; [|discriminate]. inversion E; subst. eauto using edge_atom_fits, edge_atom_key.
Qed.
Lemma top_edge_not_lit t e b : top_edge t = Some e -> e <> ELit b.
Proof.
  destruct t as [a|f a|k A x]; cbn [top_edge]; intros E; try (inversion E; subst; discriminate).
  destruct (edge_atom a); inversion E; subst; discriminate.
Qed.

Lemma sign_terms_inj s1 : forall s2 a b ka kb r1 r2, Forall fits a -> Forall fits b ->
  length a = 2 * length s1 -> length b = 2 * length s2 -> s1 <> [] -> s2 <> [] ->
  key_from_terms be a = Some ka -> key_from_terms be b = Some kb ->
  sign_key be s1 ++ ka ++ r1 = sign_key be s2 ++ kb ++ r2 ->
  map positive s1 = map positive s2 /\ a = b /\ r1 = r2.
Proof.
  intros s2 a b ka kb r1 r2 Fa Fb La Lb N1 N2 Ka Kb.
  assert (Ta : exists e r, (forall p, e <> ELit p) /\ fits_edge e /\ key_edge e /\ ka = edge_bytes be e ++ r).
  { destruct a as [|x a]; [destruct s1; simpl in *; congruence|]. simpl in Ka. inversion Fa; subst.
    destruct (key_from_term be x) eqn:E; [|discriminate]. destruct (key_from_terms be a); [|discriminate].
    destruct (top_edge_key _ _ E) as (e & r & T & ->). exists e. rewrite <- app_assoc in Ka. inversion Ka; subst.
    destruct (top_edge_ok x e ltac:(assumption) T). eexists. split; [intros p; eapply top_edge_not_lit; eauto|].
    split; [assumption|]. split; [assumption|]. reflexivity. }
  assert (Tb : exists e r, (forall p, e <> ELit p) /\ fits_edge e /\ key_edge e /\ kb = edge_bytes be e ++ r).
  { destruct b as [|x b]; [destruct s2; simpl in *; congruence|]. simpl in Kb. inversion Fb; subst.
    destruct (key_from_term be x) eqn:E; [|discriminate]. destruct (key_from_terms be b); [|discriminate].
    destruct (top_edge_key _ _ E) as (e & r & T & ->). exists e. rewrite <- app_assoc in Kb. inversion Kb; subst.
    destruct (top_edge_ok x e ltac:(assumption) T). eexists. split; [intros p; eapply top_edge_not_lit; eauto|].
    split; [assumption|]. split; [assumption|]. reflexivity. }
  destruct Ta as (ea & ra & Na & F1 & K1 & ->), Tb as (eb & rb & Nb & F2 & K2 & ->).
  clear N1 N2. revert s2 Lb. 
  assert (G : forall s1 s2, sign_key be s1 ++ (edge_bytes be ea ++ ra) ++ r1 = sign_key be s2 ++ (edge_bytes be eb ++ rb) ++ r2 ->
            map positive s1 = map positive s2 /\ (edge_bytes be ea ++ ra) ++ r1 = (edge_bytes be eb ++ rb) ++ r2).
  { induction s0 as [|x s0 IH]; intros [|y s2] H; cbn [sign_key flat_map app] in H.
    - auto.
    - exfalso. rewrite <- !app_assoc in H. change (flat_map _ s2) with (sign_key be s2) in H.
      apply edge_prefix in H; simpl; auto. destruct H. eapply Na; eauto.
    - exfalso. rewrite <- !app_assoc in H. change (flat_map _ s0) with (sign_key be s0) in H.
      apply edge_prefix in H; simpl; auto. destruct H. eapply Nb; eauto.
    - rewrite <- (app_assoc (edge_bytes be (ELit (positive x)))), <- (app_assoc (edge_bytes be (ELit (positive y)))) in H.
      apply edge_prefix in H; simpl; auto. destruct H as [E H]. inversion E. apply IH in H. destruct H as [-> H].
      simpl. rewrite H1. auto. }
  intros s2 Lb H. destruct (G _ _ H) as [E H']. split; auto.
  eapply terms_key_inj in H'; eauto. rewrite La, Lb, <- (map_length positive s1), E, map_length. auto.
Qed.

Lemma literal_terms_length l : length (literal_terms l) = 2 * length l.
Proof. induction l; simpl; lia. Qed.
Lemma literal_terms_inj a : forall b, map positive a = map positive b -> literal_terms a = literal_terms b -> a = b.
Proof.
  induction a as [|x a IH]; intros [|y b] H E; simpl in *; try discriminate; auto.
  inversion H; inversion E. destruct x, y; simpl in *; subst. f_equal; auto.
Qed.
End Keys.

Lemma prefixb_spec p : forall k, prefixb p k = true <-> exists r, k = p ++ r.
Proof.
  induction p as [|x p IH]; intros [|y k]; simpl.
  - split; eauto.
  - split; eauto.
  - split; [discriminate|intros [r E]; discriminate].
  - rewrite andb_true_iff, N.eqb_eq, IH. split.
    + intros [-> [r ->]]. eauto.
    + intros [r E]. inversion E. eauto.
Qed.
Lemma in_subtrie t k e : In e (subtrie t k) <-> In e t /\ exists r, fst e = k ++ r.
Proof. unfold subtrie. rewrite filter_In, prefixb_spec. reflexivity. Qed.
Lemma trie_get_in t k v : trie_get t k = Some v -> In (k, v) t.
Proof.
  induction t as [|[k' v'] t IH]; simpl; [discriminate|]. destruct (key_eq_dec k k'); intros E.
  - inversion E; subst. auto.
  - auto.
Qed.
Lemma in_trie_get t k : In k (map fst t) -> exists v, trie_get t k = Some v.
Proof.
  induction t as [|[k' v'] t IH]; simpl; [tauto|]. destruct (key_eq_dec k k'); [eauto|].
  intros [E|E]; [congruence|auto].
Qed.

(** A pattern's variables become the terms of a list. *)
Definition instance (repl : list term) (p : term) : term := apply_to_term (map Some repl) p.
Lemma vget_map repl i : vget (map Some repl) i = nth_error repl i.
Proof. unfold vget. rewrite nth_error_map. destruct (nth_error repl i); reflexivity. Qed.
Lemma instance_var repl i t : nth_error repl i = Some t -> instance repl (TVar i) = t.
Proof. intros H. unfold instance. simpl. rewrite vget_map, H. reflexivity. Qed.

Inductive inside : term -> term -> Prop :=
| inside_refl t : inside t t
| inside_fun s f a : inside s f -> inside s (TApp f a)
| inside_arg s f a : inside s a -> inside s (TApp f a)
| inside_type s k A b : inside s A -> inside s (TBind k A b)
| inside_body s k A b : inside s b -> inside s (TBind k A b).
Lemma inside_trans a b c : inside a b -> inside b c -> inside a c.
Proof. intros H I. induction I; auto using inside. Qed.

Section Search.
Context (be : bool) (K : kctx) (mi : lctx -> term -> lctx -> term -> bool).
Notation find := (find_matches be K mi).

Lemma find_nil n metas k terms q repl : find n metas [] k terms q repl = Continue.
Proof. destruct n; reflexivity. Qed.

Definition step n metas t k e terms q repl : outcome :=
  find n metas (subtrie t (k ++ edge_bytes be e)) (k ++ edge_bytes be e) terms q repl.

Lemma find_cons n metas x t k first rest q repl :
  find (S n) metas (x :: t) k (first :: rest) q repl =
  seq (back (fun i => step n metas (x :: t) k (EAtom (PVar i)) rest q repl) first 0 repl)
    (seq (step n metas (x :: t) k (EAtom (PVar (length repl))) rest q (repl ++ [first]))
       (match first with
        | TAtom (FreeVar _) => Continue
        | TAtom a =>
          match edge_atom a with
          | None => Continue
          | Some p => step n metas (x :: t) k (EAtom p) rest q repl
          end
        | TApp f a => step n metas (x :: t) k EApp (f :: a :: rest) q repl
        | TBind b A body => step n metas (x :: t) k (EBind b) (A :: body :: rest) (push_type q A) repl
        end)).
Proof.
  assert (G : forall e terms' q' repl',
    match subtrie (x :: t) (k ++ edge_bytes be e) with
    | [] => Continue
    | t' => find n metas t' (k ++ edge_bytes be e) terms' q' repl'
    end = step n metas (x :: t) k e terms' q' repl').
  { intros. unfold step. destruct (subtrie (x :: t) (k ++ edge_bytes be e)); auto. rewrite find_nil. auto. }
  cbn [find_matches]. f_equal.
  - generalize 0. generalize repl at 2 4. induction repl0 as [|r rs IH]; intros i; cbn [back]; auto.
    rewrite IH, G. reflexivity.
  - rewrite G. f_equal. destruct first as [a|f a|b A body]; rewrite ?G; auto.
    destruct a as [i|i|s]; auto; destruct (edge_atom _); auto.
Qed.

Lemma find_end n metas x t k q repl :
  find (S n) metas (x :: t) k [] q repl =
  match trie_get (x :: t) k with
  | None => Crash
  | Some id =>
    match nth_error metas id with
    | None => Crash
    | Some pctx =>
      match verify_from K mi 0 repl pctx q with
      | None => Crash
      | Some true => Found id repl
      | Some false => Continue
      end
    end
  end.
Proof. reflexivity. Qed.

Lemma back_found g first rs : forall i id r, back g first i rs = Found id r ->
  exists j, nth_error rs j = Some first /\ g (i + j) = Found id r.
Proof.
  induction rs as [|x rs IH]; intros i id r; cbn [back]; [discriminate|].
  destruct (term_eqb first x) eqn:E.
  - apply term_eqb_eq in E. subst x. destruct (g i) eqn:G; cbn [seq]; intros H; try discriminate.
    + exists 0. rewrite Nat.add_0_r. split; auto. congruence.
    + destruct (IH _ _ _ H) as (j & A & B). exists (S j). rewrite <- plus_n_Sm. auto.
  - cbn [seq]. intros H. destruct (IH _ _ _ H) as (j & A & B). exists (S j). rewrite <- plus_n_Sm. auto.
Qed.

Lemma seq_found a b id r : seq a b = Found id r -> a = Found id r \/ (a = Continue /\ b = Found id r).
Proof. destruct a; simpl; auto; discriminate. Qed.

(** Variables numbered by first occurrence, [m] of them seen before. *)
Fixpoint number (m : nat) (t : term) : option nat :=
  match t with
  | TAtom (FreeVar i) => if Nat.ltb i m then Some m else if Nat.eqb i m then Some (S m) else None
  | TAtom _ => Some m
  | TApp f a => match number m f with Some m => number m a | None => None end
  | TBind _ A b => match number m A with Some m => number m b | None => None end
  end.
Fixpoint numbers (m : nat) (l : list term) : option nat :=
  match l with
  | [] => Some m
  | t :: r => match number m t with Some m => numbers m r | None => None end
  end.

(** A match is a stored key of patterns whose instance is the query. *)
Lemma find_sound n : forall metas t k terms q repl id repl',
  length repl + n <= 500 -> Forall fits terms ->
  find n metas t k terms q repl = Found id repl' ->
  exists ps k2 pctx ext qext, In (k ++ k2, id) t /\ key_from_terms be ps = Some k2 /\ Forall fits ps /\
    map (instance repl') ps = terms /\ repl' = repl ++ ext /\ numbers (length repl) ps = Some (length repl') /\
    nth_error metas id = Some pctx /\ verify_from K mi 0 repl' pctx (q ++ qext) = Some true.
Proof.
  induction n as [|n IH]; intros metas t k terms q repl id repl' L F H.
  { destruct t; discriminate. }
  destruct t as [|x t]; [discriminate|].
  destruct terms as [|first rest].
  - rewrite find_end in H. destruct (trie_get (x :: t) k) as [v|] eqn:G; [|discriminate].
    destruct (nth_error metas v) as [pctx|] eqn:M; [|discriminate].
    destruct (verify_from K mi 0 repl pctx q) as [[|]|] eqn:V; try discriminate. inversion H; subst.
    exists [], [], pctx, [], []. rewrite !app_nil_r. split; [apply trie_get_in; auto|]. auto 10.
  - rewrite find_cons in H. inversion F as [|? ? Ff Fr]; subst.
    apply seq_found in H. destruct H as [H|[_ H]].
    + apply back_found in H. destruct H as (j & N & H). cbn [plus] in H.
      assert (J : j < length repl) by (apply nth_error_Some; congruence).
      apply IH in H; auto; [|lia]. destruct H as (ps & k2 & pctx & ext & qext & I & Kp & Fp & Mp & E & Nb & Nm & V).
      apply in_subtrie in I. destruct I as [I _].
      exists (TVar j :: ps), (edge_bytes be (EAtom (PVar j)) ++ k2), pctx, ext, qext.
      rewrite <- app_assoc in I. split; auto. split; [cbn [key_from_terms key_from_term edge_atom option_map]; rewrite Kp; auto|].
      split; [constructor; auto; unfold fits, small; lia|].
      cbn [map numbers number]. apply Nat.ltb_lt in J as J'. rewrite J'.
      split; [|auto]. f_equal; auto. apply instance_var. rewrite E, nth_error_app1; auto.
    + apply seq_found in H. destruct H as [H|[_ H]].
      * apply IH in H; auto; [|rewrite app_length; simpl; lia].
        destruct H as (ps & k2 & pctx & ext & qext & I & Kp & Fp & Mp & E & Nb & Nm & V).
        apply in_subtrie in I. destruct I as [I _].
        exists (TVar (length repl) :: ps), (edge_bytes be (EAtom (PVar (length repl))) ++ k2), pctx, (first :: ext), qext.
        rewrite <- app_assoc in I, E. split; auto. split; [cbn [key_from_terms key_from_term edge_atom option_map]; rewrite Kp; auto|].
        split; [constructor; auto; unfold fits, small; lia|].
        cbn [map numbers number]. rewrite Nat.ltb_irrefl, Nat.eqb_refl.
        rewrite app_length, Nat.add_1_r in Nb.
        split; [|auto]. f_equal; auto. apply instance_var. rewrite E, nth_error_app2, Nat.sub_diag; auto.
      * destruct first as [a|f a|b A body].
        -- assert (H' : match edge_atom a with Some p => step n metas (x :: t) k (EAtom p) rest q repl | None => Continue end = Found id repl' /\ (forall i, a <> FreeVar i)).
           { destruct a; [discriminate|split; [exact H|discriminate]..]. }
           clear H. destruct H' as [H NV]. destruct (edge_atom a) as [p|] eqn:Ea; [|discriminate].
           apply IH in H; auto; [|lia].
           destruct H as (ps & k2 & pctx & ext & qext & I & Kp & Fp & Mp & E & Nb & Nm & V).
           apply in_subtrie in I. destruct I as [I _].
           exists (TAtom a :: ps), (edge_bytes be (EAtom p) ++ k2), pctx, ext, qext.
           rewrite <- app_assoc in I. split; auto.
           split; [cbn [key_from_terms key_from_term]; rewrite Ea; cbn [option_map]; rewrite Kp; auto|].
           split; [constructor; auto|].
           assert (Na : numbers (length repl) (TAtom a :: ps) = numbers (length repl) ps).
           { destruct a; auto. exfalso. eapply NV; eauto. }
           rewrite Na. split; [|auto].
           cbn [map]. f_equal; auto. destruct a; auto. exfalso. eapply NV; eauto.
        -- destruct Ff as [F1 F2]. apply IH in H; [|lia|auto].
           destruct H as (ps & k2 & pctx & ext & qext & I & Kp & Fp & Mp & E & Nb & Nm & V).
           apply in_subtrie in I. destruct I as [I _].
           destruct ps as [|p1 [|p2 ps]]; try discriminate. inversion Mp. inversion Fp as [|? ? G1 G2]; subst. inversion G2; subst.
           cbn [key_from_terms] in Kp.
           destruct (key_from_term be p1) as [x1|] eqn:E1; [|discriminate].
           destruct (key_from_term be p2) as [x2|] eqn:E2; [|discriminate].
           destruct (key_from_terms be ps) as [x3|] eqn:E3; [|discriminate].
           inversion Kp; subst k2.
           exists (TApp p1 p2 :: ps), ((edge_bytes be EApp ++ x1 ++ x2) ++ x3), pctx, ext, qext.
           rewrite <- !app_assoc in *. split; auto.
           split; [cbn [key_from_terms key_from_term]; rewrite E1, E2, E3, <- ?app_assoc; auto|].
           split; [constructor; auto; split; auto|]. split; [reflexivity|]. split; [auto|]. split; [|auto]. cbn [numbers number] in *. destruct (number (length repl) p1); auto.
        -- destruct Ff as [F1 F2]. apply IH in H; [|lia|auto].
           destruct H as (ps & k2 & pctx & ext & qext & I & Kp & Fp & Mp & E & Nb & Nm & V).
           apply in_subtrie in I. destruct I as [I _].
           destruct ps as [|p1 [|p2 ps]]; try discriminate. inversion Mp. inversion Fp as [|? ? G1 G2]; subst. inversion G2; subst.
           cbn [key_from_terms] in Kp.
           destruct (key_from_term be p1) as [x1|] eqn:E1; [|discriminate].
           destruct (key_from_term be p2) as [x2|] eqn:E2; [|discriminate].
           destruct (key_from_terms be ps) as [x3|] eqn:E3; [|discriminate].
           inversion Kp; subst k2.
           exists (TBind b p1 p2 :: ps), ((edge_bytes be (EBind b) ++ x1 ++ x2) ++ x3), pctx, ext. eexists (Some _ :: qext).
           unfold push_type in V. rewrite <- !app_assoc in *. split; auto.
           split; [cbn [key_from_terms key_from_term]; rewrite E1, E2, E3, <- ?app_assoc; auto|].
           split; [constructor; auto; split; auto|]. split; [reflexivity|]. split; [auto|]. split; [|split; [auto|exact V]]. cbn [numbers number] in *. destruct (number (length repl) p1); auto.
Qed.

(** Every entry of a subtrie is the key [k] followed by the keys of [m] terms. *)
Definition covers (metas : list lctx) (t : trie) (k : list N) (m : nat) : Prop :=
  forall kk id, In (kk, id) t -> exists ps k2, length ps = m /\ Forall fits ps /\
    key_from_terms be ps = Some k2 /\ kk = k ++ k2 /\ id < length metas.

Definition edge_arity (e : edge) : nat := match e with EApp | EBind _ => 2 | _ => 0 end.

(** Entries below an edge start with a term of that shape. *)
Lemma entry_step ps k2 r e : Forall fits ps -> ps <> [] -> key_from_terms be ps = Some k2 -> fits_edge e -> key_edge e ->
  k2 = edge_bytes be e ++ r ->
  exists p ps', ps = p :: ps' /\ top_edge p = Some e /\
    exists qs, key_from_terms be qs = Some r /\ Forall fits qs /\
      match p with
      | TAtom _ => qs = ps'
      | TApp a b => qs = a :: b :: ps'
      | TBind _ a b => qs = a :: b :: ps'
      end.
Proof.
  intros F N Kp Fe Ke E. destruct ps as [|p ps]; [congruence|]. exists p, ps. split; auto.
  inversion F as [|? ? Fp Fps]; subst. cbn [key_from_terms] in Kp.
  destruct (key_from_term be p) as [kp|] eqn:E1; [|discriminate].
  destruct (key_from_terms be ps) as [ks|] eqn:E2; [|discriminate]. inversion Kp as [Kp']. clear Kp.
  destruct (top_edge_key be p kp E1) as (e' & r' & T & Ek).
  destruct (top_edge_ok _ _ Fp T) as [Fe' Ke'].
  assert (Q : e' = e /\ r' ++ ks = r).
  { apply (edge_prefix be); auto. rewrite app_assoc, <- Ek. auto. }
  destruct Q as [-> Er]. split; auto.
  destruct p as [a|f a|b A x]; cbn [key_from_term top_edge] in E1, T.
  - destruct (edge_atom a) as [pa|]; [|discriminate]. inversion T; subst e.
    cbn [option_map] in E1. inversion E1 as [E1']. rewrite <- E1' in Ek.
    assert (r' = []). { rewrite <- (app_nil_r (edge_bytes be (EAtom pa))) in Ek at 1. apply app_inv_head in Ek. auto. }
    subst r'. cbn [app] in Er. subst. eauto.
  - destruct (key_from_term be f) as [kf|] eqn:Ef; [|discriminate]. destruct (key_from_term be a) as [ka|] eqn:Ea; [|discriminate].
    inversion T; subst e. inversion E1 as [E1']. change (edge_bytes be EApp ++ kf ++ ka = kp) in E1'. rewrite Ek in E1'. apply app_inv_head in E1'.
    exists (f :: a :: ps). destruct Fp. split; [|auto]. cbn [key_from_terms]. rewrite Ef, Ea, E2. rewrite <- Er, <- E1', <- app_assoc. auto.
  - destruct (key_from_term be A) as [kf|] eqn:Ef; [|discriminate]. destruct (key_from_term be x) as [ka|] eqn:Ea; [|discriminate].
    inversion T; subst e. inversion E1 as [E1']. change (edge_bytes be (EBind b) ++ kf ++ ka = kp) in E1'. rewrite Ek in E1'. apply app_inv_head in E1'.
    exists (A :: x :: ps). destruct Fp. split; [|auto]. cbn [key_from_terms]. rewrite Ef, Ea, E2. rewrite <- Er, <- E1', <- app_assoc. auto.
Qed.

Lemma covers_step metas t k m e : covers metas t k (S m) -> fits_edge e -> key_edge e -> (forall p, e <> ELit p) ->
  covers metas (subtrie t (k ++ edge_bytes be e)) (k ++ edge_bytes be e) (edge_arity e + m).
Proof.
  intros C Fe Ke NL kk id I. apply in_subtrie in I. destruct I as [I [r Er]]. cbn [fst] in Er.
  destruct (C _ _ I) as (ps & k2 & L & F & Kp & E & Lm). rewrite E, <- app_assoc in Er. apply app_inv_head in Er.
  destruct (entry_step ps k2 r e) as (p & ps' & -> & T & qs & Kq & Fq & S); auto.
  { intros ->. discriminate. }
  exists qs, r. simpl in L. split; [|rewrite <- app_assoc, <- Er; auto].
  destruct p as [a|f a|b A x]; cbn [top_edge] in T; subst qs; simpl.
  - destruct (edge_atom a); inversion T; subst. simpl. lia.
  - inversion T; subst. simpl. lia.
  - inversion T; subst. simpl. lia.
Qed.

Definition sizes (l : list term) : nat := list_sum (map tsize l).
Lemma tsize_pos t : 1 <= tsize t.
Proof. destruct t; simpl; lia. Qed.

(** The types the verification asks for exist. *)
Definition typed (q : lctx) (t : term) : Prop :=
  forall s, inside s t -> has_escaping_bound_variable s = false -> forall ext, get_type K (q ++ ext) s <> None.
Lemma typed_push q A t : typed q t -> typed (push_type q A) t.
Proof. intros H s I E ext. unfold push_type. rewrite <- app_assoc. apply H; auto. Qed.
Lemma typed_inside q s t : inside s t -> typed q t -> typed q s.
Proof. intros I H u J. apply H. eapply inside_trans; eauto. Qed.

Lemma typed_app q f a : typed q (TApp f a) -> typed q f /\ typed q a.
Proof. intros H. split; eapply typed_inside; try exact H; auto using inside. Qed.
Lemma typed_bind q k A b : typed q (TBind k A b) -> typed q A /\ typed q b.
Proof. intros H. split; eapply typed_inside; try exact H; auto using inside. Qed.

Lemma verify_total repl : forall i pctx q, Forall (typed q) repl -> verify_from K mi i repl pctx q <> None.
Proof.
  induction repl as [|t repl IH]; intros i pctx q F; cbn [verify_from]; [discriminate|].
  inversion F as [|? ? Ft Fr]; subst.
  destruct (has_escaping_bound_variable t) eqn:E; [discriminate|].
  destruct (get_var_type pctx i) as [T|]; [|auto].
  assert (Some_type : exists T', bound_type K t q = Some (Some T')).
  { assert (G : exists T', get_type K q t = Some T').
    { pose proof (Ft t (inside_refl t) E []) as G. rewrite app_nil_r in G. destruct (get_type K q t); eauto. congruence. }
    destruct G as [T' G]. exists T'. unfold bound_type. rewrite G.
    destruct t as [a|f a|b A x]; [destruct a as [j|j|s]|..]; try reflexivity.
    exfalso. cbv in G. discriminate. }
  destruct Some_type as [T' ET].
  assert (B : exists b, types_compatible K mi t T pctx q = Some b).
  { unfold types_compatible. rewrite ET.
    destruct (match T with TSym SType0 => negb (type_level t) | _ => false end); [eauto|].
    destruct (term_eqb T' T); eauto. }
  destruct B as [[|] ->]; [auto|discriminate].
Qed.

Definition good (o : outcome) : Prop := match o with Found _ _ | Continue => True | _ => False end.
Lemma good_seq a b : good a -> good b -> good (seq a b).
Proof. destruct a; simpl; auto. Qed.
Lemma good_back g first rs : (forall i, good (g i)) -> forall i, good (back g first i rs).
Proof.
  intros G. induction rs; intros i; cbn [back]; [exact I|]. apply good_seq; auto.
  destruct (term_eqb first a); simpl; auto.
Qed.
Lemma good_back_in g first rs : forall i, (forall j, j < length rs -> good (g (i + j))) -> good (back g first i rs).
Proof.
  induction rs as [|r rs IH]; intros i G; cbn [back]; [exact I|]. apply good_seq.
  - destruct (term_eqb first r); [|exact I]. specialize (G 0). rewrite Nat.add_0_r in G. apply G. simpl. lia.
  - apply IH. intros j J. rewrite plus_Sn_m, plus_n_Sm. apply G. simpl. lia.
Qed.

(** The search neither panics nor hits the limit when the query is small enough. *)
Lemma find_safe n : forall metas t k terms q repl,
  covers metas t k (length terms) -> sizes terms < n -> length repl + n <= 500 -> Forall fits terms ->
  Forall (typed q) terms -> Forall (typed q) repl ->
  good (find n metas t k terms q repl).
Proof.
  induction n as [|n IH]; intros metas t k terms q repl C Sz L F Tt Tr; [lia|].
  destruct t as [|x t]; [exact I|].
  destruct terms as [|first rest].
  - rewrite find_end. destruct x as [kk id].
    destruct (C kk id (or_introl eq_refl)) as (ps & k2 & L0 & _ & K2 & E & _).
    destruct ps; [|discriminate]. inversion K2; subst k2. rewrite app_nil_r in E. subst kk.
    destruct (in_trie_get ((k, id) :: t) k (or_introl eq_refl)) as [v G]. rewrite G.
    apply trie_get_in in G. destruct (C _ _ G) as (_ & _ & _ & _ & _ & _ & Lv).
    apply nth_error_Some in Lv. destruct (nth_error metas v) as [pctx|]; [|congruence].
    pose proof (verify_total repl 0 pctx q Tr).
    destruct (verify_from K mi 0 repl pctx q) as [[|]|]; simpl; auto.
  - rewrite find_cons. inversion F as [|? ? Ff Fr]; subst. inversion Tt as [|? ? Tf Ts]; subst.
    unfold sizes in Sz. cbn [map list_sum fold_right] in Sz. change (fold_right plus 0) with list_sum in Sz.
    pose proof (tsize_pos first) as P1.
    assert (Step : forall i repl', i < 500 -> length repl' + n <= 500 -> Forall (typed q) repl' ->
       good (step n metas (x :: t) k (EAtom (PVar i)) rest q repl')).
    { intros i repl' Hi L' T'. apply IH; auto; [|unfold sizes; lia].
      apply (covers_step metas (x :: t) k (length rest) (EAtom (PVar i))); simpl; auto; [|discriminate].
      unfold small. lia. }
    apply good_seq; [|apply good_seq].
    + apply good_back_in. intros j J. apply Step; auto; lia.
    + apply Step; [lia|rewrite app_length; simpl; lia|]. apply Forall_app. auto.
    + destruct first as [a|f a|b A body].
      * destruct (edge_atom a) as [p|] eqn:Ea; [|destruct a; exact I].
        assert (G : good (step n metas (x :: t) k (EAtom p) rest q repl)).
        { apply IH; auto; [|unfold sizes; lia|lia].
          apply (covers_step metas (x :: t) k (length rest) (EAtom p)); eauto using edge_atom_fits, edge_atom_key. discriminate. }
        destruct a; auto. exact I.
      * destruct Ff as [F1 F2]. simpl in Sz. apply IH; auto; [|unfold sizes; simpl; lia|lia|].
        { apply (covers_step metas (x :: t) k (length rest) EApp); simpl; auto. discriminate. }
        apply typed_app in Tf. destruct Tf. auto.
      * destruct Ff as [F1 F2]. simpl in Sz. apply IH; auto; [|unfold sizes; simpl; lia|lia| |].
        { apply (covers_step metas (x :: t) k (length rest) (EBind b)); simpl; auto. discriminate. }
        { apply typed_bind in Tf. destruct Tf. constructor; [apply typed_push; auto|]. constructor; [apply typed_push; auto|].
          eapply Forall_impl; [|exact Ts]. intros; apply typed_push; auto. }
        { eapply Forall_impl; [|exact Tr]. intros; apply typed_push; auto. }
Qed.

Lemma seq_hit a b : good a -> good b -> (exists id r, a = Found id r) \/ (exists id r, b = Found id r) ->
  exists id r, seq a b = Found id r.
Proof.
  intros Ga Gb [(id & r & ->)|(id & r & ->)]; simpl; eauto. destruct a; simpl in *; try contradiction; eauto.
Qed.
Lemma back_hit g first rs : forall i j, nth_error rs j = Some first -> (forall j, j < length rs -> good (g (i + j))) ->
  (exists id r, g (i + j) = Found id r) -> exists id r, back g first i rs = Found id r.
Proof.
  induction rs as [|x rs IH]; intros i j N G H; [destruct j; discriminate|].
  assert (G0 : good (g i)). { specialize (G 0). rewrite Nat.add_0_r in G. apply G. simpl. lia. }
  assert (G1 : forall j, j < length rs -> good (g (S i + j))).
  { intros j' J. rewrite plus_Sn_m, plus_n_Sm. apply G. simpl. lia. }
  cbn [back]. apply seq_hit.
  - destruct (term_eqb first x); auto. exact I.
  - apply good_back_in; auto.
  - destruct j; simpl in N.
    + inversion N; subst x. rewrite term_eqb_refl. rewrite Nat.add_0_r in H. auto.
    + right. apply IH with j; auto. rewrite plus_Sn_m, plus_n_Sm. auto.
Qed.

Lemma trie_get_unique t k v : NoDup (map fst t) -> In (k, v) t -> trie_get t k = Some v.
Proof.
  induction t as [|[k' v'] t IH]; simpl; [tauto|]. intros N [E|I]; inversion N; subst.
  - inversion E; subst. destruct (key_eq_dec k k); congruence.
  - destruct (key_eq_dec k k'); auto. subst. exfalso. apply H1. apply in_map with (f := fst) in I. auto.
Qed.
Lemma nodup_subtrie t k : NoDup (map fst t) -> NoDup (map fst (subtrie t k)).
Proof.
  induction t as [|e t IH]; simpl; auto. intros N. inversion N; subst. destruct (prefixb k (fst e)); auto.
  simpl. constructor; auto. intros C. apply H1. apply in_map_iff in C. destruct C as (y & E & C).
  apply filter_In in C. rewrite <- E. apply in_map. tauto.
Qed.

(** An instance of a stored pattern is found (or something else is). *)
Lemma find_complete n : forall metas t k ps k2 id pctx sigma q repl rest,
  NoDup (map fst t) -> In (k ++ k2, id) t -> key_from_terms be ps = Some k2 -> Forall fits ps ->
  nth_error metas id = Some pctx -> sigma = repl ++ rest -> numbers (length repl) ps = Some (length sigma) ->
  (forall ext, verify_from K mi 0 sigma pctx (q ++ ext) = Some true) ->
  let terms := map (instance sigma) ps in
  covers metas t k (length terms) -> sizes terms < n -> length repl + n <= 500 -> Forall fits terms ->
  Forall (typed q) terms -> Forall (typed q) repl ->
  exists id' r', find n metas t k terms q repl = Found id' r'.
Proof.
  induction n as [|n IH]; intros metas t k ps k2 id pctx sigma q repl rest ND I Kp Fp Nm Es Nb V terms C Sz L F Tt Tr; [lia|].
  destruct t as [|x t]; [contradiction|].
  destruct ps as [|p ps].
  - subst terms. cbn [map]. rewrite find_end. cbn in Kp. inversion Kp; subst k2. rewrite app_nil_r in I.
    rewrite (trie_get_unique _ _ _ ND I), Nm. cbn [numbers] in Nb. inversion Nb as [Ln].
    assert (rest = []). { subst sigma. rewrite app_length in Ln. destruct rest; auto. simpl in Ln. lia. }
    subst rest. rewrite app_nil_r in Es. subst sigma. specialize (V []). rewrite app_nil_r in V. rewrite V. eauto.
  - subst terms. cbn [map] in *. set (first := instance sigma p) in *. rewrite find_cons.
    inversion F as [|? ? Ff Fr]; subst. inversion Tt as [|? ? Tf Ts]; subst.
    inversion Fp as [|? ? Fp1 Fps]; subst.
    cbn [length] in C. unfold sizes in Sz. cbn [map list_sum fold_right] in Sz. change (fold_right plus 0) with list_sum in Sz.
    pose proof (tsize_pos first) as P1.
    set (tr := x :: t) in *.
    set (sg := repl ++ rest) in *.
    assert (Step : forall i repl', i < 500 -> length repl' + n <= 500 -> Forall (typed q) repl' ->
       good (step n metas tr k (EAtom (PVar i)) (map (instance sg) ps) q repl')).
    { intros i repl' Hi L' T'. apply find_safe; auto; [|unfold sizes; lia].
      apply (covers_step metas tr k (length (map (instance sg) ps)) (EAtom (PVar i))); simpl; auto; [|discriminate].
      unfold small. lia. }
    assert (Gback : good (back (fun i => step n metas tr k (EAtom (PVar i)) (map (instance sg) ps) q repl) first 0 repl)).
    { apply good_back_in. intros j J. apply Step; auto; lia. }
    assert (Gnew : good (step n metas tr k (EAtom (PVar (length repl))) (map (instance sg) ps) q (repl ++ [first]))).
    { apply Step; [lia|rewrite app_length; simpl; lia|]. apply Forall_app. auto. }
    match goal with |- exists id' r', seq ?a (seq ?b ?c) = _ => set (third := c) end.
    assert (Gthird : good third).
    { subst third. destruct first as [a|f a|b A body].
      - destruct (edge_atom a) as [pa|] eqn:Ea; [|destruct a; exact Logic.I].
        assert (G : good (step n metas tr k (EAtom pa) (map (instance sg) ps) q repl)).
        { apply find_safe; auto; [|unfold sizes; lia|lia].
          apply (covers_step metas tr k (length (map (instance sg) ps)) (EAtom pa)); eauto using edge_atom_fits, edge_atom_key. discriminate. }
        destruct a; auto. exact Logic.I.
      - destruct Ff as [F1 F2]. simpl in Sz. apply find_safe; auto; [|unfold sizes; simpl; lia|lia|].
        { apply (covers_step metas tr k (length (map (instance sg) ps)) EApp); simpl; auto. discriminate. }
        apply typed_app in Tf. destruct Tf. auto.
      - destruct Ff as [F1 F2]. simpl in Sz. apply find_safe; auto; [|unfold sizes; simpl; lia|lia| |].
        { apply (covers_step metas tr k (length (map (instance sg) ps)) (EBind b)); simpl; auto. discriminate. }
        { apply typed_bind in Tf. destruct Tf. constructor; [apply typed_push; auto|]. constructor; [apply typed_push; auto|].
          eapply Forall_impl; [|exact Ts]. intros; apply typed_push; auto. }
        { eapply Forall_impl; [|exact Tr]. intros; apply typed_push; auto. } }
    apply seq_hit; auto using good_seq.
    (* the entry below the edge of the pattern's first term *)
    destruct (top_edge p) as [e|] eqn:Te.
    2:{ exfalso. cbn [key_from_terms] in Kp. destruct (key_from_term be p) as [kp|] eqn:Ep; [|discriminate].
        destruct (top_edge_key be p kp Ep) as (e & ? & ? & ?). congruence. }
    destruct (top_edge_ok _ _ Fp1 Te) as [Fe Ke].
    assert (Below : exists r, k2 = edge_bytes be e ++ r).
    { cbn [key_from_terms] in Kp. destruct (key_from_term be p) as [kp|] eqn:Ep; [|discriminate].
      destruct (key_from_terms be ps) as [kps|]; [|discriminate]. inversion Kp; subst.
      destruct (top_edge_key be p kp Ep) as (e' & r & T & ->). rewrite Te in T. inversion T; subst.
      rewrite <- app_assoc. eauto. }
    destruct Below as [r Er].
    destruct (entry_step (p :: ps) k2 r e) as (p' & ps' & E' & T' & qs & Kq & Fq & S); auto; [discriminate|].
    inversion E'; subst p' ps'. clear E' T'.
    assert (Isub : In ((k ++ edge_bytes be e) ++ r, id) (subtrie tr (k ++ edge_bytes be e))).
    { apply in_subtrie. split; [rewrite <- app_assoc, <- Er; auto|exists r; reflexivity]. }
    cbn [numbers] in Nb.
    assert (LE : length repl <= length sg) by (subst sg; rewrite app_length; lia).
    destruct p as [a|f a|b A body].
    + cbn [top_edge] in Te. destruct (edge_atom a) as [pa|] eqn:Ea; [|discriminate]. inversion Te; subst e. subst qs.
      destruct a as [i|i|s].
      * cbn in Ea. inversion Ea; subst pa. cbn [number] in Nb.
        destruct (Nat.ltb_spec i (length repl)) as [Hi|Hi].
        -- left. apply back_hit with i.
           ++ subst first. unfold instance. cbn [apply_to_term]. rewrite vget_map.
              subst sg. rewrite nth_error_app1 by auto. destruct (nth_error repl i) eqn:Q; auto.
              apply nth_error_None in Q. lia.
           ++ intros j J. apply Step; auto; lia.
           ++ cbn [plus]. unfold step.
              apply (IH metas _ _ ps r id pctx sg q repl rest); auto using nodup_subtrie; [|unfold sizes; lia|lia].
              apply (covers_step metas tr k (length (map (instance sg) ps)) (EAtom (PVar i))); auto. discriminate.
        -- destruct (Nat.eqb_spec i (length repl)) as [Hi2|]; [|discriminate]. subst i.
           right. apply seq_hit; auto. left.
           assert (Q : nth_error sg (length repl) = Some first).
           { subst first. unfold instance. cbn [apply_to_term]. rewrite vget_map.
             destruct (nth_error sg (length repl)) eqn:Q; auto. exfalso. apply nth_error_None in Q.
             assert (length sg >= S (length repl)); [|lia].
             clear - Nb. assert (forall t m m', number m t = Some m' -> m <= m').
             { induction t as [a0| |]; simpl; intros m m' H.
               - destruct a0; try (inversion H; lia). destruct (Nat.ltb i m); [inversion H; lia|].
                 destruct (Nat.eqb i m); inversion H; lia.
               - destruct (number m t1) eqn:E; [|discriminate]. apply IHt1 in E. apply IHt2 in H. lia.
               - destruct (number m t1) eqn:E; [|discriminate]. apply IHt1 in E. apply IHt2 in H. lia. }
             assert (forall l m m', numbers m l = Some m' -> m <= m').
             { induction l; simpl; intros m m' H'; [inversion H'; lia|]. destruct (number m a) eqn:E; [|discriminate].
               apply H in E. apply IHl in H'. lia. }
             apply H0 in Nb. lia. }
           assert (Rest : exists rest', rest = first :: rest').
           { subst sg. rewrite nth_error_app2, Nat.sub_diag in Q by lia. destruct rest; inversion Q. eauto. }
           destruct Rest as [rest' Rr].
           unfold step.
           apply (IH metas _ _ ps r id pctx sg q (repl ++ [first]) rest'); auto using nodup_subtrie.
           ++ subst sg. rewrite Rr, <- app_assoc. auto.
           ++ rewrite app_length, Nat.add_1_r. auto.
           ++ apply (covers_step metas tr k (length (map (instance sg) ps)) (EAtom (PVar (length repl)))); auto. discriminate.
           ++ unfold sizes; lia.
           ++ rewrite app_length. simpl. lia.
           ++ apply Forall_app. auto.
      * right. apply seq_hit; auto. right. subst third first. cbn [instance apply_to_term]. unfold instance. cbn [apply_to_term]. rewrite Ea.
        cbn [number] in Nb. unfold step.
        apply (IH metas _ _ ps r id pctx sg q repl rest); auto using nodup_subtrie; [|unfold sizes; lia|lia].
        apply (covers_step metas tr k (length (map (instance sg) ps)) (EAtom pa)); auto. discriminate.
      * right. apply seq_hit; auto. right. subst third first. unfold instance. cbn [apply_to_term]. rewrite Ea.
        cbn [number] in Nb. unfold step.
        apply (IH metas _ _ ps r id pctx sg q repl rest); auto using nodup_subtrie; [|unfold sizes; lia|lia].
        apply (covers_step metas tr k (length (map (instance sg) ps)) (EAtom pa)); auto. discriminate.
    + inversion Te; subst e. subst qs. right. apply seq_hit; auto. right. subst third first.
      change (instance sg (TApp f a)) with (TApp (instance sg f) (instance sg a)) in *. cbn iota.
      cbn [number] in Nb. destruct Ff as [F1 F2]. simpl in Sz.
      apply (IH metas (subtrie tr (k ++ edge_bytes be EApp)) (k ++ edge_bytes be EApp) (f :: a :: ps) r id pctx sg q repl rest); auto using nodup_subtrie.
      * cbn [numbers]. destruct (number (length repl) f); auto.
      * apply (covers_step metas tr k (length (map (instance sg) ps)) EApp); auto. discriminate.
      * unfold sizes. simpl. lia.
      * lia.
      * cbn [map]. auto.
      * cbn [map]. apply typed_app in Tf. destruct Tf. auto.
    + inversion Te; subst e. subst qs. right. apply seq_hit; auto. right. subst third first.
      change (instance sg (TBind b A body)) with (TBind b (instance sg A) (instance sg body)) in *. cbn iota.
      cbn [number] in Nb. destruct Ff as [F1 F2]. simpl in Sz.
      apply (IH metas (subtrie tr (k ++ edge_bytes be (EBind b))) (k ++ edge_bytes be (EBind b)) (A :: body :: ps) r id pctx sg _ repl rest); auto using nodup_subtrie.
      * cbn [numbers]. destruct (number (length repl) A); auto.
      * intros ext. unfold push_type. rewrite <- app_assoc. auto.
      * apply (covers_step metas tr k (length (map (instance sg) ps)) (EBind b)); auto. discriminate.
      * unfold sizes. simpl. lia.
      * lia.
      * cbn [map]. auto.
      * cbn [map]. apply typed_bind in Tf. destruct Tf. constructor; [apply typed_push; auto|]. constructor; [apply typed_push; auto|].
        eapply Forall_impl; [|exact Ts]. intros; apply typed_push; auto.
      * eapply Forall_impl; [|exact Tr]. intros; apply typed_push; auto.
Qed.
End Search.
