(** Property C36: the literal index.  What it returns is a generalization of the query; which inserted
    literals it is sure to find, and which it loses. *)
From Coq Require Import List Arith NArith Bool Lia.
Import ListNotations.
From Verif Require Import Term LocalContext Kbo Literal Clause Typing VariableMap Pdt PdtProofs TermProofs RenumberProofs.

(** An insertion: the literal, its id, the types of its variables. *)
Definition insertion : Type := literal * nat * lctx.
Fixpoint insert_all (be : bool) (p : pdt lit_entry) (ops : list insertion) : option (pdt lit_entry) :=
  match ops with
  | [] => Some p
  | (l, id, c) :: r => match lit_insert be p l id c with Some p' => insert_all be p' r | None => None end
  end.
(** The ids fit into two bytes, also after renumbering the reversed literal. *)
Definition op_fits (o : insertion) : Prop :=
  let '(l, _, c) := o in
  fits (left l) /\ fits (right l) /\
  forall r a c' ids, normalized_reversed c l = Some (r, a, c', ids) -> fits r /\ fits a.

(** ** what is stored *)
Record stored := Stored { s_left : term; s_right : term; s_entry : lit_entry; s_ctx : lctx }.
(** The pairs an insertion stores. *)
Definition stored_of (o : insertion) : list stored :=
  let '(l, id, c) := o in
  Stored (left l) (right l) (LitEntry (positive l) id false []) c ::
  match kbo_cmp (left l) (right l), normalized_reversed c l with
  | Eq, Some (r, a, c', ids) => [Stored r a (LitEntry (positive l) id true ids) c']
  | _, _ => []
  end.

Section Index.
Context (be : bool) (K : kctx) (mi : lctx -> term -> lctx -> term -> bool).

Record holds (p : pdt lit_entry) (R : list stored) : Prop := {
  h_nodup : NoDup (map fst (entries _ p));
  h_values : values _ p = map s_entry R;
  h_metas : metas _ p = map s_ctx R;
  h_sound : forall k id, In (k, id) (entries _ p) -> exists s, nth_error R id = Some s /\
    key_from_terms be [s_left s; s_right s] = Some k;
  h_all : forall s, In s R -> exists k, key_from_terms be [s_left s; s_right s] = Some k /\ In k (map fst (entries _ p)) }.

Lemma in_trie_insert t k v k' v' : In (k', v') (trie_insert t k v) -> (k' = k /\ v' = v) \/ In (k', v') t.
Proof.
  induction t as [|[a b] t IH]; simpl.
  - intros [E|[]]. inversion E. auto.
  - destruct (key_eq_dec k a); simpl; intros [E|I]; auto.
    + inversion E. auto.
    + apply IH in I. tauto.
Qed.
Lemma keys_trie_insert t k v x : In x (map fst (trie_insert t k v)) <-> x = k \/ In x (map fst t).
Proof.
  induction t as [|[a b] t IH]; simpl; [intuition|].
  destruct (key_eq_dec k a); simpl; [subst; intuition|rewrite IH; intuition].
Qed.
Lemma nodup_trie_insert t k v : NoDup (map fst t) -> NoDup (map fst (trie_insert t k v)).
Proof.
  induction t as [|[a b] t IH]; simpl; intros H; [repeat constructor; auto|].
  inversion H; subst. destruct (key_eq_dec k a); simpl; [subst; constructor; auto|].
  constructor; auto. rewrite keys_trie_insert. intros [E|I]; auto.
Qed.

Lemma holds_insert p R a b e c p' : holds p R -> insert_pair be p a b e c = Some p' -> holds p' (R ++ [Stored a b e c]).
Proof.
  intros [N V M S A] E. unfold insert_pair in E. destruct (key_from_pair be a b) as [k|] eqn:Ek; [|discriminate].
  inversion E; subst p'. clear E. unfold key_from_pair in Ek.
  assert (L : length (values _ p) = length R) by (rewrite V; apply map_length).
  constructor; cbn [insert_key entries values metas].
  - apply nodup_trie_insert; auto.
  - rewrite map_app, V. reflexivity.
  - rewrite map_app, M. reflexivity.
  - intros k' id I. apply in_trie_insert in I. destruct I as [[-> ->]|I].
    + exists (Stored a b e c). rewrite L, nth_error_app2, Nat.sub_diag by auto. split; [reflexivity|exact Ek].
    + destruct (S _ _ I) as (s & Ns & Ks). exists s. split; auto. rewrite nth_error_app1; auto.
      apply nth_error_Some. congruence.
  - intros s I. apply in_app_or in I. destruct I as [I|[<-|[]]].
    + destruct (A s I) as (k' & Ks & Ik). exists k'. split; auto. apply keys_trie_insert. auto.
    + exists k. split; [exact Ek|]. apply keys_trie_insert. auto.
Qed.

Lemma holds_op p R l id c p' : holds p R -> lit_insert be p l id c = Some p' -> holds p' (R ++ stored_of (l, id, c)).
Proof.
  intros H E. unfold lit_insert in E. cbn [stored_of].
  destruct (insert_pair be p (left l) (right l) (LitEntry (positive l) id false []) c) as [p1|] eqn:E1; [|discriminate].
  apply (holds_insert _ _ _ _ _ _ _ H) in E1.
  destruct (kbo_cmp (left l) (right l)); [|discriminate|].
  - destruct (normalized_reversed c l) as [[[[r a] c'] ids]|]; [|discriminate].
    apply (holds_insert _ _ _ _ _ _ _ E1) in E. rewrite <- app_assoc in E. exact E.
  - inversion E; subst. exact E1.
Qed.
Lemma holds_all ops : forall p R p', holds p R -> insert_all be p ops = Some p' -> holds p' (R ++ flat_map stored_of ops).
Proof.
  induction ops as [|[[l id] c] ops IH]; intros p R p' H E; cbn [insert_all flat_map] in *.
  - inversion E; subst. rewrite app_nil_r. auto.
  - destruct (lit_insert be p l id c) as [p1|] eqn:E1; [|discriminate].
    apply (holds_op _ _ _ _ _ _ H) in E1. rewrite app_assoc. eapply IH; eauto.
Qed.
Lemma holds_new : holds pdt_new [].
Proof. constructor; simpl; auto; try constructor; intros; tauto. Qed.

Lemma stored_fits ops s : Forall op_fits ops -> In s (flat_map stored_of ops) -> fits (s_left s) /\ fits (s_right s).
Proof.
  intros F I. apply in_flat_map in I. destruct I as ([[l id] c] & Io & I).
  pose proof (proj1 (Forall_forall _ _) F _ Io) as (F1 & F2 & F3).
  destruct I as [<-|I]; [auto|].
  destruct (kbo_cmp (left l) (right l)); [|destruct I|destruct I].
  destruct (normalized_reversed c l) as [[[[r a] c'] ids]|] eqn:E; [|destruct I].
  destruct I as [<-|[]]. cbn. eapply F3; eauto.
Qed.

Lemma limit_ok : length (@nil term) + stack_limit <= 500.
Proof. exact (le_n 500). Qed.
Lemma find_pair_hit p a b q e repl : find_pair be K mi p a b q = Hit _ (e, repl) ->
  exists n id, length (@nil term) + n <= 500 /\
    find_matches be K mi n (metas lit_entry p) (entries lit_entry p) [] [a; b] q [] = Found id repl /\
    nth_error (values lit_entry p) id = Some e.
Proof.
  unfold find_pair, answer_of. generalize limit_ok. generalize stack_limit. intros n L.
  destruct (find_matches be K mi n (metas lit_entry p) (entries lit_entry p) [] [a; b] q []) as [id r'| | |] eqn:F; try discriminate.
  destruct (nth_error (values lit_entry p) id) as [v|] eqn:Nv; [|discriminate]. intros E. inversion E; subst. eauto.
Qed.
Lemma find_pair_hits p a b q :
  (forall n, length (@nil term) + n <= 500 -> 500 <= n -> exists id r,
    find_matches be K mi n (metas lit_entry p) (entries lit_entry p) [] [a; b] q [] = Found id r /\
    nth_error (values lit_entry p) id <> None) -> exists v, find_pair be K mi p a b q = Hit _ v.
Proof.
  intros H. destruct (H stack_limit limit_ok (le_n 500)) as (id & r & F & N).
  unfold find_pair, answer_of. revert F. generalize stack_limit. intros n ->.
  destruct (nth_error (values lit_entry p) id); [eauto|congruence].
Qed.

(** A hit is a stored pair with the query as instance. *)
Lemma find_pair_sound p R a b q e repl : holds p R -> (forall s, In s R -> fits (s_left s) /\ fits (s_right s)) ->
  fits a -> fits b -> find_pair be K mi p a b q = Hit _ (e, repl) ->
  exists s ext, In s R /\ s_entry s = e /\ instance repl (s_left s) = a /\ instance repl (s_right s) = b /\
    numbers 0 [s_left s; s_right s] = Some (length repl) /\
    verify_from K mi 0 repl (s_ctx s) (q ++ ext) = Some true.
Proof.
  intros H FR Fa Fb E. apply find_pair_hit in E. destruct E as (n & id & L & F & Nv).
  apply find_sound in F; [|exact L|auto].
  destruct F as (ps & k2 & pctx & ext & qext & I & Kp & Fp & Mp & Er & Nb & Nm & V).
  cbn [app] in I. destruct (h_sound _ _ H _ _ I) as (s & Ns & Ks).
  destruct (FR s (nth_error_In _ _ Ns)) as [F1 F2].
  destruct (terms_key_inj be ps [s_left s; s_right s] k2 k2 [] [] Fp) as [Eps _]; auto.
  { rewrite <- (map_length (instance repl) ps), Mp. reflexivity. }
  exists s, qext. subst ps. inversion Mp. split; [eapply nth_error_In; eauto|].
  rewrite (h_values _ _ H), (map_nth_error s_entry id R Ns) in Nv. inversion Nv.
  rewrite (h_metas _ _ H), (map_nth_error s_ctx id R Ns) in Nm. inversion Nm. subst pctx. auto 10.
Qed.

(** A stored pair whose terms and types fit is found, unless another context was stored for its terms. *)
Lemma find_pair_complete p R s sigma a b q : holds p R -> (forall s, In s R -> fits (s_left s) /\ fits (s_right s)) ->
  In s R -> (forall s', In s' R -> s_left s' = s_left s -> s_right s' = s_right s -> s_ctx s' = s_ctx s) ->
  numbers 0 [s_left s; s_right s] = Some (length sigma) ->
  instance sigma (s_left s) = a -> instance sigma (s_right s) = b ->
  (forall ext, verify_from K mi 0 sigma (s_ctx s) (q ++ ext) = Some true) ->
  fits a -> fits b -> typed K q a -> typed K q b -> tsize a + tsize b < 500 ->
  exists v, find_pair be K mi p a b q = Hit _ v.
Proof.
  intros H FR Is Only Nb Ea Eb V Fa Fb Ta Tb Sz.
  destruct (h_all _ _ H s Is) as (k & Ks & Ik). apply in_map_iff in Ik. destruct Ik as ([k' id] & Ek & Ik). cbn in Ek. subst k'.
  destruct (h_sound _ _ H _ _ Ik) as (s' & Ns & Ks').
  pose proof (nth_error_In _ _ Ns) as Is'.
  destruct (FR _ Is) as [F1 F2], (FR _ Is') as [F3 F4].
  destruct (terms_key_inj be [s_left s'; s_right s'] [s_left s; s_right s] k k [] []) as [Eps _]; auto.
  inversion Eps as [[E1 E2]]. pose proof (Only _ Is' E1 E2) as Ec.
  assert (C : covers be (metas lit_entry p) (entries lit_entry p) [] 2).
  { intros kk i I. destruct (h_sound _ _ H _ _ I) as (u & Nu & Ku). pose proof (FR _ (nth_error_In _ _ Nu)) as [? ?].
    exists [s_left u; s_right u], kk. repeat split; auto. rewrite (h_metas _ _ H), map_length. apply nth_error_Some. congruence. }
  apply find_pair_hits. intros n Ln Ln'.
  destruct (find_complete be K mi n (metas lit_entry p) (entries lit_entry p) [] [s_left s; s_right s] k id
    (s_ctx s) sigma q [] sigma) as (id' & r' & Fd); auto.
  - apply H.
  - rewrite (h_metas _ _ H), (map_nth_error s_ctx id R Ns), Ec. reflexivity.
  - cbn [map]. rewrite Ea, Eb. unfold sizes. simpl. lia.
  - cbn [map]. rewrite Ea, Eb. auto.
  - cbn [map]. rewrite Ea, Eb. auto.
  - cbn [map] in Fd. rewrite Ea, Eb in Fd. exists id', r'. split; [exact Fd|].
    apply find_sound in Fd; [|exact Ln|auto].
    destruct Fd as (ps & k2 & pctx & ext & qext & I & _).
    destruct (h_sound _ _ H _ _ I) as (u & Nu & _).
    rewrite (h_values _ _ H), (map_nth_error s_entry id' R Nu). discriminate.
Qed.
End Index.

(** ** numbering *)
Lemma number_vars t : forall m n, number m t = Some n -> m <= n /\ forall v, In v (vars t) -> v < n.
Proof.
  induction t as [[i|i|s]|f IHf a IHa|k A IHA b IHb]; intros m n; cbn [number].
  - destruct (Nat.ltb_spec i m); [intros E; inversion E; subst; split; auto; simpl; intros v [<-|[]]; auto|].
    destruct (Nat.eqb_spec i m); intros E; inversion E; subst. split; auto. simpl; intros v [<-|[]]; auto.
  - intros E; inversion E. simpl. split; [auto|tauto].
  - intros E; inversion E. simpl. split; [auto|tauto].
  - destruct (number m f) as [m1|] eqn:E1; [|discriminate]. intros E2. destruct (IHf _ _ E1), (IHa _ _ E2).
    split; [lia|]. intros v. rewrite vars_app, in_app_iff. intros [I|I]; auto. specialize (H0 v I). lia.
  - destruct (number m A) as [m1|] eqn:E1; [|discriminate]. intros E2. destruct (IHA _ _ E1), (IHb _ _ E2).
    split; [lia|]. intros v. rewrite vars_bind, in_app_iff. intros [I|I]; auto. specialize (H0 v I). lia.
Qed.
Lemma numbers_pair a b n : numbers 0 [a; b] = Some n -> (forall v, In v (vars a) -> v < n) /\ (forall v, In v (vars b) -> v < n).
Proof.
  cbn [numbers]. destruct (number 0 a) as [m|] eqn:E1; [|discriminate]. destruct (number m b) as [m2|] eqn:E2; [|discriminate].
  intros E; inversion E; subst. apply number_vars in E1, E2. destruct E1, E2. split; auto. intros v I. specialize (H0 v I). lia.
Qed.

(** ** the map of a reversed literal *)
Lemma vget_vset m : forall i j t, vget (vset m i t) j = if Nat.eqb j i then Some t else vget m j.
Proof.
  unfold vget. induction m as [|x m IH]; intros i.
  - induction i as [|i IHi]; intros [|j] t; simpl; auto.
    + destruct j; auto.
    + specialize (IHi j t). simpl in IHi. rewrite IHi. destruct (Nat.eqb j i); auto. destruct j; auto.
  - destruct i as [|i]; intros [|j] t; simpl; auto.
Qed.
Lemma set_all_get ids : forall repl m m', set_all ids repl m = Some m' -> NoDup ids ->
  length repl <= length ids /\
  (forall i v t, nth_error ids i = Some v -> nth_error repl i = Some t -> vget m' v = Some t) /\
  (forall v, ~ In v (firstn (length repl) ids) -> vget m' v = vget m v).
Proof.
  induction ids as [|i0 ids IH]; intros [|t repl] m m' E N; cbn [set_all] in E; try discriminate.
  - inversion E; subst. split; [auto|]. split; auto. intros [|] ? ?; discriminate.
  - inversion E; subst. split; [simpl; lia|]. split; auto. intros [|] ? ? _; discriminate.
  - inversion N as [|? ? Ni Nr]; subst. destruct (IH _ _ _ E Nr) as (L & G & O). split; [simpl; lia|]. split.
    + intros [|i] v u Hi Hr; simpl in *.
      * inversion Hi; inversion Hr; subst. rewrite O; [rewrite vget_vset, Nat.eqb_refl; auto|].
        intros I. apply Ni. rewrite <- (firstn_skipn (length repl) ids). apply in_or_app. auto.
      * eauto.
    + intros v Nv. simpl in Nv. rewrite O by tauto. rewrite vget_vset. destruct (Nat.eqb_spec v i0); auto. subst. tauto.
Qed.
Lemma apply_renumbered m ids repl t : forall t', renumber_variables ids t = Some t' ->
  (forall i v u, nth_error ids i = Some v -> nth_error repl i = Some u -> vget m v = Some u) ->
  (forall v, In v (vars t') -> v < length repl) -> apply_to_term m t = instance repl t'.
Proof.
  induction t as [[i|i|s]|f IHf a IHa|k A IHA b IHb]; intros t'; cbn [renumber_variables apply_to_term].
  - destruct (position i ids) as [p|] eqn:Ep; [|discriminate]. intros E G B. inversion E; subst. apply position_some in Ep.
    destruct Ep as [Np _]. specialize (B p (or_introl eq_refl)). apply nth_error_Some in B.
    destruct (nth_error repl p) as [u|] eqn:Eu; [|congruence]. rewrite (G _ _ _ Np Eu). symmetry. apply instance_var. auto.
  - intros E; inversion E. reflexivity.
  - intros E; inversion E. reflexivity.
  - destruct (renumber_variables ids f) as [f'|]; [|discriminate]. destruct (renumber_variables ids a) as [a'|]; [|discriminate].
    intros E G B. inversion E; subst. unfold instance in *. cbn [apply_to_term]. rewrite vars_app in B.
    rewrite (IHf f'), (IHa a'); auto; intros; apply B, in_or_app; auto.
  - destruct (renumber_variables ids A) as [f'|]; [|discriminate]. destruct (renumber_variables ids b) as [a'|]; [|discriminate].
    intros E G B. inversion E; subst. unfold instance in *. cbn [apply_to_term]. rewrite vars_bind in B.
    rewrite (IHA f'), (IHb a'); auto; intros; apply B, in_or_app; auto.
Qed.

Lemma reversed_spec c l r a c' ids : normalized_reversed c l = Some (r, a, c', ids) ->
  NoDup ids /\ renumber_variables ids (right l) = Some r /\ renumber_variables ids (left l) = Some a /\ remap c ids = Some c'.
Proof.
  unfold normalized_reversed. destruct (normalize_var_ids c [] (right l)) as [[r1 i1]|] eqn:E1; [|discriminate].
  destruct (normalize_var_ids c i1 (left l)) as [[a1 i2]|] eqn:E2; [|discriminate].
  destruct (remap c i2) as [c1|] eqn:E3; [|discriminate]. intros E; inversion E; subst. clear E.
  apply normalize_var_ids_spec in E1, E2. destruct E1 as [(_ & N1 & _) R1], E2 as [((ext & -> & _) & N2 & _) R2].
  split; [apply N2, N1; constructor|]. split; [apply renumber_app_l; auto|]. auto.
Qed.

(** ** soundness *)
Section Types.
Context (K : kctx) (mi : lctx -> term -> lctx -> term -> bool).
(** The matcher of types accepts a closed type for itself only. *)
Context (mi_closed : forall pc T qc T', vars T = [] -> mi pc T qc T' = true -> T' = T).

(** A closed type that is not a type class. *)
Definition plain_type (T : term) : Prop := vars T = [] /\ forall m i, T <> TSym (STypeclass m i).

Lemma verify_types repl : forall i pctx q j t T, verify_from K mi i repl pctx q = Some true ->
  nth_error repl j = Some t -> get_var_type pctx (i + j) = Some T -> plain_type T -> get_type K q t = Some T.
Proof.
  induction repl as [|u repl IH]; intros i pctx q j t T V Nj G P; [destruct j; discriminate|].
  cbn [verify_from] in V. destruct (has_escaping_bound_variable u) eqn:Es; [discriminate|].
  destruct j as [|j].
  - inversion Nj; subst u. rewrite Nat.add_0_r in G. rewrite G in V.
    destruct (types_compatible K mi t T pctx q) as [[|]|] eqn:C; try discriminate. clear V.
    unfold types_compatible in C.
    assert (B : bound_type K t q = option_map Some (get_type K q t)).
    { unfold bound_type. destruct t as [[| |]| |]; auto. simpl in Es. discriminate. }
    rewrite B in C. clear B. destruct (get_type K q t) as [U|]; [|discriminate]. cbn [option_map] in C. f_equal.
    destruct P as [Pc Pt].
    destruct (match T with TSym SType0 => negb (type_level t) | _ => false end); [discriminate|].
    destruct (term_eqb U T) eqn:Eu; [apply term_eqb_eq; auto|]. inversion C as [C1]. clear C.
    destruct T as [[v|v|s]|f a|k A b]; try (eapply mi_closed; eauto; fail).
    + discriminate Pc.
    + destruct s; try (eapply mi_closed; eauto; fail). exfalso. eapply Pt; eauto.
  - simpl in Nj. rewrite <- plus_n_Sm in G.
    destruct (get_var_type pctx i); [destruct (types_compatible K mi u _ pctx q) as [[|]|]; try discriminate|]; eapply IH; eauto.
Qed.
End Types.

Lemma verify_closed K mi repl : forall i pctx q j t, verify_from K mi i repl pctx q = Some true ->
  nth_error repl j = Some t -> has_escaping_bound_variable t = false.
Proof.
  induction repl as [|u repl IH]; intros i pctx q j t V Nj; [destruct j; discriminate|].
  cbn [verify_from] in V. destruct (has_escaping_bound_variable u) eqn:Es; [discriminate|].
  destruct j as [|j]; [inversion Nj; subst; auto|]. simpl in Nj.
  destruct (get_var_type pctx i); [destruct (types_compatible K mi u _ pctx q) as [[|]|]; try discriminate|]; eapply IH; eauto.
Qed.
Lemma renumber_closed ids T : forall T', vars T = [] -> renumber_variables ids T = Some T' -> T' = T.
Proof.
  induction T as [[i|i|s]|f IHf a IHa|k A IHA b IHb]; intros T' C; cbn [renumber_variables]; try (intros E; inversion E; auto; fail).
  - discriminate C.
  - rewrite vars_app in C. apply app_eq_nil in C. destruct C as [C1 C2].
    destruct (renumber_variables ids f) as [f'|]; [|discriminate]. destruct (renumber_variables ids a) as [a'|]; [|discriminate].
    intros E. inversion E. rewrite (IHf f'), (IHa a'); auto.
  - rewrite vars_bind in C. apply app_eq_nil in C. destruct C as [C1 C2].
    destruct (renumber_variables ids A) as [f'|]; [|discriminate]. destruct (renumber_variables ids b) as [a'|]; [|discriminate].
    intros E. inversion E. rewrite (IHA f'), (IHb a'); auto.
Qed.

(* Keeps the conversion test from unfolding the search. *)
Local Opaque find_pair.
(** What a lookup returns: the id of an inserted literal, whether the signs agree, and a map that turns the
    literal's sides into the query's (exchanged if it says so).  Every variable of a plain type gets a term
    of that type without loose bound variables, in the query's context with the binders above it. *)
Theorem found_literals_are_generalizations :
  forall be K mi, (forall pc T qc T', vars T = [] -> mi pc T qc T' = true -> T' = T) ->
  forall ops p l q same id flipped m,
  Forall op_fits ops -> insert_all be pdt_new ops = Some p -> fits (left l) -> fits (right l) ->
  find_generalization_with_map be K mi p l q = Hit _ (same, id, flipped, m) ->
  exists l0 c0 ext, In (l0, id, c0) ops /\ same = Bool.eqb (positive l0) (positive l) /\
    (if flipped then apply_to_term m (right l0) = left l /\ apply_to_term m (left l0) = right l
     else apply_to_term m (left l0) = left l /\ apply_to_term m (right l0) = right l) /\
    (forall v T, In v (vars (left l0) ++ vars (right l0)) -> get_var_type c0 v = Some T -> plain_type T ->
       exists t, vget m v = Some t /\ has_escaping_bound_variable t = false /\ get_type K (q ++ ext) t = Some T).
Proof.
  intros be K mi Hmi ops p l q same id flipped m F Ins Fl Fr E.
  pose proof (holds_all be ops _ _ _ (holds_new be) Ins) as H. cbn [app] in H.
  unfold find_generalization_with_map in E.
  destruct (find_pair be K mi p (left l) (right l) q) as [[e repl]| |] eqn:Fp; try discriminate.
  apply (find_pair_sound be K mi p _ _ _ _ _ _ H) in Fp; auto; [|intros; eapply stored_fits; eauto].
  destruct Fp as (s & ext & Is & Es & I1 & I2 & Nb & V).
  apply in_flat_map in Is. destruct Is as ([[l0 id0] c0] & Io & Is).
  apply numbers_pair in Nb as Nv. destruct Nv as [Nv1 Nv2].
  exists l0, c0, ext. cbn [stored_of] in Is. destruct Is as [<-|Is].
  - cbn [s_entry s_left s_right s_ctx] in *. subst e. cbn [e_flipped e_sign e_id] in E. inversion E; subst. clear E.
    split; [auto|]. split; auto. split; [split; auto|]. intros v T Iv G P.
    assert (B : v < length repl) by (apply in_app_or in Iv; destruct Iv; auto).
    apply nth_error_Some in B. destruct (nth_error repl v) as [t|] eqn:Et; [|congruence]. exists t. rewrite vget_map. split; auto.
    split; [exact (verify_closed K mi repl 0 c0 (q ++ ext) v t V Et)|].
    exact (verify_types K mi Hmi repl 0 c0 (q ++ ext) v t T V Et G P).
  - destruct (kbo_cmp (left l0) (right l0)); [|destruct Is|destruct Is].
    destruct (normalized_reversed c0 l0) as [[[[r a] c'] ids]|] eqn:En; [|destruct Is].
    destruct Is as [<-|[]]. cbn [s_entry s_left s_right s_ctx] in *. subst e. cbn [e_flipped e_sign e_id e_var_ids] in E.
    destruct (set_all ids repl []) as [m1|] eqn:Sa; [|discriminate]. inversion E; subst. clear E.
    apply reversed_spec in En. destruct En as (Nd & Rr & Ra & Rm).
    destruct (set_all_get _ _ _ _ Sa Nd) as (Len & G & _).
    rewrite <- I1, <- I2.
    split; auto. split; auto. split; [split; eapply apply_renumbered; eauto|].
    intros v T Iv Gv P.
    assert (B : exists i, nth_error ids i = Some v /\ i < length repl).
    { apply in_app_or in Iv. destruct Iv as [Iv|Iv].
      - pose proof (proj1 (renumber_vars _ _ _ Ra) v Iv) as J. destruct (position_in_ex _ _ J) as [i Ei].
        pose proof (position_some _ _ _ Ei) as [Ni _]. exists i. split; auto. apply Nv2.
        clear - Ra Iv Ei. revert a Ra Iv. generalize (left l0). induction t as [[x|x|s]|f IHf b IHb|k A IHA b IHb]; intros a'; cbn [renumber_variables].
        + destruct (position x ids) as [p|] eqn:E; [|discriminate]. intros Ea [<-|[]]. inversion Ea. rewrite E in Ei. inversion Ei. subst. simpl. auto.
        + simpl; tauto. 
        + simpl; tauto.
        + destruct (renumber_variables ids f) as [f'|]; [|discriminate]. destruct (renumber_variables ids b) as [b'|]; [|discriminate].
          intros Ea. inversion Ea. rewrite !vars_app, !in_app_iff. intros [J|J]; eauto.
        + destruct (renumber_variables ids A) as [f'|]; [|discriminate]. destruct (renumber_variables ids b) as [b'|]; [|discriminate].
          intros Ea. inversion Ea. rewrite !vars_bind, !in_app_iff. intros [J|J]; eauto.
      - pose proof (proj1 (renumber_vars _ _ _ Rr) v Iv) as J. destruct (position_in_ex _ _ J) as [i Ei].
        pose proof (position_some _ _ _ Ei) as [Ni _]. exists i. split; auto. apply Nv1.
        clear - Rr Iv Ei. revert r Rr Iv. generalize (right l0). induction t as [[x|x|s]|f IHf b IHb|k A IHA b IHb]; intros a'; cbn [renumber_variables].
        + destruct (position x ids) as [p|] eqn:E; [|discriminate]. intros Ea [<-|[]]. inversion Ea. rewrite E in Ei. inversion Ei. subst. simpl. auto.
        + simpl; tauto. 
        + simpl; tauto.
        + destruct (renumber_variables ids f) as [f'|]; [|discriminate]. destruct (renumber_variables ids b) as [b'|]; [|discriminate].
          intros Ea. inversion Ea. rewrite !vars_app, !in_app_iff. intros [J|J]; eauto.
        + destruct (renumber_variables ids A) as [f'|]; [|discriminate]. destruct (renumber_variables ids b) as [b'|]; [|discriminate].
          intros Ea. inversion Ea. rewrite !vars_bind, !in_app_iff. intros [J|J]; eauto. }
    destruct B as (i & Ni & Bi). apply nth_error_Some in Bi. destruct (nth_error repl i) as [t|] eqn:Et; [|congruence].
    exists t. split; [eapply G; eauto|]. split; [exact (verify_closed K mi repl 0 c' (q ++ ext) i t V Et)|].
    destruct (remap_get _ _ _ Rm) as [_ Gm]. destruct (Gm _ _ Ni) as (T0 & T1 & G0 & R0 & G1).
    rewrite Gv in G0. inversion G0; subst T0. apply renumber_closed in R0; [|apply P]. subst T1.
    exact (verify_types K mi Hmi repl 0 c' (q ++ ext) i t T V Et G1 P).
Qed.
Print Assumptions found_literals_are_generalizations.

(** ** completeness *)
(** Nothing stored for the same two terms has other types. *)
Definition no_other_context (ops : list insertion) (a b : term) (c : lctx) : Prop :=
  forall l id c1, In (l, id, c1) ops ->
    (left l = a -> right l = b -> c1 = c) /\
    (forall c' ids, kbo_cmp (left l) (right l) = Eq -> normalized_reversed c1 l = Some (a, b, c', ids) -> c' = c).
Lemma no_other_stored ops a b c s : no_other_context ops a b c -> In s (flat_map stored_of ops) ->
  s_left s = a -> s_right s = b -> s_ctx s = c.
Proof.
  intros N I E1 E2. apply in_flat_map in I. destruct I as ([[l id] c1] & Io & I). destruct (N _ _ _ Io) as [N1 N2].
  destruct I as [<-|I]; [auto|].
  destruct (kbo_cmp (left l) (right l)) eqn:Ek; [|destruct I|destruct I].
  destruct (normalized_reversed c1 l) as [[[[r a'] c'] ids]|] eqn:En; [|destruct I].
  destruct I as [<-|[]]. cbn in *. subst. eapply N2; eauto.
Qed.

(** The terms given for the variables have exactly the variables' types wherever they stand. *)
Definition well_typed_map (K : kctx) (c q : lctx) (sigma : list term) : Prop :=
  forall v t, nth_error sigma v = Some t -> has_escaping_bound_variable t = false /\
    forall T, get_var_type c v = Some T ->
      (T = TSym SType0 -> type_level t = true) /\ forall ext, get_type K (q ++ ext) t = Some T.

Lemma verify_exact K mi sigma : forall i c q,
  (forall j t, nth_error sigma j = Some t -> has_escaping_bound_variable t = false /\
     forall T, get_var_type c (i + j) = Some T -> (T = TSym SType0 -> type_level t = true) /\ get_type K q t = Some T) ->
  verify_from K mi i sigma c q = Some true.
Proof.
  induction sigma as [|t sigma IH]; intros i c q H; cbn [verify_from]; auto.
  destruct (H 0 t eq_refl) as [E0 G0]. rewrite E0. rewrite Nat.add_0_r in G0.
  assert (R : verify_from K mi (S i) sigma c q = Some true).
  { apply IH. intros j u Hj. specialize (H (S j) u Hj). rewrite <- plus_n_Sm in H. exact H. }
  destruct (get_var_type c i) as [T|]; auto. destruct (G0 T eq_refl) as [G1 G2].
  assert (C : types_compatible K mi t T c q = Some true); [|rewrite C; auto].
  unfold types_compatible.
  assert (B : bound_type K t q = Some (Some T)).
  { unfold bound_type. destruct t as [[| |]| |]; rewrite ?G2; auto. simpl in E0. discriminate. }
  rewrite B. assert (Z : (match T with TSym SType0 => negb (type_level t) | _ => false end) = false).
  { destruct T as [[| |[]]| |]; auto. rewrite G1; auto. }
  rewrite Z. replace (term_eqb T T) with true; auto. symmetry. apply term_eqb_eq. auto.
Qed.

(** Partial: the full statement has no condition beyond "an instance of an inserted literal".  Missing are
    literals whose terms were stored again with other types, literals whose variables are not numbered by
    first occurrence, variables with dependent types, and queries of 500 symbols or more; each is
    a refutation below. *)
Theorem inserted_literals_are_found_partial :
  forall be K mi ops p l0 id c0 sigma l q,
  Forall op_fits ops -> insert_all be pdt_new ops = Some p -> In (l0, id, c0) ops ->
  no_other_context ops (left l0) (right l0) c0 ->
  numbers 0 [left l0; right l0] = Some (length sigma) ->
  left l = apply_to_term (map Some sigma) (left l0) -> right l = apply_to_term (map Some sigma) (right l0) ->
  well_typed_map K c0 q sigma ->
  fits (left l) -> fits (right l) -> typed K q (left l) -> typed K q (right l) -> tsize (left l) + tsize (right l) < 500 ->
  exists v, find_generalization be K mi p l q = Hit _ v.
Proof.
  intros be K mi ops p l0 id c0 sigma l q F Ins Io Only Nb El Er W Fl Fr Tl Tr Sz.
  pose proof (holds_all be ops _ _ _ (holds_new be) Ins) as H. cbn [app] in H.
  destruct (find_pair_complete be K mi p _ (Stored (left l0) (right l0) (LitEntry (positive l0) id false []) c0) sigma
    (left l) (right l) q H) as [[e repl] Hit]; cbn [s_left s_right s_ctx]; auto.
  - intros; eapply stored_fits; eauto.
  - apply in_flat_map. exists (l0, id, c0). split; auto. left. auto.
  - intros s' I E1 E2. eapply no_other_stored; eauto.
  - intros ext. apply verify_exact. intros j t Hj. destruct (W j t Hj) as [W1 W2]. split; auto.
    intros T G. destruct (W2 T G). auto.
  - unfold find_generalization. rewrite Hit. eauto.
Qed.
Print Assumptions inserted_literals_are_found_partial.

(** *** exchanged sides *)
Definition closed_context (c : lctx) : Prop := forall v T, get_var_type c v = Some T -> vars T = [].
Lemma add_var_closed c n ids v ids' : closed_context c -> add_var n c [] ids v = Some ids' ->
  (In v ids /\ ids' = ids) \/ (~ In v ids /\ ids' = ids ++ [v]).
Proof.
  intros C. destruct n; cbn [add_var]; [discriminate|]. destruct (existsb (Nat.eqb v) ids) eqn:E.
  - apply existsb_in in E. intros H; inversion H; subst. auto.
  - apply existsb_notin in E. cbn [existsb]. destruct (get_var_type c v) as [T|] eqn:G; [rewrite (C _ _ G)|];
      cbn [fold_left]; intros H; inversion H; subst; auto.
Qed.
Lemma normalize_number c t : closed_context c -> forall ids t' ids', normalize_var_ids c ids t = Some (t', ids') ->
  number (length ids) t' = Some (length ids') /\ forall v, In v ids' -> In v ids \/ In v (vars t).
Proof.
  intros C. induction t as [[i|i|s]|f IHf a IHa|k A IHA b IHb]; intros ids t' ids'; cbn [normalize_var_ids].
  - destruct (add_var (add_fuel c) c [] ids i) as [ids1|] eqn:E; [|discriminate].
    destruct (position i ids1) as [p|] eqn:Ep; simpl; [|discriminate]. intros H; inversion H; subst. clear H.
    apply add_var_closed in E; auto. destruct E as [[I ->]|[I ->]]; cbn [number].
    + apply position_some in Ep. destruct Ep as [_ L]. apply Nat.ltb_lt in L. rewrite L. auto.
    + rewrite position_app_r in Ep; auto. simpl in Ep. rewrite Nat.eqb_refl in Ep. inversion Ep; subst.
      rewrite Nat.add_0_r, Nat.ltb_irrefl, Nat.eqb_refl, app_length. simpl. rewrite Nat.add_1_r. split; auto.
      intros v J. apply in_app_or in J. simpl in *. tauto.
  - intros H; inversion H; subst. auto.
  - intros H; inversion H; subst. auto.
  - destruct (normalize_var_ids c ids f) as [[f' ids1]|] eqn:E1; [|discriminate].
    destruct (normalize_var_ids c ids1 a) as [[a' ids2]|] eqn:E2; [|discriminate].
    intros H; inversion H; subst. destruct (IHf _ _ _ E1) as [A1 A2], (IHa _ _ _ E2) as [B1 B2]. cbn [number]. rewrite A1. split; auto.
    intros v J. rewrite vars_app, in_app_iff. apply B2 in J. destruct J as [J|J]; auto. apply A2 in J. tauto.
  - destruct (normalize_var_ids c ids A) as [[f' ids1]|] eqn:E1; [|discriminate].
    destruct (normalize_var_ids c ids1 b) as [[a' ids2]|] eqn:E2; [|discriminate].
    intros H; inversion H; subst. destruct (IHA _ _ _ E1) as [A1 A2], (IHb _ _ _ E2) as [B1 B2]. cbn [number]. rewrite A1. split; auto.
    intros v J. rewrite vars_bind, in_app_iff. apply B2 in J. destruct J as [J|J]; auto. apply A2 in J. tauto.
Qed.
Lemma reversed_numbers c l r a c' ids : closed_context c -> normalized_reversed c l = Some (r, a, c', ids) ->
  numbers 0 [r; a] = Some (length ids) /\ forall v, In v ids -> In v (vars (right l)) \/ In v (vars (left l)).
Proof.
  intros C. unfold normalized_reversed. destruct (normalize_var_ids c [] (right l)) as [[r1 i1]|] eqn:E1; [|discriminate].
  destruct (normalize_var_ids c i1 (left l)) as [[a1 i2]|] eqn:E2; [|discriminate].
  destruct (remap c i2) as [c1|] eqn:E3; [|discriminate]. intros E; inversion E; subst. clear E.
  destruct (normalize_number c _ C _ _ _ E1) as [A1 A2], (normalize_number c _ C _ _ _ E2) as [B1 B2].
  cbn [numbers]. cbn [length] in A1. rewrite A1, B1. split; auto. intros v I. apply B2 in I. destruct I as [I|I]; auto.
  apply A2 in I. destruct I as [[]|I]. auto.
Qed.

(** A literal with sides of equal weight is also found with its sides exchanged (also partial). *)
Theorem exchanged_literals_are_found_partial :
  forall be K mi ops p l0 id c0 r a c' ids sigma l q,
  Forall op_fits ops -> insert_all be pdt_new ops = Some p -> In (l0, id, c0) ops -> closed_context c0 ->
  kbo_cmp (left l0) (right l0) = Eq -> normalized_reversed c0 l0 = Some (r, a, c', ids) -> no_other_context ops r a c' ->
  (forall v, In v (vars (left l0) ++ vars (right l0)) -> v < length sigma) ->
  left l = apply_to_term (map Some sigma) (right l0) -> right l = apply_to_term (map Some sigma) (left l0) ->
  well_typed_map K c0 q sigma ->
  fits (left l) -> fits (right l) -> typed K q (left l) -> typed K q (right l) -> tsize (left l) + tsize (right l) < 500 ->
  exists v, find_generalization be K mi p l q = Hit _ v.
Proof.
  intros be K mi ops p l0 id c0 r a c' ids sigma l q F Ins Io Cl Ek En Only Lt El Er W Fl Fr Tl Tr Sz.
  pose proof (holds_all be ops _ _ _ (holds_new be) Ins) as H. cbn [app] in H.
  destruct (reversed_numbers _ _ _ _ _ _ Cl En) as [Nb Iv].
  destruct (reversed_spec _ _ _ _ _ _ En) as (Nd & Rr & Ra & Rm).
  set (sg := map (fun v => nth v sigma (TVar 0)) ids).
  assert (Ls : length sg = length ids) by (apply map_length).
  assert (Sg : forall i v, nth_error ids i = Some v -> exists t, nth_error sg i = Some t /\ nth_error sigma v = Some t).
  { intros i v E. exists (nth v sigma (TVar 0)). split; [apply (map_nth_error (fun v => nth v sigma (TVar 0)) i ids E)|].
    apply nth_error_nth'. apply Lt. apply in_or_app. apply nth_error_In, Iv in E. tauto. }
  assert (G : forall i v u, nth_error ids i = Some v -> nth_error sg i = Some u -> vget (map Some sigma) v = Some u).
  { intros i v u E1 E2. destruct (Sg _ _ E1) as (t & E3 & E4). rewrite vget_map. congruence. }
  pose proof Nb as Nv. rewrite <- Ls in Nv. apply numbers_pair in Nv. destruct Nv as [Nv1 Nv2].
  destruct (find_pair_complete be K mi p _ (Stored r a (LitEntry (positive l0) id true ids) c') sg
    (left l) (right l) q H) as [[e repl] Hit]; cbn [s_left s_right s_ctx]; auto.
  - intros; eapply stored_fits; eauto.
  - apply in_flat_map. exists (l0, id, c0). split; auto. cbn [stored_of]. right. rewrite Ek, En. left. auto.
  - intros s' I E1 E2. eapply no_other_stored; eauto.
  - rewrite Ls. auto.
  - rewrite El. symmetry. eapply apply_renumbered; eauto.
  - rewrite Er. symmetry. eapply apply_renumbered; eauto.
  - intros ext. apply verify_exact. intros j t Hj.
    assert (Bj : j < length ids) by (rewrite <- Ls; apply nth_error_Some; congruence).
    apply nth_error_Some in Bj. destruct (nth_error ids j) as [v|] eqn:Ej; [|congruence].
    destruct (Sg _ _ Ej) as (t' & E3 & E4). rewrite Hj in E3. inversion E3; subst t'.
    destruct (W v t E4) as [W1 W2]. split; auto. cbn [plus]. intros T GT.
    destruct (remap_get _ _ _ Rm) as [_ Gm]. destruct (Gm _ _ Ej) as (T0 & T1 & G0 & R0 & G1).
    rewrite GT in G1. inversion G1; subst T1. apply renumber_closed in R0; [|eapply Cl; eauto]. subst T.
    destruct (W2 T0 G0). auto.
  - unfold find_generalization. rewrite Hit. eauto.
Qed.
Print Assumptions exchanged_literals_are_found_partial.
Local Transparent find_pair.

(** ** what is lost *)
Definition A : term := TSym (SType 0 3).
Definition B : term := TSym (SType 0 4).
(** Scoped constants 1, 2 of type [A], 3, 4 of type [B]; 5 of type [A -> A]. *)
Definition Kx : kctx :=
  {| k_type := fun _ _ => TSym SType0; k_global := fun _ _ => tbool;
     k_scoped := fun i => if N.leb i 2 then A else if N.leb i 4 then B else TBind KPi A A;
     k_instance := fun _ _ _ => false; k_extends := fun _ _ => false; k_value_params := fun _ => false |}.
Definition sc (i : N) : term := TSym (SScoped i).
(** The exact matcher. *)
Definition exactly : lctx -> term -> lctx -> term -> bool := fun _ T _ T' => term_eqb T' T.

(** Inserting the same literal at another type makes the first unreachable. *)
Theorem same_terms_at_two_types_refuted :
  exists ops p, Forall op_fits ops /\ insert_all false pdt_new ops = Some p /\
    In (Lit true (TVar 0) (TVar 1), 7, [Some A; Some A]) ops /\
    find_generalization false Kx exactly p (Lit true (sc 1) (sc 2)) [] = Miss _ /\
    find_generalization false Kx exactly p (Lit true (sc 3) (sc 4)) [] = Hit _ (true, 8, true).
Proof.
  exists [(Lit true (TVar 0) (TVar 1), 7, [Some A; Some A]); (Lit true (TVar 0) (TVar 1), 8, [Some B; Some B])].
  eexists. split.
  { repeat apply Forall_cons; [..|apply Forall_nil]; (split; [|split]); try (cbn; unfold small; repeat split; lia);
      intros r a c' ids E; vm_compute in E; inversion E; cbn; unfold small; repeat split; lia. }
  split; [vm_compute; reflexivity|]. split; [left; auto|]. split; vm_compute; reflexivity.
Qed.
Print Assumptions same_terms_at_two_types_refuted.

(** A literal whose terms do not mention its type variable starts with the second variable and is never found. *)
Theorem type_variable_first_refuted :
  exists p, insert_all false pdt_new
      [(Lit true (TVar 1) (TVar 2), 7, [Some (TSym SType0); Some (TVar 0); Some (TVar 0)])] = Some p /\
    find_generalization false Kx (fun _ _ _ _ => true) p (Lit true (sc 1) (sc 2)) [] = Miss _ /\
    find_generalization false Kx (fun _ _ _ _ => true) p (Lit true (TVar 1) (TVar 2))
      [Some (TSym SType0); Some (TVar 0); Some (TVar 0)] = Miss _.
Proof. eexists. split; [vm_compute; reflexivity|]. split; vm_compute; reflexivity. Qed.
Print Assumptions type_variable_first_refuted.

(** The stack limit: a long literal is not found, even by itself. *)
Fixpoint tower (n : nat) : term := match n with 0 => sc 1 | S n => TApp (sc 5) (tower n) end.
Lemma tower_fits n : fits (tower n).
Proof. induction n; cbn; auto; unfold small; repeat split; auto; lia. Qed.
Lemma tower_normal c ids n : normalize_var_ids c ids (tower n) = Some (tower n, ids).
Proof. induction n; cbn [tower]; [reflexivity|]. unfold sc at 1. cbn [normalize_var_ids]. rewrite IHn. reflexivity. Qed.
Definition long_op : insertion := (Lit true (tower 300) (sc 1), 7, []).
Definition long_index : pdt lit_entry :=
  match insert_all false pdt_new [long_op] with Some p => p | None => pdt_new end.
Lemma long_index_some : match insert_all false pdt_new [long_op] with Some _ => true | None => false end = true.
Proof. vm_compute. reflexivity. Qed.
Theorem long_literals_are_lost_refuted :
  exists p, Forall op_fits [long_op] /\ insert_all false pdt_new [long_op] = Some p /\
    find_generalization false Kx exactly p (Lit true (tower 300) (sc 1)) [] = Miss _.
Proof.
  exists long_index. split.
  { apply Forall_cons; [|apply Forall_nil]. unfold long_op. cbn [op_fits left right]. split; [apply tower_fits|].
    split; [apply (tower_fits 0)|].
    intros r a c' ids. unfold normalized_reversed. cbn [left right]. change (sc 1) with (tower 0). rewrite !tower_normal.
    intros E. assert (H : (a, r) = (tower 300, tower 0)) by (destruct (remap [] []); inversion E; auto).
    apply (f_equal fst) in H as Ha. apply (f_equal snd) in H as Hr. cbn [fst snd] in Ha, Hr. rewrite Ha, Hr.
    split; [apply (tower_fits 0)|apply tower_fits]. }
  split.
  - pose proof long_index_some as E. unfold long_index. destruct (insert_all false pdt_new [long_op]); [reflexivity|discriminate].
  - vm_compute. reflexivity.
Qed.
Print Assumptions long_literals_are_lost_refuted.

(** Looking up the empty clause in a set that is not empty panics. *)
Theorem empty_clause_lookup_panics_refuted :
  exists (p : pdt nat), insert_clause false pdt_new (Clause [Lit true (sc 1) (sc 2)] []) 7 = Some p /\
    find_clause false Kx exactly p (Clause [] []) = Panics _.
Proof. eexists. split; vm_compute; reflexivity. Qed.
Print Assumptions empty_clause_lookup_panics_refuted.

(** ** a case: three literals; instances of each are found, one with sides exchanged *)
Definition ops1 : list insertion :=
  [ (Lit true (TApp (sc 5) (TVar 0)) (TVar 0), 1, [Some A]);
    (Lit false (TApp (sc 5) (sc 2)) (sc 2), 2, []);
    (Lit true (TApp (TVar 0) (TVar 1)) (TApp (TVar 0) (TVar 2)), 3, [Some (TBind KPi A A); Some A; Some A]) ].
Example ops1_case : exists p, insert_all false pdt_new ops1 = Some p /\ Forall op_fits ops1 /\
  find_generalization_with_map false Kx exactly p (Lit false (TApp (sc 5) (sc 1)) (sc 1)) [] = Hit _ (false, 1, false, [Some (sc 1)]) /\
  find_generalization_with_map false Kx exactly p (Lit true (TApp (sc 5) (sc 2)) (TApp (sc 5) (sc 1))) []
    = Hit _ (true, 3, true, [Some (sc 5); Some (sc 1); Some (sc 2)]) /\
  find_generalization_with_map false Kx exactly p (Lit true (TApp (sc 5) (sc 3)) (sc 3)) [] = Miss _.
Proof.
  eexists. split; [vm_compute; reflexivity|]. split.
  { repeat apply Forall_cons; [..|apply Forall_nil]; (split; [|split]); try (cbn; unfold small; repeat split; lia);
      intros r a c' ids E; vm_compute in E; inversion E; cbn; unfold small; repeat split; lia. }
  split; [|split]; vm_compute; reflexivity.
Qed.
Example matcher_case : forall pc T qc T', vars T = [] -> exactly pc T qc T' = true -> T' = T.
Proof. intros pc T qc T' _ H. apply term_eqb_eq in H. auto. Qed.
(** The hypotheses of the completeness theorem for the first literal and the query [f(c) != c]. *)
Example found_case :
  no_other_context ops1 (TApp (sc 5) (TVar 0)) (TVar 0) [Some A] /\
  numbers 0 [TApp (sc 5) (TVar 0); TVar 0] = Some 1 /\ well_typed_map Kx [Some A] [] [sc 1] /\
  typed Kx [] (TApp (sc 5) (sc 1)).
Proof.
  split; [|split; [|split]].
  - intros l id c [H|[H|[H|[]]]]; inversion H; subst; (split; [cbn; try discriminate; auto|]);
      intros c' ids E1 E2; vm_compute in E1, E2; try discriminate.
  - reflexivity.
  - intros [|[|]] t H; inversion H; subst. split; [reflexivity|]. intros T E. inversion E; subst. split; [discriminate|]. intros; reflexivity.
  - intros s I E ext. inversion I; subst; try (inversion H1; subst); vm_compute; discriminate.
Qed.
