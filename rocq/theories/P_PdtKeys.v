(** Property C35: the keys of the discrimination tree are faithful. *)
From Coq Require Import List Arith NArith Bool Lia.
Import ListNotations.
From Verif Require Import Term LocalContext Kbo Literal Clause Typing VariableMap Pdt PdtProofs.

(** The ids of a clause fit into two bytes, as they do in the code where they have type [u16]. *)
Definition clause_fits (cl : clause) : Prop := Forall (fun l => fits (left l) /\ fits (right l)) (literals cl).

Lemma literal_terms_fit cl : clause_fits cl -> Forall fits (literal_terms (literals cl)).
Proof.
  unfold clause_fits. intros H. induction H as [|l ls [A B] _ IH]; simpl; auto.
Qed.

(** A key that starts with the key of a term belongs to the same term; in particular equal keys come
    from equal terms and no key is a proper prefix of another. *)
Theorem term_keys_faithful :
  forall be a b ka r, fits a -> fits b -> key_from_term be a = Some ka -> key_from_term be b = Some (ka ++ r) ->
  a = b /\ r = [].
Proof.
  intros be a b ka r Fa Fb Ka Kb.
  destruct (term_key_inj be a b ka (ka ++ r) r [] Fa Fb Ka Kb) as [E1 E2]; [rewrite app_nil_r; auto|auto].
Qed.
Print Assumptions term_keys_faithful.

Theorem pair_keys_faithful :
  forall be a b a' b' ka r, fits a -> fits b -> fits a' -> fits b' ->
  key_from_pair be a b = Some ka -> key_from_pair be a' b' = Some (ka ++ r) -> a = a' /\ b = b' /\ r = [].
Proof.
  intros be a b a' b' ka r F1 F2 F3 F4 K1 K2.
  destruct (terms_key_inj be [a; b] [a'; b'] ka (ka ++ r) r []) as [E1 E2]; auto; [rewrite app_nil_r; auto|].
  inversion E1. auto.
Qed.
Print Assumptions pair_keys_faithful.

Theorem clause_keys_faithful :
  forall be c1 c2 k r, clause_fits c1 -> clause_fits c2 -> literals c1 <> [] -> literals c2 <> [] ->
  key_from_clause be c1 = Some k -> key_from_clause be c2 = Some (k ++ r) ->
  literals c1 = literals c2 /\ r = [].
Proof.
  intros be c1 c2 k r F1 F2 N1 N2 K1 K2. unfold key_from_clause in *.
  destruct (key_from_terms be (literal_terms (literals c1))) as [k1|] eqn:E1; [|discriminate].
  destruct (key_from_terms be (literal_terms (literals c2))) as [k2|] eqn:E2; [|discriminate].
  cbn [option_map] in *. inversion K1; subst k. inversion K2 as [H].
  destruct (sign_terms_inj be (literals c1) (literals c2) _ _ k1 k2 r []
    (literal_terms_fit _ F1) (literal_terms_fit _ F2) (literal_terms_length _) (literal_terms_length _) N1 N2 E1 E2)
    as (S & T & R).
  - rewrite app_nil_r, H, <- app_assoc. auto.
  - split; auto. apply literal_terms_inj; auto.
Qed.
Print Assumptions clause_keys_faithful.

(** The edges of a term in pre-order. *)
Fixpoint edges (t : term) : list edge :=
  match t with
  | TAtom (FreeVar i) => [EAtom (PVar i)]
  | TAtom (BoundVar i) => [EAtom (PBound i)]
  | TAtom (Sym STrue) => [EAtom PTrue]
  | TAtom (Sym SFalse) => [EAtom PFalse]
  | TAtom (Sym s) => [EAtom (PSym s)]
  | TApp f a => EApp :: edges f ++ edges a
  | TBind k A b => EBind k :: edges A ++ edges b
  end.
Definition clause_edges (cl : clause) : list edge :=
  map (fun l => ELit (positive l)) (literals cl) ++ flat_map (fun l => edges (left l) ++ edges (right l)) (literals cl).

Definition all_bytes (be : bool) (es : list edge) : list N := flat_map (edge_bytes be) es.

Lemma edge_bytes_length be e : 3 <= length (edge_bytes be e).
Proof.
  unfold edge_bytes. destruct e as [|k|a|b]; try destruct a as [i|s| | |i]; try destruct s;
    cbn [length]; rewrite ?app_length, ?u16_length; simpl; lia.
Qed.

Lemma key_edges be t : forall k, key_from_term be t = Some k -> k = all_bytes be (edges t).
Proof.
  induction t as [a|f IHf a IHa|b A IHA x IHx]; intros k; cbn [key_from_term edges].
  - destruct a as [i|i|s]; [..|destruct s]; cbn [edge_atom option_map]; intros E; inversion E; subst;
      unfold all_bytes; cbn [flat_map]; rewrite app_nil_r; reflexivity.
  - destruct (key_from_term be f) as [kf|]; [|discriminate]. destruct (key_from_term be a) as [ka|]; [|discriminate].
    intros E. inversion E; subst. unfold all_bytes in *. cbn [flat_map]. rewrite flat_map_app, <- (IHf kf), <- (IHa ka); auto.
  - destruct (key_from_term be A) as [kf|]; [|discriminate]. destruct (key_from_term be x) as [ka|]; [|discriminate].
    intros E. inversion E; subst. unfold all_bytes in *. cbn [flat_map]. rewrite flat_map_app, <- (IHA kf), <- (IHx ka); auto.
Qed.
Lemma edges_ok be t : forall k, fits t -> key_from_term be t = Some k -> Forall (fun e => fits_edge e /\ key_edge e) (edges t).
Proof.
  induction t as [a|f IHf a IHa|b A IHA x IHx]; intros k F; cbn [key_from_term edges].
  - destruct a as [i|i|s]; [..|destruct s]; cbn [edge_atom option_map]; intros E; inversion E; subst;
      repeat constructor; auto; simpl in F; tauto.
  - destruct F as [F1 F2]. destruct (key_from_term be f) as [kf|]; [|discriminate]. destruct (key_from_term be a) as [ka|]; [|discriminate].
    intros _. constructor; [simpl; auto|]. apply Forall_app. eauto.
  - destruct F as [F1 F2]. destruct (key_from_term be A) as [kf|]; [|discriminate]. destruct (key_from_term be x) as [ka|]; [|discriminate].
    intros _. constructor; [simpl; auto|]. apply Forall_app. eauto.
Qed.

Lemma read_all be es : forall n, Forall (fun e => fits_edge e /\ key_edge e) es ->
  length (all_bytes be es) <= n -> read_edges be n (all_bytes be es) = Some (es, []).
Proof.
  induction es as [|e es IH]; intros n F L.
  - destruct n; reflexivity.
  - inversion F as [|? ? [Fe Ke] Fs]; subst. unfold all_bytes in *. cbn [flat_map] in *. rewrite app_length in L.
    pose proof (edge_bytes_length be e) as B. destruct n as [|n]; [lia|]. cbn [read_edges].
    replace (Nat.leb 3 (length (edge_bytes be e ++ flat_map (edge_bytes be) es))) with true
      by (symmetry; apply Nat.leb_le; rewrite app_length; lia).
    rewrite (roundtrip be e _ Fe Ke). rewrite skipn_app, skipn_all, Nat.sub_diag. cbn [app skipn].
    rewrite IH; auto. lia.
Qed.

(** Reading the key of a term back gives its edges, with nothing left over. *)
Theorem term_key_reads_back :
  forall be t k, fits t -> key_from_term be t = Some k -> debug_bytes be k = Some (edges t, []).
Proof.
  intros be t k F E. pose proof (key_edges be t k E). subst k. apply read_all; auto. eapply edges_ok; eauto.
Qed.
Print Assumptions term_key_reads_back.

Theorem clause_key_reads_back :
  forall be cl k, clause_fits cl -> key_from_clause be cl = Some k -> debug_bytes be k = Some (clause_edges cl, []).
Proof.
  intros be [ls c] k F E. unfold key_from_clause, clause_edges, clause_fits in *. cbn [literals] in *.
  destruct (key_from_terms be (literal_terms ls)) as [kt|] eqn:Et; [|discriminate]. inversion E; subst k. clear E.
  assert (G : kt = all_bytes be (flat_map (fun l => edges (left l) ++ edges (right l)) ls) /\
     Forall (fun e => fits_edge e /\ key_edge e) (flat_map (fun l => edges (left l) ++ edges (right l)) ls)).
  { revert kt Et. induction F as [|l ls [F1 F2] _ IH]; intros kt; cbn [literal_terms flat_map app key_from_terms].
    - intros E; inversion E. split; [reflexivity|constructor].
    - destruct (key_from_term be (left l)) as [k1|] eqn:E1; [|discriminate].
      destruct (key_from_term be (right l)) as [k2|] eqn:E2; [|discriminate].
      change (flat_map (fun x => [left x; right x]) ls) with (literal_terms ls).
      destruct (key_from_terms be (literal_terms ls)) as [k3|]; [|discriminate].
      intros E; inversion E; subst. destruct (IH _ eq_refl) as [G1 G2]. split.
      + unfold all_bytes in *. rewrite !flat_map_app, <- G1, <- app_assoc.
        rewrite (key_edges be _ _ E1), (key_edges be _ _ E2). reflexivity.
      + rewrite !Forall_app. split; auto. split; eapply edges_ok; eauto. }
  destruct G as [-> G].
  replace (sign_key be ls ++ all_bytes be (flat_map (fun l => edges (left l) ++ edges (right l)) ls))
    with (all_bytes be (map (fun l => ELit (positive l)) ls ++ flat_map (fun l => edges (left l) ++ edges (right l)) ls)).
  2:{ unfold all_bytes. rewrite flat_map_app. f_equal. clear. unfold sign_key. induction ls; simpl; auto. rewrite IHls. auto. }
  apply read_all; auto. apply Forall_app. split; auto. clear. induction ls; constructor; simpl; auto.
Qed.
Print Assumptions clause_key_reads_back.

(** Reading one edge back, for any edge a key can contain. *)
Theorem edge_reads_back :
  forall be e r, fits_edge e -> e <> EAtom (PSym STrue) -> e <> EAtom (PSym SFalse) ->
  from_bytes be (edge_bytes be e ++ r) = Some (e, length (edge_bytes be e)).
Proof.
  intros be e r F N1 N2. apply roundtrip; auto. destruct e as [|k|a|b]; simpl; auto.
  destruct a as [i|s| | |i]; auto. destruct s; auto.
Qed.
Print Assumptions edge_reads_back.

(** What the statement asks for and the code does not give: the key of a clause leaves out the types of
    its variables, the empty clause's key is a prefix of every key, and the truth values have two edges
    with the same bytes. *)
Definition x_eq_y (A : term) : clause := Clause [Lit true (TVar 0) (TVar 1)] [Some A; Some A].
Definition typeA : term := TSym (SType 0 3).
Definition typeB : term := TSym (SType 0 4).
Theorem clause_keys_forget_types_refuted :
  exists c1 c2 k, c1 <> c2 /\ key_from_clause false c1 = Some k /\ key_from_clause false c2 = Some k.
Proof.
  exists (x_eq_y typeA), (x_eq_y typeB), [1; 0; 0; 3; 0; 0; 3; 1; 0]%N. split; [discriminate|]. split; reflexivity.
Qed.
Print Assumptions clause_keys_forget_types_refuted.

Theorem empty_clause_key_is_prefix_refuted :
  exists c1 c2 k r, r <> [] /\ key_from_clause false c1 = Some k /\ key_from_clause false c2 = Some (k ++ r).
Proof.
  exists (Clause [] []), (x_eq_y typeA), [], [1; 0; 0; 3; 0; 0; 3; 1; 0]%N. split; [discriminate|]. split; reflexivity.
Qed.
Print Assumptions empty_clause_key_is_prefix_refuted.

Theorem truth_edges_collide_refuted :
  exists e, e <> EAtom PTrue /\ fits_edge e /\ edge_bytes false e = edge_bytes false (EAtom PTrue) /\
    from_bytes false (edge_bytes false e) = Some (EAtom PTrue, 3).
Proof. exists (EAtom (PSym STrue)). split; [discriminate|]. repeat split. Qed.
Print Assumptions truth_edges_collide_refuted.

(** A term with every kind of edge, its key and its edges. *)
Definition sample : term :=
  TApp (TBind KAll (TBind KPi (TSym (SType 1 513)) tbool) (TApp (TBound 0) (TApp (TSym (SGlobal 2 700)) (TVar 300))))
       (TApp (TBind KLam tbool (TApp (TSym SNot) (TBound 0))) (TApp (TSym (SScoped 5)) ttrue)).
Example sample_case :
  exists k, key_from_term false sample = Some k /\ length k = 61 /\ debug_bytes false k = Some (edges sample, []) /\ fits sample.
Proof.
  eexists. split; [vm_compute; reflexivity|]. split; [reflexivity|]. split; [vm_compute; reflexivity|].
  cbn. unfold small. repeat split; lia.
Qed.
Example two_clauses_case :
  key_from_clause false (Clause [Lit true (TSym (SScoped 1)) ttrue; Lit false (TVar 0) ttrue] [Some tbool])
  <> key_from_clause false (Clause [Lit true (TSym (SScoped 1)) ttrue] [Some tbool]).
Proof. discriminate. Qed.
