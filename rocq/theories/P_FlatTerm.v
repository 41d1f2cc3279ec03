(** Property C17: flat storage of terms. *)
From Coq Require Import List Arith NArith Bool Lia.
Import ListNotations.
From Verif Require Import Term FlatTerm FlatTermProofs.

(** The full property fails: building from two perfectly good terms and decomposing does not
    always return them.  The release build does not even panic: [apply1] returns a term. *)
Theorem flat_roundtrip_refuted :
  exists t u, fits t /\ fits u /\ validate_structure (encode t) = true /\
    apply1 (encode t) (encode u) = Some (build MApp (encode t) (encode u)) /\
    forall m, decompose (build m (encode t) (encode u)) <> Some (DNode m (encode t) (encode u)).
Proof.
  exists (chain (N.to_nat 32768)), tbool.
  assert (L : length (encode (chain (N.to_nat 32768))) = N.to_nat 65537).
  { rewrite encode_length, chain_size. lia. }
  split; [apply chain_fits|]. split; [exact I|]. split; [|split].
  - apply validate_structure_exact; [|eexists; split; [reflexivity|apply chain_fits]].
    generalize (N.to_nat 32768). induction n as [|n IH]; simpl; [repeat constructor|].
    constructor; [apply as_u16_lt|]. constructor; auto.
  - apply apply1_wraps; [|discriminate]. exists 1%N. rewrite L. reflexivity.
  - intros m. rewrite decompose_build.
    + rewrite L. lia.
    + discriminate.
    + generalize (N.to_nat 32768). destruct n; discriminate.
Qed.
Print Assumptions flat_roundtrip_refuted.

(** Exactly which terms round-trip: those whose left part has fewer than 65535 components. *)
Theorem flat_roundtrip_exact :
  forall m t u,
  decompose (build m (encode t) (encode u)) = Some (DNode m (encode t) (encode u))
  <-> (N.of_nat (size t) < 65535)%N.
Proof.
  intros m t u. rewrite decompose_build.
  - rewrite encode_length. lia.
  - destruct u; discriminate.
  - destruct t; discriminate.
Qed.
Print Assumptions flat_roundtrip_exact.

Example flat_roundtrip_exact_case :
  decompose (encode (apply (TSym (SGlobal 0 0)) [TVar 0; TApp (TSym (SGlobal 0 1)) (TVar 1)])) =
  Some (DNode MApp [CMark MApp 2; CAtom (Sym (SGlobal 0 0)); CAtom (FreeVar 0)]
                   [CMark MApp 2; CAtom (Sym (SGlobal 0 1)); CAtom (FreeVar 1)]).
Proof. reflexivity. Qed.

(** Under that bound application never panics. *)
Theorem flat_apply_total :
  forall t u, (N.of_nat (size t) < 65535)%N -> apply1 (encode t) (encode u) = Some (encode (TApp t u)).
Proof.
  intros t u H. apply apply1_small.
  - destruct t; discriminate.
  - destruct u; discriminate.
  - rewrite encode_length. lia.
Qed.
Print Assumptions flat_apply_total.

Example flat_apply_total_case :
  (N.of_nat (size (TApp (TVar 0) (TVar 1))) < 65535)%N /\
  apply1 (encode (TApp (TVar 0) (TVar 1))) (encode tbool) =
  Some [CMark MApp 4; CMark MApp 2; CAtom (FreeVar 0); CAtom (FreeVar 1); CAtom (Sym SBool)].
Proof. split; reflexivity. Qed.

(** Equality of the stored vectors is equality of the trees (even for oversized terms). *)
Theorem flat_equality_is_tree_equality :
  forall t u, encode t = encode u <-> t = u.
Proof. intros t u. split; [apply encode_inj|congruence]. Qed.
Print Assumptions flat_equality_is_tree_equality.

Example flat_equality_is_tree_equality_case :
  encode (TApp (TApp (TVar 0) (TVar 1)) (TVar 2)) <> encode (TApp (TVar 0) (TApp (TVar 1) (TVar 2))).
Proof. discriminate. Qed.

(** The structural validator accepts exactly the vectors that store a tree. *)
Theorem validator_exact :
  forall c, (forall m off, In (CMark m off) c -> (off < 65536)%N) ->
  (validate_structure c = true <-> exists t, c = encode t /\ fits t).
Proof.
  intros c H. apply validate_structure_exact. unfold u16_ok. apply Forall_forall.
  intros [m off|a] Hi; auto. eapply H; eauto.
Qed.
Print Assumptions validator_exact.

Example validator_exact_case :
  validate_structure [CMark MApp 2; CAtom (FreeVar 0); CAtom (FreeVar 1)] = true /\
  validate_structure [CMark MApp 3; CAtom (FreeVar 0); CAtom (FreeVar 1); CAtom (FreeVar 2)] = false.
Proof. split; reflexivity. Qed.

(** Skipping over a subterm inside any vector stops exactly behind it. *)
Theorem subterm_end_exact :
  forall t pre post, fits t ->
  exists n, find_subterm_end n (pre ++ encode t ++ post) (length pre) = Some (length pre + length (encode t)).
Proof. intros. exists (size t). rewrite encode_length. apply find_subterm_end_encode; auto. Qed.
Print Assumptions subterm_end_exact.

Example subterm_end_exact_case :
  find_subterm_end 5 (CAtom (FreeVar 7) :: encode (TBind KPi (TVar 0) (TApp (TVar 1) (TVar 2))) ++ [CAtom (FreeVar 9)]) 1
  = Some 6.
Proof. reflexivity. Qed.
