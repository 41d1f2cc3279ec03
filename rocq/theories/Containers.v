(** Functors that are given by shapes and places, and well-founded trees: the semantics of strictly positive types. *)
From Coq Require Import List Arith Bool FunctionalExtensionality Eqdep_dec.
Import ListNotations.

Definition fill (A : Type) (B : A -> Type) (X : Type) : Type := {s : A & B s -> X}.

Record container (G : Type -> Type) : Type := {
  shape : Type;
  place : shape -> Type;
  unpack : forall X, G X -> fill shape place X;
  pack : forall X, fill shape place X -> G X;
  pack_unpack : forall X v, pack X (unpack X v) = v;
  unpack_pack : forall X v, unpack X (pack X v) = v
}.
Arguments shape {G}. Arguments place {G}. Arguments unpack {G}. Arguments pack {G}. Arguments pack_unpack {G}. Arguments unpack_pack {G}.

Lemma fill_eq A B X (s : A) (f g : B s -> X) : (forall p, f p = g p) -> existT (fun s => B s -> X) s f = existT _ s g.
Proof. intros H. f_equal. apply functional_extensionality. exact H. Qed.

Definition cast {A B : Type} (e : A = B) : A -> B := fun x => eq_rect A (fun T => T) x B e.
Definition uncast {A B : Type} (e : A = B) : B -> A := cast (eq_sym e).
Lemma cast_uncast A B (e : A = B) x : cast e (uncast e x) = x. Proof. destruct e. reflexivity. Qed.
Lemma uncast_cast A B (e : A = B) x : uncast e (cast e x) = x. Proof. destruct e. reflexivity. Qed.

(** equal types *)
Definition container_ext (G G' : Type -> Type) (e : forall X, G' X = G X) (c : container G) : container G'.
Proof.
  refine {| shape := shape c; place := place c; unpack := fun X v => unpack c X (cast (e X) v); pack := fun X v => uncast (e X) (pack c X v) |}.
  - intros X v. rewrite pack_unpack. apply uncast_cast.
  - intros X v. rewrite cast_uncast. apply unpack_pack.
Defined.

Definition container_const (T : Type) : container (fun _ => T).
Proof.
  refine {| shape := T; place := fun _ => Empty_set; unpack := fun X v => existT (fun _ : T => Empty_set -> X) v (fun e : Empty_set => match e with end); pack := fun X v => projT1 v |}.
  - reflexivity.
  - intros X [s f]. simpl. apply (fill_eq T (fun _ => Empty_set)). intros [].
Defined.

Definition container_id : container (fun X => X).
Proof.
  refine {| shape := unit; place := fun _ => unit; unpack := fun X v => existT _ tt (fun _ => v); pack := fun X v => projT2 v tt |}.
  - reflexivity.
  - intros X [[] f]. simpl. apply (fill_eq unit (fun _ => unit)). intros []. reflexivity.
Defined.

Definition container_prod (G H : Type -> Type) (c : container G) (d : container H) : container (fun X => (G X * H X)%type).
Proof.
  refine {| shape := (shape c * shape d)%type; place := fun s => (place c (fst s) + place d (snd s))%type;
    unpack := fun X v => existT (fun s : shape c * shape d => (place c (fst s) + place d (snd s))%type -> X) (projT1 (unpack c X (fst v)), projT1 (unpack d X (snd v)))
       (fun p => match p with inl p => projT2 (unpack c X (fst v)) p | inr p => projT2 (unpack d X (snd v)) p end);
    pack := fun X v => (pack c X (existT (fun s => place c s -> X) (fst (projT1 v)) (fun p => projT2 v (inl p))), pack d X (existT (fun s => place d s -> X) (snd (projT1 v)) (fun p => projT2 v (inr p)))) |}.
  - intros X [a b]. cbn [fst snd projT1 projT2]. f_equal.
    + transitivity (pack c X (unpack c X a)); [|apply pack_unpack]. f_equal. destruct (unpack c X a) as [s f]. reflexivity.
    + transitivity (pack d X (unpack d X b)); [|apply pack_unpack]. f_equal. destruct (unpack d X b) as [s f]. reflexivity.
  - intros X [[s t] f]. cbn [fst snd projT1 projT2].
    rewrite !unpack_pack. cbn [projT1 projT2]. apply (fill_eq (shape c * shape d) (fun s => (place c (fst s) + place d (snd s))%type)). intros [p|p]; reflexivity.
Defined.

(** a family of functors *)
Definition container_sig (A : Type) (G : A -> Type -> Type) (c : forall a, container (G a)) : container (fun X => {a : A & G a X}).
Proof.
  refine {| shape := {a : A & shape (c a)}; place := fun s => place (c (projT1 s)) (projT2 s);
    unpack := fun X v => existT (fun s : {a : A & shape (c a)} => place (c (projT1 s)) (projT2 s) -> X) (existT _ (projT1 v) (projT1 (unpack (c (projT1 v)) X (projT2 v)))) (projT2 (unpack (c (projT1 v)) X (projT2 v)));
    pack := fun X v => existT _ (projT1 (projT1 v)) (pack (c (projT1 (projT1 v))) X (existT (fun s => place (c (projT1 (projT1 v))) s -> X) (projT2 (projT1 v)) (projT2 v))) |}.
  - intros X [a v]. cbn [projT1 projT2]. f_equal. transitivity (pack (c a) X (unpack (c a) X v)); [|apply pack_unpack]. f_equal.
    destruct (unpack (c a) X v); reflexivity.
  - intros X [[a s] f]. cbn [projT1 projT2] in *. rewrite unpack_pack. reflexivity.
Defined.

(** functions from a fixed family *)
Definition container_pi (A : Type) (G : A -> Type -> Type) (c : forall a, container (G a)) : container (fun X => forall a, G a X).
Proof.
  refine {| shape := forall a, shape (c a); place := fun s => {a : A & place (c a) (s a)};
    unpack := fun X v => existT (fun s : forall a, shape (c a) => {a : A & place (c a) (s a)} -> X) (fun a => projT1 (unpack (c a) X (v a))) (fun p => projT2 (unpack (c (projT1 p)) X (v (projT1 p))) (projT2 p));
    pack := fun X v a => pack (c a) X (existT (fun s => place (c a) s -> X) (projT1 v a) (fun p => projT2 v (existT _ a p))) |}.
  - intros X v. apply functional_extensionality_dep. intros a. cbn [projT1 projT2]. transitivity (pack (c a) X (unpack (c a) X (v a))); [|apply pack_unpack]. f_equal.
    destruct (unpack (c a) X (v a)); reflexivity.
  - intros X [s f]. cbn [projT1 projT2].
    assert (E : forall a, unpack (c a) X (pack (c a) X (existT (fun s => place (c a) s -> X) (s a) (fun p => f (existT _ a p)))) = existT (fun s => place (c a) s -> X) (s a) (fun p => f (existT _ a p))) by (intros a; apply unpack_pack).
    assert (E' : (fun a => unpack (c a) X (pack (c a) X (existT (fun s => place (c a) s -> X) (s a) (fun p => f (existT _ a p))))) = (fun a => existT (fun s => place (c a) s -> X) (s a) (fun p => f (existT _ a p)))) by (apply functional_extensionality_dep; exact E).
    enough (GG : forall u : (forall a, fill (shape (c a)) (place (c a)) X), u = (fun a => existT (fun s => place (c a) s -> X) (s a) (fun p => f (existT _ a p))) ->
      existT (fun s : forall a, shape (c a) => {a : A & place (c a) (s a)} -> X) (fun a => projT1 (u a)) (fun p => projT2 (u (projT1 p)) (projT2 p)) = existT _ s f) by (apply (GG _ E')).
    intros u ->. cbn [projT1 projT2]. apply (fill_eq (forall a, shape (c a)) (fun s => {a : A & place (c a) (s a)})). intros [a p]. reflexivity.
Defined.

(** a functor that is packed and unpacked into another one *)
Definition container_iso (G H : Type -> Type) (to : forall X, G X -> H X) (from : forall X, H X -> G X) (e1 : forall X v, from X (to X v) = v) (e2 : forall X v, to X (from X v) = v)
  (c : container H) : container G.
Proof.
  refine {| shape := shape c; place := place c; unpack := fun X v => unpack c X (to X v); pack := fun X v => from X (pack c X v) |}.
  - intros X v. rewrite pack_unpack. auto.
  - intros X v. rewrite e2. apply unpack_pack.
Defined.

(** well-founded trees *)
Inductive tree (A : Type) (B : A -> Type) : Type := sup (s : A) (f : B s -> tree A B).
Arguments sup {A B}.
Definition node {A B} (v : fill A B (tree A B)) : tree A B := sup (projT1 v) (projT2 v).
Definition unnode {A B} (x : tree A B) : fill A B (tree A B) := match x with sup s f => existT _ s f end.
Lemma unnode_node A B (v : fill A B (tree A B)) : unnode (node v) = v. Proof. destruct v. reflexivity. Qed.
Lemma node_unnode A B (x : tree A B) : node (unnode x) = x. Proof. destruct x. reflexivity. Qed.
