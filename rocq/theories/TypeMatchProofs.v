(** Lemmas for P_TypeMatch.v *)
From Coq Require Import List Arith Bool Lia.
From Verif Require Import TypeMatch TypeMatchSpec.
Import ListNotations.

Lemma ety_ind' (P : ety -> Prop) :
  P EBool -> P EType0 -> (forall c, P (EConstraint c)) -> (forall p, P (EVar p)) -> (forall p, P (EArb p)) ->
  (forall d args, Forall P args -> P (EData d args)) ->
  (forall args ret, Forall P args -> P ret -> P (EFun args ret)) ->
  forall t, P t.
Proof.
  intros H1 H2 H3 H4 H5 H6 H7.
  fix IH 1. intros [| |c|p|p|d args|args ret]; [exact H1|exact H2|apply H3|apply H4|apply H5|apply H6|apply H7].
  - induction args as [|a args IHl]; [constructor|constructor; [apply IH|exact IHl]].
  - induction args as [|a args IHl]; [constructor|constructor; [apply IH|exact IHl]].
  - apply IH.
Qed.

Lemma param_eqb_eq p q : param_eqb p q = true <-> p = q.
Proof.
  destruct p as [n c], q as [n' c']. unfold param_eqb; cbn. rewrite andb_true_iff, Nat.eqb_eq. split.
  - intros [-> H]. destruct c, c'; cbn in H; try discriminate; [apply Nat.eqb_eq in H; subst|]; reflexivity.
  - intros [= -> ->]. split; [reflexivity|]. destruct c'; [apply Nat.eqb_refl|reflexivity].
Qed.

Fixpoint list_eqb (l m : list ety) : bool :=
  match l, m with [], [] => true | x :: l, y :: m => ety_eqb x y && list_eqb l m | _, _ => false end.
Lemma eqb_data d l e m : ety_eqb (EData d l) (EData e m) = (d =? e) && list_eqb l m.
Proof. reflexivity. Qed.
Lemma eqb_fun l r m s : ety_eqb (EFun l r) (EFun m s) = list_eqb l m && ety_eqb r s.
Proof. reflexivity. Qed.

Lemma list_eqb_eq l : Forall (fun a => forall b, ety_eqb a b = true <-> a = b) l -> forall m, list_eqb l m = true <-> l = m.
Proof.
  induction 1 as [|a l Ha Hl IH]; intros [|b m]; cbn; try (split; congruence).
  rewrite andb_true_iff, Ha, IH. split; [intros [-> ->]; reflexivity|intros [= -> ->]; split; reflexivity].
Qed.

Lemma ety_eqb_eq a : forall b, ety_eqb a b = true <-> a = b.
Proof.
  induction a as [| |c|p|p|d args IH|args ret IH IHr] using ety_ind'; intros [| |c'|p'|p'|d' args'|args' ret'];
    try (cbn; split; congruence).
  - cbn. rewrite Nat.eqb_eq. split; congruence.
  - cbn. rewrite param_eqb_eq. split; congruence.
  - cbn. rewrite param_eqb_eq. split; congruence.
  - rewrite eqb_data, andb_true_iff, Nat.eqb_eq, (list_eqb_eq _ IH). split; [intros [-> ->]; reflexivity|intros [= -> ->]; split; reflexivity].
  - rewrite eqb_fun, andb_true_iff, (list_eqb_eq _ IH), IHr. split; [intros [-> ->]; reflexivity|intros [= -> ->]; split; reflexivity].
Qed.

Lemma ety_eqb_refl a : ety_eqb a a = true.
Proof. apply ety_eqb_eq. reflexivity. Qed.

(** * Function types *)

Definition is_fun (t : ety) : bool := match t with EFun _ _ => true | _ => false end.

Lemma not_fun t : is_fun t = false <-> (forall l r, t <> EFun l r).
Proof. destruct t; cbn; split; try congruence; intros H; exfalso; eapply H; reflexivity. Qed.

Lemma normal_data d args : normal (EData d args) <-> Forall normal args.
Proof. split; [intros H; inversion H; assumption|constructor; assumption]. Qed.

Lemma normal_fun args ret : normal (EFun args ret) <-> args <> [] /\ Forall normal args /\ normal ret /\ is_fun ret = false.
Proof.
  split.
  - intros H. inversion H; subst. rewrite not_fun. repeat split; assumption.
  - intros (A & B & C & D). constructor; try assumption. apply not_fun; exact D.
Qed.

Lemma functional_notfun args ret : is_fun ret = false -> args <> [] -> functional args ret = EFun args ret.
Proof. intros H A. destruct args; [contradiction|]. destruct ret; try reflexivity. discriminate. Qed.

Lemma functional_fun args l r : args <> [] -> functional args (EFun l r) = EFun (args ++ l) r.
Proof. destruct args; [contradiction|reflexivity]. Qed.

Lemma functional_is_fun args ret : args <> [] -> is_fun (functional args ret) = true.
Proof. destruct args; [contradiction|destruct ret; reflexivity]. Qed.

Lemma normal_functional args ret : Forall normal args -> normal ret -> normal (functional args ret).
Proof.
  intros A B. destruct args as [|a args]; [exact B|].
  destruct ret as [| |c|p|p|d l|l r]; try (constructor; [discriminate|exact A|exact B|discriminate]).
  apply normal_fun in B. destruct B as (B1 & B2 & B3 & B4). cbn.
  apply normal_fun. repeat split; [discriminate|apply (Forall_app normal (a :: args) l); split; assumption|exact B3|exact B4].
Qed.

Lemma functional_app l m r : normal r -> functional l (functional m r) = functional (l ++ m) r.
Proof.
  intros H. destruct l as [|a l]; [reflexivity|]. destruct m as [|b m]; [rewrite app_nil_r; reflexivity|].
  destruct r; cbn; try reflexivity. rewrite <- app_assoc. reflexivity.
Qed.

(** * Replacing parameters *)

Fixpoint rep (s : nat -> ety) (t : ety) : ety :=
  match t with
  | EVar p | EArb p => s (pname p)
  | EFun args ret => functional (map (rep s) args) (rep s ret)
  | EData d args => EData d (map (rep s) args)
  | _ => t
  end.

Lemma map_rep_becomes s l : Forall (fun g => normal g -> forall t, becomes s g t <-> rep s g = t) l -> Forall normal l ->
  forall m, Forall2 (becomes s) l m <-> map (rep s) l = m.
Proof.
  induction 1 as [|g l Hg Hl IH]; intros HN m; cbn.
  - split; [intros H; inversion H; reflexivity|intros <-; constructor].
  - inversion HN as [|? ? HN1 HN2]; subst. specialize (Hg HN1). specialize (IH HN2). split.
    + intros H. inversion H as [|? b ? m' H1 H2]; subst. apply Hg in H1. apply IH in H2. congruence.
    + intros <-. constructor; [apply Hg; reflexivity|apply IH; reflexivity].
Qed.

Lemma becomes_rep s g : normal g -> forall t, becomes s g t <-> rep s g = t.
Proof.
  induction g as [| |c|p|p|d args IH|args ret IH IHr] using ety_ind'; intros HN t.
  1-5: cbn; split; [intros H; inversion H; reflexivity|intros <-; constructor].
  - apply normal_data in HN. cbn. split.
    + intros H. inversion H as [| | | | |? ? m H1| |]; subst. apply (map_rep_becomes _ _ IH HN) in H1. congruence.
    + intros <-. constructor. apply (map_rep_becomes _ _ IH HN). reflexivity.
  - apply normal_fun in HN. destruct HN as (N1 & N2 & N3 & N4). cbn.
    assert (M : map (rep s) args <> []) by (destruct args; [contradiction|discriminate]). split.
    + intros H. inversion H as [| | | | | |? m ? u H1 H2 H3|? m ? m' u H1 H2]; subst;
        apply (map_rep_becomes _ _ IH N2) in H1; apply (IHr N3) in H2; subst.
      * apply functional_notfun; [apply not_fun; exact H3|exact M].
      * rewrite H2. apply functional_fun. exact M.
    + intros <-. destruct (is_fun (rep s ret)) eqn:E.
      * destruct (rep s ret) as [| |c|p|p|d l|l r] eqn:F; try discriminate.
        rewrite functional_fun by exact M. apply b_curried; [apply (map_rep_becomes _ _ IH N2); reflexivity|apply (IHr N3); reflexivity].
      * rewrite functional_notfun by assumption. apply b_fun; [apply (map_rep_becomes _ _ IH N2); reflexivity|apply (IHr N3); reflexivity|].
        apply not_fun. exact E.
Qed.

Lemma rep_ext s u g : (forall p, occurs p g -> s (pname p) = u (pname p)) -> rep s g = rep u g.
Proof.
  induction g as [| |c|p|p|d args IH|args ret IH IHr] using ety_ind'; intros H; cbn; try reflexivity.
  - apply H. constructor.
  - apply H. constructor.
  - f_equal. apply map_ext_in. intros a Ha. rewrite Forall_forall in IH. apply IH; [exact Ha|].
    intros p Hp. apply H. econstructor; eassumption.
  - rewrite IHr by (intros p Hp; apply H; apply o_ret; exact Hp). f_equal.
    apply map_ext_in. intros a Ha. rewrite Forall_forall in IH. apply IH; [exact Ha|].
    intros p Hp. apply H. eapply o_arg; eassumption.
Qed.

Lemma normal_rep s g : normal g -> (forall p, occurs p g -> normal (s (pname p))) -> normal (rep s g).
Proof.
  induction g as [| |c|p|p|d args IH|args ret IH IHr] using ety_ind'; intros HN H; cbn; try constructor.
  - apply H. constructor.
  - apply H. constructor.
  - apply normal_data in HN. rewrite Forall_forall in *. intros b Hb. apply in_map_iff in Hb. destruct Hb as (a & <- & Ha).
    apply IH; [exact Ha|apply HN; exact Ha|]. intros p Hp. apply H. econstructor; eassumption.
  - apply normal_fun in HN. destruct HN as (N1 & N2 & N3 & N4). apply normal_functional.
    + rewrite Forall_forall in *. intros b Hb. apply in_map_iff in Hb. destruct Hb as (a & <- & Ha).
      apply IH; [exact Ha|apply N2; exact Ha|]. intros p Hp. apply H. eapply o_arg; eassumption.
    + apply IHr; [exact N3|]. intros p Hp. apply H. apply o_ret; exact Hp.
Qed.

Lemma instantiate_rep m s t : (forall p, occurs p t -> look m (pname p) = Some (s (pname p))) -> instantiate m t = rep s t.
Proof.
  induction t as [| |c|p|p|d args IH|args ret IH IHr] using ety_ind'; intros H; cbn; try reflexivity.
  - rewrite (H p (o_var p)). reflexivity.
  - rewrite (H p (o_arb p)). reflexivity.
  - f_equal. apply map_ext_in. intros a Ha. rewrite Forall_forall in IH. apply IH; [exact Ha|].
    intros p Hp. apply H. econstructor; eassumption.
  - rewrite IHr by (intros p Hp; apply H; apply o_ret; exact Hp). f_equal.
    apply map_ext_in. intros a Ha. rewrite Forall_forall in IH. apply IH; [exact Ha|].
    intros p Hp. apply H. eapply o_arg; eassumption.
Qed.

Definition value_of (m : mapping) (n : nat) : ety := match look m n with Some t => t | None => EVar (Param n None) end.

(** * Parameters that occur *)

Lemma occurs_data p d args : occurs p (EData d args) <-> exists t, In t args /\ occurs p t.
Proof.
  split; [intros H; inversion H; subst; eexists; split; eassumption|intros (t & A & B); econstructor; eassumption].
Qed.
Lemma occurs_fun p args ret : occurs p (EFun args ret) <-> (exists t, In t args /\ occurs p t) \/ occurs p ret.
Proof.
  split; [intros H; inversion H; subst; [left; eexists; split; eassumption|right; assumption]|].
  intros [(t & A & B)|H]; [eapply o_arg; eassumption|apply o_ret; exact H].
Qed.
Lemma occurs_functional p args ret : occurs p (functional args ret) <-> (exists t, In t args /\ occurs p t) \/ occurs p ret.
Proof.
  destruct args as [|a args].
  - cbn. split; [intros H; right; exact H|intros [(t & [] & _)|H]; exact H].
  - destruct ret as [| |c|q|q|d l|l r]; try apply occurs_fun.
    cbn [functional]. rewrite occurs_fun. rewrite occurs_fun. split.
    + intros [(t & A & B)|H]; [|right; right; exact H]. change (a :: args ++ l) with ((a :: args) ++ l) in A.
      apply in_app_or in A. destruct A as [A|A]; [left|right; left]; exists t; split; assumption.
    + intros [(t & A & B)|[(t & A & B)|H]]; [left|left|right; exact H]; exists t; (split; [|exact B]);
        change (a :: args ++ l) with ((a :: args) ++ l); apply in_or_app; [left|right]; exact A.
Qed.

Lemma has_variable_spec n t : has_variable n t = true <-> exists p, pname p = n /\ occurs_variable p t.
Proof.
  induction t as [| |c|p|p|d args IH|args ret IH IHr] using ety_ind'; cbn;
    try (split; [discriminate|intros (q & _ & H); inversion H]).
  - rewrite Nat.eqb_eq. split; [intros <-; exists p; split; [reflexivity|constructor]|].
    intros (q & A & B). inversion B; subst. reflexivity.
  - rewrite existsb_exists. rewrite Forall_forall in IH. split.
    + intros (a & A & B). apply (IH a A) in B. destruct B as (q & B1 & B2). exists q. split; [exact B1|econstructor; eassumption].
    + intros (q & A & B). inversion B as [|? ? ? a B1 B2| |]; subst. exists a. split; [exact B1|]. apply (IH a B1). exists q. split; [reflexivity|exact B2].
  - rewrite orb_true_iff, existsb_exists. rewrite Forall_forall in IH. split.
    + intros [(a & A & B)|H].
      * apply (IH a A) in B. destruct B as (q & B1 & B2). exists q. split; [exact B1|eapply ov_arg; eassumption].
      * apply IHr in H. destruct H as (q & B1 & B2). exists q. split; [exact B1|apply ov_ret; exact B2].
    + intros (q & A & B). inversion B as [| |? ? ? a B1 B2|? ? ? B1]; subst.
      * left. exists a. split; [exact B1|]. apply (IH a B1). exists q. split; [reflexivity|exact B2].
      * right. apply IHr. exists q. split; [reflexivity|exact B1].
Qed.

Lemma has_arbitrary_spec p t : has_arbitrary_param p t = true <-> occurs_arbitrary p t.
Proof.
  induction t as [| |c|q|q|d args IH|args ret IH IHr] using ety_ind'; cbn;
    try (split; [discriminate|intros H; inversion H]).
  - rewrite param_eqb_eq. split; [intros ->; constructor|intros H; inversion H; reflexivity].
  - rewrite existsb_exists. rewrite Forall_forall in IH. split.
    + intros (a & A & B). apply (IH a A) in B. econstructor; eassumption.
    + intros B. inversion B as [|? ? ? a B1 B2| |]; subst. exists a. split; [exact B1|]. apply (IH a B1). exact B2.
  - rewrite orb_true_iff, existsb_exists. rewrite Forall_forall in IH. split.
    + intros [(a & A & B)|H].
      * apply (IH a A) in B. eapply oa_arg; eassumption.
      * apply IHr in H. apply oa_ret; exact H.
    + intros B. inversion B as [| |? ? ? a B1 B2|? ? ? B1]; subst.
      * left. exists a. split; [exact B1|]. apply (IH a B1). exact B2.
      * right. apply IHr. exact B1.
Qed.

Lemma has_generic_spec t : has_generic t = true <-> exists p, occurs_variable p t.
Proof.
  induction t as [| |c|p|p|d args IH|args ret IH IHr] using ety_ind'; cbn;
    try (split; [discriminate|intros (q & H); inversion H]).
  - split; [intros _; exists p; constructor|reflexivity].
  - rewrite existsb_exists. rewrite Forall_forall in IH. split.
    + intros (a & A & B). apply (IH a A) in B. destruct B as (q & B2). exists q. econstructor; eassumption.
    + intros (q & B). inversion B as [|? ? ? a B1 B2| |]; subst. exists a. split; [exact B1|]. apply (IH a B1). exists q. exact B2.
  - rewrite orb_true_iff, existsb_exists. rewrite Forall_forall in IH. split.
    + intros [(a & A & B)|H].
      * apply (IH a A) in B. destruct B as (q & B2). exists q. eapply ov_arg; eassumption.
      * apply IHr in H. destruct H as (q & B2). exists q. apply ov_ret; exact B2.
    + intros (q & B). inversion B as [| |? ? ? a B1 B2|? ? ? B1]; subst.
      * left. exists a. split; [exact B1|]. apply (IH a B1). exists q. exact B2.
      * right. apply IHr. exists q. exact B1.
Qed.

(** * Mappings *)

Definition within (m m' : mapping) : Prop := forall k t, look m k = Some t -> look m' k = Some t.

Lemma within_refl m : within m m. Proof. intros k t H; exact H. Qed.
Lemma within_trans a b c : within a b -> within b c -> within a c.
Proof. intros H1 H2 k t H. apply H2, H1, H. Qed.

Lemma look_cons k t m n : look ((k, t) :: m) n = if k =? n then Some t else look m n.
Proof. unfold look; cbn. destruct (k =? n); reflexivity. Qed.

Lemma within_cons k t m : look m k = None -> within m ((k, t) :: m).
Proof.
  intros H n u E. rewrite look_cons. destruct (k =? n) eqn:K; [|exact E].
  apply Nat.eqb_eq in K; subst. congruence.
Qed.

(** * The matching function *)

Section Matching.
Context (is_instance : ety -> nat -> bool) (extends : nat -> nat -> bool).
Notation fits := (fits is_instance extends).
Notation satisfies := (satisfies is_instance extends).
Notation match_fuel := (match_fuel is_instance extends).
Notation match_types := (match_types is_instance extends).

Lemma satisfies_spec t c : satisfies t c = true <-> in_class is_instance extends t c.
Proof.
  destruct t as [| |c'|p|p|d args|args ret]; cbn; try (split; [discriminate|intros H; inversion H]).
  - destruct (pclass p) as [a|] eqn:E.
    + rewrite orb_true_iff, Nat.eqb_eq. split; [intros H; econstructor; eassumption|].
      intros H. inversion H; subst. congruence.
    + split; [discriminate|intros H; inversion H; congruence].
  - destruct (pclass p) as [a|] eqn:E.
    + rewrite orb_true_iff, Nat.eqb_eq. split; [intros H; econstructor; eassumption|].
      intros H. inversion H; subst. congruence.
    + split; [discriminate|intros H; inversion H; congruence].
  - split; [intros H; constructor; exact H|intros H; inversion H; assumption].
Qed.

Lemma fits_spec p t : fits p t = true <-> allowed is_instance extends p t.
Proof.
  unfold TypeMatch.fits, allowed. destruct (pclass p) as [c|].
  - rewrite satisfies_spec. split; [intros H c' [= <-]; exact H|intros H; apply H; reflexivity].
  - split; [intros _ c [=]|reflexivity].
Qed.

(** One successful step: what the new mapping has *)
Definition good (gs : ety -> Prop) (m m' : mapping) : Prop :=
  within m m' /\
  (forall p g, gs g -> occurs p g -> look m' (pname p) <> None) /\
  (forall k t, look m' k = Some t -> look m k = Some t \/
     exists p g, gs g /\ occurs p g /\ pname p = k /\ fits p t = true /\ normal t).

Lemma good_refl m (P : ety -> Prop) : (forall p g, P g -> ~ occurs p g) -> good P m m.
Proof.
  intros H. split; [apply within_refl|]. split; [intros p g A B; exfalso; eapply H; eassumption|].
  intros k t E; left; exact E.
Qed.

Lemma good_seq (P Q R : ety -> Prop) m m1 m2 :
  good P m m1 -> good Q m1 m2 ->
  (forall p g, R g -> occurs p g -> (exists h, P h /\ occurs p h) \/ (exists h, Q h /\ occurs p h)) ->
  (forall p g, P g -> occurs p g -> exists h, R h /\ occurs p h) -> (forall p g, Q g -> occurs p g -> exists h, R h /\ occurs p h) ->
  good R m m2.
Proof.
  intros (A1 & A2 & A3) (B1 & B2 & B3) H HP HQ. split; [eapply within_trans; eassumption|]. split.
  - intros p g Rg O. destruct (H p g Rg O) as [(h & C & D)|(h & C & D)].
    + specialize (A2 p h C D). destruct (look m1 (pname p)) as [t|] eqn:E; [|contradiction]. rewrite (B1 _ _ E). discriminate.
    + apply (B2 p h C D).
  - intros k t E. apply B3 in E. destruct E as [E|(p & g & C1 & C2 & C3)].
    + apply A3 in E. destruct E as [E|(p & g & C1 & C2 & C3)]; [left; exact E|right].
      destruct (HP p g C1 C2) as (h & D1 & D2). exists p, h. split; [exact D1|]. split; [exact D2|exact C3].
    + right. destruct (HQ p g C1 C2) as (h & D1 & D2). exists p, h. split; [exact D1|]. split; [exact D2|exact C3].
Qed.

Definition sound (f : ety -> ety -> mapping -> option mapping) : Prop :=
  forall g i m m', normal g -> normal i -> f g i m = Some m' ->
  good (eq g) m m' /\ forall m2, within m' m2 -> instantiate m2 g = i.

Lemma zip_sound f : sound f -> forall gs is m m', Forall normal gs -> Forall normal is -> match_zip f gs is m = Some m' ->
  length gs <= length is ->
  good (fun g => In g gs) m m' /\ forall m2, within m' m2 -> map (instantiate m2) gs = firstn (length gs) is.
Proof.
  intros Hf. induction gs as [|g gs IH]; intros [|i is] m m' Hg Hi H L; cbn in *; try lia.
  - injection H as <-. split; [apply good_refl; intros p g []|reflexivity].
  - injection H as <-. split; [apply good_refl; intros p g []|reflexivity].
  - inversion Hg; inversion Hi; subst. destruct (f g i m) as [m1|] eqn:E; [|discriminate].
    destruct (Hf g i m m1 ltac:(assumption) ltac:(assumption) E) as (A & B).
    destruct (IH is m1 m' ltac:(assumption) ltac:(assumption) H ltac:(lia)) as (C & D). split.
    + eapply (good_seq (eq g) (fun h => In h gs)); [exact A|exact C| | |].
      * intros p h [<-|K] O; [left; exists g; split; [reflexivity|exact O]|right; exists h; split; assumption].
      * intros p h <- O. exists g. split; [left; reflexivity|exact O].
      * intros p h K O. exists h. split; [right; exact K|exact O].
    + intros m2 W. rewrite (B m2); [|eapply within_trans; [apply C|exact W]]. rewrite (D m2 W). reflexivity.
Qed.

(** the other way round, a longer generic list: only the length of the other list is looked at *)
Lemma single p i m : look m (pname p) = None -> fits p i = true -> normal i -> forall g, (g = EVar p \/ g = EArb p) ->
  good (eq g) m ((pname p, i) :: m) /\ forall m2, within ((pname p, i) :: m) m2 -> instantiate m2 g = i.
Proof.
  intros L F N g HG.
  assert (O : occurs p g) by (destruct HG as [->| ->]; constructor). split.
  - split; [apply within_cons; exact L|]. split.
    + intros q h <- H. assert (q = p) as -> by (destruct HG as [->| ->]; inversion H; reflexivity).
      rewrite look_cons, Nat.eqb_refl. discriminate.
    + intros k t E. rewrite look_cons in E. destruct (pname p =? k) eqn:K; [|left; exact E].
      apply Nat.eqb_eq in K. injection E as <-. right. exists p, g. repeat split; assumption.
  - intros m2 W. specialize (W (pname p) i). rewrite look_cons, Nat.eqb_refl in W.
    destruct HG as [->| ->]; cbn; rewrite (W eq_refl); reflexivity.
Qed.

Lemma repeated p i m t : look m (pname p) = Some t -> t = i -> forall g, (g = EVar p \/ g = EArb p) ->
  good (eq g) m m /\ forall m2, within m m2 -> instantiate m2 g = i.
Proof.
  intros L -> g HG. split.
  - split; [apply within_refl|]. split; [|intros k t E; left; exact E].
    intros q h <- H. assert (q = p) as -> by (destruct HG as [->| ->]; inversion H; reflexivity). congruence.
  - intros m2 W. destruct HG as [->| ->]; cbn; rewrite (W _ _ L); reflexivity.
Qed.

Lemma normal_rest n l r : Forall normal l -> normal r -> normal (functional (skipn n l) r).
Proof.
  intros A B. apply normal_functional; [|exact B]. rewrite Forall_forall in *. intros x Hx. apply A.
  rewrite <- (firstn_skipn n l). apply in_or_app. right; exact Hx.
Qed.

Lemma fun_needs_fun n l r i m m' : match_fuel n (EFun l r) i m = Some m' -> is_fun i = true.
Proof.
  destruct n; [discriminate|]. cbn. destruct i; try discriminate. reflexivity.
Qed.

Lemma match_fuel_sound n : sound (match_fuel n).
Proof.
  induction n as [|n IH]; intros g i m m' Ng Ni H; [discriminate|].
  destruct g as [| |c|p|p|d gs|fa fr].
  - cbn in H. destruct i; try discriminate. injection H as <-.
    split; [apply good_refl; intros q h <- O; inversion O|reflexivity].
  - cbn in H. destruct i; try discriminate. injection H as <-.
    split; [apply good_refl; intros q h <- O; inversion O|reflexivity].
  - assert (E : EConstraint c = i /\ m = m').
    { cbn in H. destruct i; try discriminate. destruct (c =? c0) eqn:E; [|discriminate]. apply Nat.eqb_eq in E. split; congruence. }
    destruct E as (<- & <-). split; [apply good_refl; intros q h <- O; inversion O|reflexivity].
  - cbn [TypeMatch.match_fuel] in H. destruct (look m (pname p)) as [t|] eqn:L.
    + destruct (ety_eqb t i) eqn:E; [|discriminate]. apply ety_eqb_eq in E. injection H as <-.
      eapply repeated; [exact L|exact E|left; reflexivity].
    + destruct (fits p i) eqn:F; [|discriminate]. destruct (has_variable (pname p) i); [discriminate|]. injection H as <-.
      apply single; [exact L|exact F|exact Ni|left; reflexivity].
  - cbn [TypeMatch.match_fuel] in H. destruct (look m (pname p)) as [t|] eqn:L.
    + destruct (ety_eqb t i) eqn:E; [|discriminate]. apply ety_eqb_eq in E. injection H as <-.
      eapply repeated; [exact L|exact E|right; reflexivity].
    + destruct (fits p i) eqn:F; [|discriminate].
      assert (H' : Some ((pname p, i) :: m) = Some m').
      { destruct (has_arbitrary_param p i); [|exact H]. destruct i; try discriminate. destruct (param_eqb p0 p); [exact H|discriminate]. }
      injection H' as <-. apply single; [exact L|exact F|exact Ni|right; reflexivity].
  - destruct i as [| |c'|p'|p'|d' is|ga gr]; try discriminate. cbn [TypeMatch.match_fuel] in H.
    destruct ((d =? d') && (length gs =? length is)) eqn:E; [|discriminate].
    apply andb_true_iff in E. destruct E as (E1 & E2). apply Nat.eqb_eq in E1, E2. subst d'.
    apply normal_data in Ng, Ni. destruct (zip_sound _ IH gs is m m' Ng Ni H ltac:(lia)) as (A & B). split.
    + destruct A as (A1 & A2 & A3). split; [exact A1|]. split.
      * intros q h <- O. apply occurs_data in O. destruct O as (t & O1 & O2). apply (A2 q t O1 O2).
      * intros k t K. apply A3 in K. destruct K as [K|(q & h & K1 & K2 & K3)]; [left; exact K|right].
        exists q, (EData d gs). split; [reflexivity|]. split; [apply occurs_data; exists h; split; assumption|exact K3].
    + intros m2 W. cbn. rewrite (B m2 W), E2, firstn_all. reflexivity.
  - destruct i as [| |c'|p'|p'|d' is|ga gr]; try discriminate. cbn [TypeMatch.match_fuel] in H.
    apply normal_fun in Ng. destruct Ng as (G1 & G2 & G3 & G4). apply normal_fun in Ni. destruct Ni as (I1 & I2 & I3 & I4).
    destruct (length fa <? length ga) eqn:E1; [|destruct (length ga <? length fa) eqn:E2].
    + apply Nat.ltb_lt in E1. destruct (match_zip (match_fuel n) fa ga m) as [m1|] eqn:Z; [|discriminate].
      destruct (zip_sound _ IH fa ga m m1 G2 I2 Z ltac:(lia)) as (A & B).
      destruct (IH _ _ _ _ G3 (normal_rest _ _ _ I2 I3) H) as (C & D). split.
      * eapply (good_seq (fun g => In g fa) (eq fr)); [exact A|exact C| | |].
        -- intros p h <- O. apply occurs_fun in O. destruct O as [(t & O1 & O2)|O]; [left|right]; [exists t|exists fr]; split; auto.
        -- intros p h O1 O2. exists (EFun fa fr). split; [reflexivity|]. apply occurs_fun. left. exists h. split; assumption.
        -- intros p h <- O. exists (EFun fa fr). split; [reflexivity|]. apply occurs_fun. right. exact O.
      * intros m2 W. cbn. rewrite (B m2) by (eapply within_trans; [apply C|exact W]). rewrite (D m2 W).
        rewrite functional_app by exact I3. rewrite firstn_skipn. apply functional_notfun; assumption.
    + exfalso. apply Nat.ltb_lt in E2. destruct (match_zip (match_fuel n) fa ga m) as [m1|] eqn:Z; [|discriminate].
      destruct (functional (skipn (length ga) fa) fr) as [| |c|p|p|d l|l r] eqn:F.
      7: { apply fun_needs_fun in H. congruence. }
      all: assert (X : is_fun (functional (skipn (length ga) fa) fr) = true)
             by (apply functional_is_fun; intros K; apply (f_equal (@length _)) in K; rewrite skipn_length in K; cbn in K; lia);
           rewrite F in X; discriminate.
    + apply Nat.ltb_ge in E1, E2. destruct (match_fuel n fr gr m) as [m1|] eqn:Z; [|discriminate].
      destruct (IH _ _ _ _ G3 I3 Z) as (C & D).
      destruct (zip_sound _ IH fa ga m1 m' G2 I2 H ltac:(lia)) as (A & B). split.
      * eapply (good_seq (eq fr) (fun g => In g fa)); [exact C|exact A| | |].
        -- intros p h <- O. apply occurs_fun in O. destruct O as [(t & O1 & O2)|O]; [right|left]; [exists t|exists fr]; split; auto.
        -- intros p h <- O. exists (EFun fa fr). split; [reflexivity|]. apply occurs_fun. right. exact O.
        -- intros p h O1 O2. exists (EFun fa fr). split; [reflexivity|]. apply occurs_fun. left. exists h. split; assumption.
      * intros m2 W. cbn. rewrite (D m2) by (eapply within_trans; [apply A|exact W]). rewrite (B m2 W).
        replace (length fa) with (length ga) by lia. rewrite firstn_all. apply functional_notfun; assumption.
Qed.

Lemma match_types_sound : sound match_types.
Proof. intros g i m m' Ng Ni H. eapply match_fuel_sound; eassumption. Qed.

(** * Completeness *)

Definition agrees (s : nat -> ety) (m : mapping) : Prop := forall k t, look m k = Some t -> t = s k.

(** what is needed of a replacement for the matching to find it *)
Definition suits (s : nat -> ety) (g : ety) : Prop :=
  (forall p, occurs p g -> normal (s (pname p)) /\ fits p (s (pname p)) = true) /\
  (forall p, occurs_variable p g -> has_variable (pname p) (s (pname p)) = false) /\
  (forall p, occurs_arbitrary p g -> s (pname p) = EArb p \/ has_arbitrary_param p (s (pname p)) = false).

Lemma suits_data s d args t : suits s (EData d args) -> In t args -> suits s t.
Proof.
  intros (A & B & C) H. split; [|split]; intros p O; [apply A|apply B|apply C]; econstructor; eassumption.
Qed.
Lemma suits_arg s args ret t : suits s (EFun args ret) -> In t args -> suits s t.
Proof.
  intros (A & B & C) H. split; [|split]; intros p O; [apply A; eapply o_arg|apply B; eapply ov_arg|apply C; eapply oa_arg]; eassumption.
Qed.
Lemma suits_ret s args ret : suits s (EFun args ret) -> suits s ret.
Proof.
  intros (A & B & C). split; [|split]; intros p O; [apply A; eapply o_ret|apply B; eapply ov_ret|apply C; eapply oa_ret]; eassumption.
Qed.

Definition complete (s : nat -> ety) (f : ety -> ety -> mapping -> option mapping) (g : ety) : Prop :=
  forall m, normal g -> suits s g -> agrees s m -> exists m', f g (rep s g) m = Some m' /\ agrees s m'.

Lemma zip_complete s f gs : (forall g, In g gs -> complete s f g) -> forall rest m,
  Forall normal gs -> (forall g, In g gs -> suits s g) -> agrees s m ->
  exists m', match_zip f gs (map (rep s) gs ++ rest) m = Some m' /\ agrees s m'.
Proof.
  induction gs as [|g gs IH]; intros Hf rest m HN HS HA.
  - exists m. split; [destruct rest; reflexivity|exact HA].
  - inversion HN; subst. destruct (Hf g (or_introl eq_refl) m) as (m1 & E1 & A1); [assumption|apply HS; left; reflexivity|exact HA|].
    cbn. rewrite E1. apply IH; [intros h Hh; apply Hf; right; exact Hh|assumption|intros h Hh; apply HS; right; exact Hh|exact A1].
Qed.

Lemma agrees_cons s m n : agrees s m -> agrees s ((n, s n) :: m).
Proof.
  intros H k t E. rewrite look_cons in E. destruct (n =? k) eqn:K; [|apply H; exact E].
  apply Nat.eqb_eq in K. congruence.
Qed.

Lemma size_in t l : In t l -> size t <= list_sum (map size l).
Proof.
  induction l as [|a l IH]; intros []; cbn; [subst; lia|]. specialize (IH H). unfold list_sum in IH. lia.
Qed.

Lemma size_pos t : 1 <= size t.
Proof. destruct t; cbn; lia. Qed.

Lemma match_fuel_complete s : forall n g, size g <= n -> complete s (match_fuel n) g.
Proof.
  induction n as [|n IH]; intros g L m Ng HS HA; [pose proof (size_pos g); lia|].
  destruct g as [| |c|p|p|d gs|fa fr].
  - exists m. split; [reflexivity|exact HA].
  - exists m. split; [reflexivity|exact HA].
  - exists m. split; [cbn; rewrite Nat.eqb_refl; reflexivity|exact HA].
  - destruct HS as (S1 & S2 & S3). destruct (S1 p (o_var p)) as (S4 & S5). cbn [TypeMatch.match_fuel rep].
    destruct (look m (pname p)) as [t|] eqn:E.
    + apply HA in E. subst t. rewrite ety_eqb_refl. exists m. split; [reflexivity|exact HA].
    + rewrite S5, (S2 p (ov_var p)). eexists. split; [reflexivity|]. apply agrees_cons. exact HA.
  - destruct HS as (S1 & S2 & S3). destruct (S1 p (o_arb p)) as (S4 & S5). cbn [TypeMatch.match_fuel rep].
    destruct (look m (pname p)) as [t|] eqn:E.
    + apply HA in E. subst t. rewrite ety_eqb_refl. exists m. split; [reflexivity|exact HA].
    + rewrite S5. destruct (S3 p (oa_arb p)) as [S6|S6].
      * rewrite S6. cbn. rewrite (proj2 (param_eqb_eq p p) eq_refl). eexists. split; [reflexivity|].
        rewrite <- S6. apply agrees_cons. exact HA.
      * rewrite S6. eexists. split; [reflexivity|]. apply agrees_cons. exact HA.
  - cbn [TypeMatch.match_fuel rep]. rewrite Nat.eqb_refl, map_length, Nat.eqb_refl. cbn [andb].
    cbn [size] in L. apply normal_data in Ng.
    destruct (zip_complete s (match_fuel n) gs) with (rest := @nil ety) (m := m) as (m' & E & A).
    + intros g Hg. apply IH. pose proof (size_in g gs Hg). lia.
    + exact Ng.
    + intros g Hg. eapply suits_data; eassumption.
    + exact HA.
    + rewrite app_nil_r in E. exists m'. split; assumption.
  - cbn [size] in L. apply normal_fun in Ng. destruct Ng as (G1 & G2 & G3 & G4).
    pose proof (suits_ret _ _ _ HS) as HSr.
    assert (M : map (rep s) fa <> []) by (destruct fa; [contradiction|discriminate]).
    assert (ZC : forall rest m, agrees s m -> exists m', match_zip (match_fuel n) fa (map (rep s) fa ++ rest) m = Some m' /\ agrees s m').
    { intros rest m0 HA0. apply zip_complete; [|exact G2|intros g Hg; eapply suits_arg; eassumption|exact HA0].
      intros g Hg. apply IH. pose proof (size_in g fa Hg). pose proof (size_pos fr). lia. }
    assert (RC : forall m, agrees s m -> exists m', match_fuel n fr (rep s fr) m = Some m' /\ agrees s m').
    { intros m0 HA0. apply IH; [|exact G3|exact HSr|exact HA0]. pose proof (size_pos fr). lia. }
    change (rep s (EFun fa fr)) with (functional (map (rep s) fa) (rep s fr)).
    destruct (is_fun (rep s fr)) eqn:F.
    + destruct (rep s fr) as [| |c|p|p|d l|l r] eqn:R; try discriminate.
      assert (N : normal (EFun l r)).
      { rewrite <- R. apply normal_rep; [exact G3|]. intros p Hp. apply (proj1 HSr p Hp). }
      apply normal_fun in N. destruct N as (N1 & N2 & N3 & N4).
      rewrite functional_fun by exact M. cbn [TypeMatch.match_fuel].
      rewrite app_length, map_length.
      replace (length fa <? length fa + length l) with true
        by (symmetry; apply Nat.ltb_lt; destruct l; [contradiction|cbn; lia]).
      destruct (ZC l m HA) as (m1 & E1 & A1). rewrite E1.
      replace (skipn (length fa) (map (rep s) fa ++ l)) with l
        by (rewrite <- (map_length (rep s) fa), skipn_app, skipn_all, Nat.sub_diag; reflexivity).
      rewrite functional_notfun by assumption. apply RC. exact A1.
    + rewrite functional_notfun by assumption. cbn [TypeMatch.match_fuel]. rewrite map_length, Nat.ltb_irrefl.
      destruct (RC m HA) as (m1 & E1 & A1). rewrite E1. destruct (ZC [] m1 A1) as (m2 & E2 & A2). rewrite app_nil_r in E2.
      exists m2. split; assumption.
Qed.

Lemma match_types_complete s g : complete s match_types g.
Proof.
  intros m Ng HS HA. unfold TypeMatch.match_types. apply match_fuel_complete; [lia|exact Ng|exact HS|exact HA].
Qed.

End Matching.
