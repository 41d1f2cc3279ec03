(** Lemmas about the inference of type arguments, for P_TypeMatch.v *)
From Coq Require Import List Arith Bool Lia.
From Verif Require Import TypeMatch TypeMatchSpec TypeMatchProofs.
Import ListNotations.

Lemma applies_type f args t : applies f args t -> application_type f (length args) = Some t.
Proof. induction 1; cbn; [reflexivity|exact IHapplies|exact IHapplies]. Qed.

Lemma applies_step a l r args t : normal r -> applies (functional l r) args t -> applies (functional (a :: l) r) (a :: args) t.
Proof.
  intros N H. destruct l as [|b l].
  - cbn in H. destruct r as [| |c|p|p|d m|m r']; try (apply ap_last; exact H).
    apply normal_fun in N. destruct N as (N1 & _). destruct m as [|x m]; [contradiction|]. cbn. apply ap_more. exact H.
  - destruct r as [| |c|p|p|d m|m r']; cbn in *; apply ap_more; exact H.
Qed.

Lemma applies_functional l rest r : normal r -> applies (functional (l ++ rest) r) l (functional rest r).
Proof.
  intros N. induction l as [|a l IH]; [apply ap_none|]. apply (applies_step a (l ++ rest) r l); [exact N|exact IH].
Qed.

Lemma applies_unique f args t : applies f args t -> forall u, applies f args u -> t = u.
Proof. intros H u H'. apply applies_type in H, H'. congruence. Qed.

Lemma applies_inv_step a l r args t : normal r -> applies (functional (a :: l) r) args t ->
  (args = [] /\ t = functional (a :: l) r) \/ exists rest, args = a :: rest /\ applies (functional l r) rest t.
Proof.
  intros N H. destruct args as [|b args].
  - left. split; [reflexivity|]. inversion H; reflexivity.
  - right. exists args. destruct l as [|c l].
    + cbn [functional] in *. destruct r as [| |c|p|p|d m|m r']; try (inversion H; subst; split; [reflexivity|assumption]).
      apply normal_fun in N. destruct N as (N1 & _). destruct m as [|x m]; [contradiction|]. cbn in H.
      inversion H; subst. split; [reflexivity|assumption].
    + destruct r as [| |e|p|p|d m|m r']; cbn in *; inversion H; subst; split; try reflexivity; assumption.
Qed.

Lemma applies_inv l r : normal r -> forall args t, length args <= length l -> applies (functional l r) args t ->
  args = firstn (length args) l /\ t = functional (skipn (length args) l) r.
Proof.
  intros N. induction l as [|a l IH]; intros args t L H.
  - destruct args; [|cbn in L; lia]. inversion H; subst. split; reflexivity.
  - apply applies_inv_step in H; [|exact N]. destruct H as [(-> & ->)|(rest & -> & H)]; [split; reflexivity|].
    cbn in L. destruct (IH rest t ltac:(lia) H) as (A & B). cbn. split; [congruence|exact B].
Qed.

Section Infer.
Context (is_instance : ety -> nat -> bool) (extends : nat -> nat -> bool).
Notation match_types := (match_types is_instance extends).
Notation match_args := (match_args is_instance extends).
Notation match_expected := (match_expected is_instance extends).
Notation infer := (infer is_instance extends).
Notation constraints_hold := (constraints_hold is_instance extends).
Notation fits := (fits is_instance extends).

Lemma chosen_length m ps : length (chosen m ps) = length ps.
Proof. apply map_length. Qed.

Lemma look_named m ps k : In k (map pname ps) -> inferred m ps = true -> look (named ps (chosen m ps)) k = look m k.
Proof.
  unfold named, chosen, inferred. induction ps as [|p ps IH]; cbn [map In combine forallb]; [intros []|].
  intros H F. apply andb_true_iff in F. destruct F as (F1 & F2). rewrite look_cons.
  destruct (pname p =? k) eqn:E.
  - apply Nat.eqb_eq in E; subst k. destruct (look m (pname p)); [reflexivity|discriminate].
  - apply Nat.eqb_neq in E. destruct H as [H|H]; [contradiction|]. apply IH; assumption.
Qed.

Lemma given_named ps ts k : length ts = length ps -> In k (map pname ps) -> look (named ps ts) k = Some (given ps ts k).
Proof.
  unfold given, named. revert ts. induction ps as [|p ps IH]; intros [|t ts]; cbn [map In combine find length fst snd]; try discriminate; [intros _ []|].
  intros L H. rewrite look_cons. destruct (pname p =? k) eqn:E; [reflexivity|].
  apply Nat.eqb_neq in E. destruct H as [H|H]; [contradiction|]. apply IH; [lia|exact H].
Qed.

Lemma instantiate_ext m m' t : (forall p, occurs p t -> look m (pname p) = look m' (pname p)) -> instantiate m t = instantiate m' t.
Proof.
  induction t as [| |c|p|p|d args IH|args ret IH IHr] using ety_ind'; intros H; cbn; try reflexivity.
  - rewrite (H p (o_var p)). reflexivity.
  - rewrite (H p (o_arb p)). reflexivity.
  - f_equal. apply map_ext_in. intros a Ha. rewrite Forall_forall in IH. apply IH; [exact Ha|].
    intros p Hp. apply H. econstructor; eassumption.
  - rewrite IHr by (intros p Hp; apply H; apply o_ret; exact Hp). f_equal.
    apply map_ext_in. intros a Ha. rewrite Forall_forall in IH. apply IH; [exact Ha|].
    intros p Hp. apply H. eapply o_arg; eassumption.
Qed.

Lemma normal_instantiate m g : normal g -> (forall k t, look m k = Some t -> normal t) -> normal (instantiate m g).
Proof.
  intros N H. induction g as [| |c|p|p|d args IH|args ret IH IHr] using ety_ind'; cbn; try constructor.
  - destruct (look m (pname p)) as [t|] eqn:E; [eapply H; exact E|constructor].
  - destruct (look m (pname p)) as [t|] eqn:E; [eapply H; exact E|constructor].
  - apply normal_data in N. rewrite Forall_forall in *. intros b Hb. apply in_map_iff in Hb. destruct Hb as (a & <- & Ha).
    apply IH; [exact Ha|apply N; exact Ha].
  - apply normal_fun in N. destruct N as (N1 & N2 & N3 & N4). apply normal_functional; [|apply IHr; exact N3].
    rewrite Forall_forall in *. intros b Hb. apply in_map_iff in Hb. destruct Hb as (a & <- & Ha).
    apply IH; [exact Ha|apply N2; exact Ha].
Qed.

(** the function type that is left *)
Definition rest_type (fa : list ety) (fr : ety) (n : nat) : ety := if n =? length fa then fr else EFun (skipn n fa) fr.

Lemma rest_functional fa fr n : n <= length fa -> is_fun fr = false -> rest_type fa fr n = functional (skipn n fa) fr.
Proof.
  intros L F. unfold rest_type. destruct (n =? length fa) eqn:E.
  - apply Nat.eqb_eq in E; subst. rewrite skipn_all. reflexivity.
  - apply Nat.eqb_neq in E. symmetry. apply functional_notfun; [exact F|].
    intros K. apply (f_equal (@length _)) in K. rewrite skipn_length in K. cbn in K. lia.
Qed.

Lemma match_zip_firstn f gs : forall is m, match_zip f gs is m = match_zip f (firstn (length is) gs) is m.
Proof.
  induction gs as [|g gs IH]; intros [|i is] m; cbn; try reflexivity.
  destruct (f g i m); [apply IH|reflexivity].
Qed.

Lemma match_args_sound g args m ret m' : normal g -> Forall normal args -> match_args g args m = Some (ret, m') ->
  within m m' /\ (forall k t, look m' k = Some t -> look m k = Some t \/ normal t) /\ normal ret /\
  (forall p, occurs p ret -> occurs p g) /\
  forall m2, within m' m2 -> (forall k t, look m2 k = Some t -> normal t) -> applies (instantiate m2 g) args (instantiate m2 ret).
Proof.
  intros N NA H. unfold TypeMatch.match_args in H. destruct args as [|a args].
  { injection H as <- <-. split; [apply within_refl|]. split; [intros k t E; left; exact E|]. split; [exact N|].
    split; [intros p O; exact O|]. intros m2 _ _. apply ap_none. }
  destruct g as [| |c|p|p|d gs|fa fr]; try discriminate.
  destruct (length fa <? length (a :: args)) eqn:E; [discriminate|]. apply Nat.ltb_ge in E.
  destruct (match_zip match_types fa (a :: args) m) as [m1|] eqn:Z; [|discriminate].
  set (n := length (a :: args)) in *.
  assert (H' : rest_type fa fr n = ret /\ m1 = m') by (unfold rest_type; split; congruence). destruct H' as (<- & <-). clear H.
  rewrite match_zip_firstn in Z. fold n in Z.
  apply normal_fun in N. destruct N as (N1 & N2 & N3 & N4).
  assert (NF : Forall normal (firstn n fa)).
  { rewrite Forall_forall in *. intros x Hx. apply N2. rewrite <- (firstn_skipn n fa). apply in_or_app. left; exact Hx. }
  assert (NL : Forall normal (skipn n fa)).
  { rewrite Forall_forall in *. intros x Hx. apply N2. rewrite <- (firstn_skipn n fa). apply in_or_app. right; exact Hx. }
  destruct (zip_sound _ _ _ (match_types_sound is_instance extends) _ _ _ _ NF NA Z) as ((A1 & A2 & A3) & B).
  { rewrite firstn_length. fold n. lia. }
  rewrite (rest_functional fa fr n E N4). split; [exact A1|]. split; [|split; [|split]].
  - intros k t K. apply A3 in K. destruct K as [K|(p & g & _ & _ & _ & _ & K)]; [left; exact K|right; exact K].
  - apply normal_functional; assumption.
  - intros p O. apply occurs_functional in O. apply occurs_fun. destruct O as [(t & O1 & O2)|O]; [left|right; exact O].
    exists t. split; [|exact O2]. rewrite <- (firstn_skipn n fa). apply in_or_app. right; exact O1.
  - intros m2 W V. specialize (B m2 W). rewrite firstn_length, Nat.min_l in B by exact E.
    assert (n = length (a :: args)) as LN by reflexivity.
    rewrite LN in B at 2. rewrite firstn_all in B. rewrite <- B.
    cbn [instantiate]. rewrite <- (firstn_skipn n fa) at 1. rewrite map_app.
    replace (instantiate m2 (functional (skipn n fa) fr)) with (functional (map (instantiate m2) (skipn n fa)) (instantiate m2 fr)).
    + apply applies_functional. apply normal_instantiate; assumption.
    + destruct (skipn n fa) as [|x l]; [reflexivity|]. rewrite (functional_notfun (x :: l) fr) by (first [exact N4|discriminate]). reflexivity.
Qed.

Lemma infer_sound u args expected : normal (ugeneric u) -> Forall normal (uargs u ++ args) ->
  (forall e, expected = Some e -> normal e) ->
  (forall p, occurs p (ugeneric u) -> In (pname p) (map pname (uparams u))) ->
  infer u args expected <> Panicked /\
  forall ts t, infer u args expected = Resolved ts t ->
    length ts = length (uparams u) /\
    (forall p t, In (p, t) (combine (uparams u) ts) -> fits p t = true) /\
    Forall (fun t => has_generic t = false) ts /\
    applies (rep (given (uparams u) ts) (ugeneric u)) (uargs u ++ args) t /\
    (forall e, expected = Some e -> t = e).
Proof.
  intros N NA NE C. unfold TypeMatch.infer. set (all := uargs u ++ args) in *.
  destruct (match_args (ugeneric u) all []) as [[ret m1]|] eqn:M; [|split; [discriminate|intros ? ? [=]]].
  destruct (match_args_sound _ _ _ _ _ N NA M) as (A1 & A2 & A3 & A4 & A5).
  destruct (match_expected ret expected m1) as [m2|] eqn:X; [|split; [discriminate|intros ? ? [=]]].
  assert (B : within m1 m2 /\ (forall k t, look m2 k = Some t -> normal t) /\ forall e, expected = Some e -> instantiate m2 ret = e).
  { destruct expected as [e|]; cbn in X.
    - destruct (match_types_sound is_instance extends _ _ _ _ A3 (NE e eq_refl) X) as ((B1 & B2 & B3) & B4).
      split; [exact B1|]. split.
      + intros k t K. apply B3 in K. destruct K as [K|(p & g & _ & _ & _ & _ & K)]; [|exact K].
        apply A2 in K. destruct K as [K|K]; [discriminate|exact K].
      + intros e' [= <-]. apply B4. apply within_refl.
    - injection X as <-. split; [apply within_refl|]. split; [|intros e [=]].
      intros k t K. apply A2 in K. destruct K as [K|K]; [discriminate|exact K]. }
  destruct B as (B1 & B2 & B3).
  specialize (A5 m2 B1 B2).
  set (ts := chosen m2 (uparams u)) in *.
  destruct (constraints_hold (uparams u) ts) eqn:K; [|split; [discriminate|intros ? ? [=]]].
  destruct (inferred m2 (uparams u)) eqn:I; [|split; [discriminate|intros ? ? [=]]].
  assert (EQ : instantiate (named (uparams u) ts) (ugeneric u) = instantiate m2 (ugeneric u)).
  { apply instantiate_ext. intros p O. apply look_named; [apply C; exact O|exact I]. }
  rewrite EQ. rewrite (applies_type _ _ _ A5).
  assert (R : forall ts' t', Resolved ts (instantiate m2 ret) = Resolved ts' t' ->
    length ts' = length (uparams u) /\
    (forall p t, In (p, t) (combine (uparams u) ts') -> fits p t = true) /\
    Forall (fun t => has_generic t = false) ts' /\
    applies (rep (given (uparams u) ts') (ugeneric u)) all t' /\
    (forall e, expected = Some e -> t' = e)).
  { intros ts' t' [= <- <-]. split; [apply chosen_length|]. split; [|split; [|split; [|exact B3]]].
    - intros p t HI. unfold TypeMatch.constraints_hold in K. rewrite forallb_forall in K. apply (K (p, t) HI).
    - unfold inferred in I. rewrite forallb_forall in I. rewrite Forall_forall. intros t HI. unfold ts, chosen in HI.
      apply in_map_iff in HI. destruct HI as (p & <- & HI). specialize (I p HI). destruct (look m2 (pname p)); [|discriminate].
      apply negb_true_iff. exact I.
    - rewrite <- (instantiate_rep (named (uparams u) ts)); [rewrite EQ; exact A5|].
      intros p O. apply given_named; [apply chosen_length|apply C; exact O]. }
  destruct expected as [e|].
  - rewrite (B3 e eq_refl) in *. rewrite ety_eqb_refl. split; [discriminate|exact R].
  - split; [discriminate|exact R].
Qed.

(** * Completeness *)

Lemma suits_firstn s n fa fr : suits is_instance extends s (EFun fa fr) ->
  forall g, In g (firstn n fa) -> suits is_instance extends s g.
Proof.
  intros H g Hg. eapply suits_arg; [exact H|]. rewrite <- (firstn_skipn n fa). apply in_or_app. left; exact Hg.
Qed.

Lemma suits_rest s n fa fr : suits is_instance extends s (EFun fa fr) -> suits is_instance extends s (functional (skipn n fa) fr).
Proof.
  intros H. assert (X : forall g, In g (skipn n fa) -> suits is_instance extends s g).
  { intros g Hg. eapply suits_arg; [exact H|]. rewrite <- (firstn_skipn n fa). apply in_or_app. right; exact Hg. }
  pose proof (suits_ret _ _ _ _ _ H) as Y. destruct (skipn n fa) as [|x l]; [exact Y|].
  destruct fr as [| |c|p|p|d m|m r].
  7: { cbn [functional].
       split; [|split]; intros p O.
       - apply occurs_fun in O. destruct O as [(t & O1 & O2)|O]; [|apply Y; apply o_ret; exact O].
         change (x :: l ++ m) with ((x :: l) ++ m) in O1. apply in_app_or in O1. destruct O1 as [O1|O1].
         + apply (X t O1). exact O2.
         + apply Y. eapply o_arg; eassumption.
       - inversion O as [| |? ? ? t O1 O2|? ? ? O1]; subst; [|apply Y; apply ov_ret; exact O1].
         change (x :: l ++ m) with ((x :: l) ++ m) in O1. apply in_app_or in O1. destruct O1 as [O1|O1].
         + apply (X t O1). exact O2.
         + apply Y. eapply ov_arg; eassumption.
       - inversion O as [| |? ? ? t O1 O2|? ? ? O1]; subst; [|apply Y; apply oa_ret; exact O1].
         change (x :: l ++ m) with ((x :: l) ++ m) in O1. apply in_app_or in O1. destruct O1 as [O1|O1].
         + apply (X t O1). exact O2.
         + apply Y. eapply oa_arg; eassumption. }
  all: cbn [functional]; split; [|split]; intros q O; inversion O; subst;
       try (eapply X; eassumption); apply Y; assumption.
Qed.


Lemma match_args_complete s g args t m : normal g -> suits is_instance extends s g -> agrees s m -> length args <= arity g ->
  applies (rep s g) args t ->
  exists ret m', match_args g args m = Some (ret, m') /\ agrees s m' /\ normal ret /\ suits is_instance extends s ret /\
    rep s ret = t /\ within m m' /\ (forall p h, In h (first_args g (length args)) -> occurs p h -> look m' (pname p) <> None) /\
    (forall p, occurs p g -> (exists h, In h (first_args g (length args)) /\ occurs p h) \/ occurs p ret).
Proof.
  intros N HS HA L H. unfold TypeMatch.match_args. destruct args as [|a args].
  { inversion H; subst. exists g, m. repeat split; try assumption; try (apply HS; assumption); try apply within_refl.
    - intros p h O1 O2. destruct g; try destruct O1.
    - intros p O. right. exact O. }
  destruct g as [| |c|p|p|d gs|fa fr]; cbn [arity] in L; try (cbn in L; lia).
  replace (length fa <? length (a :: args)) with false by (symmetry; apply Nat.ltb_ge; exact L).
  set (n := length (a :: args)) in *. pose proof N as N0. apply normal_fun in N0. destruct N0 as (N1 & N2 & N3 & N4).
  assert (NR : normal (rep s fr)).
  { apply normal_rep; [exact N3|]. intros p O. apply HS. apply o_ret; exact O. }
  cbn [rep] in H. apply applies_inv in H; [|exact NR|rewrite map_length; exact L]. fold n in H. destruct H as (H1 & H2).
  assert (NF : Forall normal (firstn n fa)).
  { rewrite Forall_forall in *. intros x Hx. apply N2. rewrite <- (firstn_skipn n fa). apply in_or_app. left; exact Hx. }
  assert (NL : Forall normal (skipn n fa)).
  { rewrite Forall_forall in *. intros x Hx. apply N2. rewrite <- (firstn_skipn n fa). apply in_or_app. right; exact Hx. }
  rewrite match_zip_firstn. fold n. rewrite firstn_map in H1.
  destruct (zip_complete is_instance extends s match_types (firstn n fa)) with (rest := @nil ety) (m := m) as (m1 & E1 & A1).
  { intros g Hg. apply match_types_complete. }
  { exact NF. }
  { intros g Hg. eapply suits_firstn; eassumption. }
  { exact HA. }
  rewrite app_nil_r, <- H1 in E1. rewrite E1.
  change (if n =? length fa then fr else EFun (skipn n fa) fr) with (rest_type fa fr n).
  rewrite (rest_functional fa fr n L N4). exists (functional (skipn n fa) fr), m1.
  assert (NA : Forall normal (a :: args)).
  { rewrite H1. rewrite Forall_forall in *. intros x Hx. apply in_map_iff in Hx. destruct Hx as (y & <- & Hy).
    apply normal_rep; [apply NF; exact Hy|]. intros p O. apply HS. eapply o_arg; [|exact O].
    rewrite <- (firstn_skipn n fa). apply in_or_app. left; exact Hy. }
  destruct (zip_sound _ _ _ (match_types_sound is_instance extends) _ _ _ _ NF NA E1) as ((Z1 & Z2 & Z3) & _).
  { rewrite firstn_length. fold n. lia. }
  split; [reflexivity|]. split; [exact A1|]. split; [apply normal_functional; assumption|].
  split; [apply suits_rest; exact HS|]. split; [|split; [exact Z1|split]].
  - rewrite H2. destruct (skipn n fa) as [|x l] eqn:SK.
    + assert (K : skipn n (map (rep s) fa) = []) by (rewrite skipn_map, SK; reflexivity). rewrite K. reflexivity.
    + rewrite (functional_notfun (x :: l) fr) by (first [exact N4|discriminate]). rewrite skipn_map, SK. reflexivity.
  - intros p h O1 O2. apply (Z2 p h O1 O2).
  - intros p O. rewrite occurs_functional. apply occurs_fun in O. destruct O as [(t' & O1 & O2)|O]; [|right; right; exact O].
    rewrite <- (firstn_skipn n fa) in O1. apply in_app_or in O1. destruct O1 as [O1|O1]; [left|right; left]; exists t'; split; assumption.
Qed.

Lemma given_in ps ts p : length ts = length ps -> NoDup (map pname ps) -> In p ps -> In (p, given ps ts (pname p)) (combine ps ts).
Proof.
  unfold given. revert ts. induction ps as [|q ps IH]; intros [|t ts] L ND H; cbn in *; try lia; try contradiction.
  inversion ND as [|? ? ND1 ND2]; subst. destruct H as [->|H].
  - rewrite Nat.eqb_refl. left. reflexivity.
  - destruct (pname q =? pname p) eqn:E.
    + apply Nat.eqb_eq in E. exfalso. apply ND1. rewrite E. apply in_map. exact H.
    + right. apply IH; [lia|exact ND2|exact H].
Qed.

Lemma given_map ps ts : length ts = length ps -> NoDup (map pname ps) -> map (fun p => given ps ts (pname p)) ps = ts.
Proof.
  unfold given. revert ts. induction ps as [|q ps IH]; intros [|t ts] L ND; cbn in *; try lia; [reflexivity|].
  inversion ND as [|? ? ND1 ND2]; subst. rewrite Nat.eqb_refl. cbn. f_equal.
  etransitivity; [|apply (IH ts); [lia|exact ND2]]. apply map_ext_in. intros p HI.
  destruct (pname q =? pname p) eqn:E; [|reflexivity].
  apply Nat.eqb_eq in E. exfalso. apply ND1. rewrite E. apply in_map. exact HI.
Qed.

Lemma infer_complete u args expected ts t :
  normal (ugeneric u) -> NoDup (map pname (uparams u)) ->
  (forall p, occurs p (ugeneric u) -> In p (uparams u)) ->
  (forall p, ~ occurs_arbitrary p (ugeneric u)) ->
  length ts = length (uparams u) -> Forall (fun t => normal t /\ has_generic t = false) ts ->
  (forall p t, In (p, t) (combine (uparams u) ts) -> fits p t = true) ->
  length (uargs u ++ args) <= arity (ugeneric u) ->
  applies (rep (given (uparams u) ts) (ugeneric u)) (uargs u ++ args) t ->
  (forall e, expected = Some e -> e = t) ->
  (infer u args expected = Resolved ts t \/
   infer u args expected = StillUnresolved (Unresolved (uparams u) (ugeneric u) (uargs u ++ args))) /\
  ((forall p, In p (uparams u) ->
      (exists h, In h (first_args (ugeneric u) (length (uargs u ++ args))) /\ occurs p h) \/
      (expected <> None /\ occurs p (ugeneric u))) ->
   infer u args expected = Resolved ts t).
Proof.
  intros N ND C NoArb L HT HF HL HA HE. set (s := given (uparams u) ts) in *. set (all := uargs u ++ args) in *.
  assert (GP : forall p, In p (uparams u) -> normal (s (pname p)) /\ has_generic (s (pname p)) = false /\ fits p (s (pname p)) = true).
  { intros p HI. pose proof (given_in (uparams u) ts p L ND HI) as G. split; [|split].
    - rewrite Forall_forall in HT. apply HT. eapply in_combine_r; exact G.
    - rewrite Forall_forall in HT. apply HT. eapply in_combine_r; exact G.
    - apply HF. exact G. }
  assert (HS : suits is_instance extends s (ugeneric u)).
  { split; [|split].
    - intros p O. destruct (GP p (C p O)) as (A & _ & B). split; assumption.
    - intros p O. assert (O' : occurs p (ugeneric u)).
      { clear - O. induction O; [constructor|econstructor; eassumption|eapply o_arg; eassumption|apply o_ret; assumption]. }
      destruct (GP p (C p O')) as (_ & A & _). destruct (has_variable (pname p) (s (pname p))) eqn:E; [|reflexivity].
      apply has_variable_spec in E. destruct E as (q & _ & E). assert (has_generic (s (pname p)) = true) by (apply has_generic_spec; exists q; exact E).
      congruence.
    - intros p O. exfalso. eapply NoArb; exact O. }
  destruct (match_args_complete s (ugeneric u) all t [] N HS) as (ret & m1 & E1 & A1 & NR & SR & R & _ & D1 & D2).
  { intros k x [=]. }
  { exact HL. }
  { exact HA. }
  unfold TypeMatch.infer. fold all. rewrite E1.
  assert (X : exists m2, match_expected ret expected m1 = Some m2 /\ agrees s m2 /\ within m1 m2 /\
                (expected <> None -> forall p, occurs p ret -> look m2 (pname p) <> None)).
  { destruct expected as [e|]; cbn.
    - rewrite (HE e eq_refl). rewrite <- R. destruct (match_types_complete is_instance extends s ret m1 NR SR A1) as (m2 & E2 & A2).
      exists m2. split; [exact E2|]. split; [exact A2|].
      assert (NS : normal (rep s ret)) by (apply normal_rep; [exact NR|intros p O; apply SR; exact O]).
      destruct (match_types_sound is_instance extends _ _ _ _ NR NS E2) as ((B1 & B2 & _) & _).
      split; [exact B1|]. intros _ p O. apply (B2 p ret eq_refl O).
    - exists m1. split; [reflexivity|]. split; [exact A1|]. split; [apply within_refl|]. intros K; contradiction. }
  destruct X as (m2 & E2 & A2 & W2 & D3). rewrite E2.
  assert (CH : forall p, In p (uparams u) -> forall x, look m2 (pname p) = Some x -> x = s (pname p)).
  { intros p _ x E. apply A2. exact E. }
  assert (CO : constraints_hold (uparams u) (chosen m2 (uparams u)) = true).
  { unfold TypeMatch.constraints_hold. apply forallb_forall. intros [p x] HI. cbn.
    assert (G : forall l, (forall q, In q l -> In q (uparams u)) -> In (p, x) (combine l (chosen m2 l)) -> In p l /\ x = match look m2 (pname p) with Some y => y | None => EVar p end).
    { clear. induction l as [|q l IH]; cbn; [intros _ []|]. intros H [[= -> <-]|HI]; [split; [left|]; reflexivity|].
      destruct (IH (fun q' Hq => H q' (or_intror Hq)) HI) as (A & B). split; [right; exact A|exact B]. }
    destruct (G (uparams u) (fun q H => H) HI) as (G1 & G2). subst x.
    destruct (look m2 (pname p)) as [y|] eqn:E.
    - rewrite (CH p G1 y E). apply GP. exact G1.
    - unfold TypeMatch.fits. destruct (pclass p) as [c|] eqn:PC; [|reflexivity]. cbn. rewrite PC, Nat.eqb_refl. reflexivity. }
  rewrite CO.
  assert (IF : inferred m2 (uparams u) = true -> chosen m2 (uparams u) = ts).
  { intros I. rewrite <- (given_map (uparams u) ts L ND). unfold chosen. apply map_ext_in. intros p HI.
    unfold inferred in I. rewrite forallb_forall in I. specialize (I p HI).
    destruct (look m2 (pname p)) as [y|] eqn:E; [|discriminate]. rewrite (CH p HI y E). reflexivity. }
  assert (RES : inferred m2 (uparams u) = true ->
     match application_type (instantiate (named (uparams u) (chosen m2 (uparams u))) (ugeneric u)) (length all) with
     | None => Panicked
     | Some t0 => match expected with Some e => if ety_eqb e t0 then Resolved (chosen m2 (uparams u)) t0 else Failed
                                    | None => Resolved (chosen m2 (uparams u)) t0 end
     end = Resolved ts t).
  { intros I. rewrite (IF I). rewrite (instantiate_rep (named (uparams u) ts) s).
    - rewrite (applies_type _ _ _ HA). destruct expected as [e|]; [|reflexivity]. rewrite (HE e eq_refl), ety_eqb_refl. reflexivity.
    - intros p O. apply given_named; [exact L|]. apply in_map. apply C. exact O. }
  split.
  - destruct (inferred m2 (uparams u)) eqn:I; [left; apply RES; reflexivity|right; reflexivity].
  - intros HM. assert (I : inferred m2 (uparams u) = true).
    { unfold inferred. apply forallb_forall. intros p HI.
      assert (LM : look m2 (pname p) <> None).
      { assert (V : forall h, In h (first_args (ugeneric u) (length all)) -> occurs p h -> look m2 (pname p) <> None).
        { intros h H1 H2. specialize (D1 p h H1 H2). destruct (look m1 (pname p)) as [y|] eqn:E; [|contradiction].
          rewrite (W2 _ _ E). discriminate. }
        destruct (HM p HI) as [(h & H1 & H2)|(H1 & H2)]; [apply (V h H1 H2)|].
        destruct (D2 p H2) as [(h & H3 & H4)|H3]; [apply (V h H3 H4)|apply (D3 H1 p H3)]. }
      destruct (look m2 (pname p)) as [y|] eqn:E; [|contradiction]. rewrite (CH p HI y E).
      apply negb_true_iff. apply GP. exact HI. }
    rewrite I. apply RES. exact I.
Qed.

End Infer.
