(** The clause sets of [term_to_clause_set] and [term_eq_to_clause_set] say what the term says. *)
From Coq Require Import List Arith NArith Bool Lia.
Import ListNotations.
From Verif Require Import Term LocalContext Semantics TermProofs SemFacts Typing TypingProofs Monomorphic PolyTyped Literal Clause ClauseSem ClauseProofs TermNorm Clausifier ClausifierProofs ClausifierConv ClausifierExt ClausifierLits ClausifierMain MatchSpec ClausifierTidy ClausifierCases ClausifierSets.

Section Ind.
Context (K : kctx) (ME : symbol -> option (list symbol)) (M : Model) (kinds : list term).
Context (KK : Forall (fun k => is_type_param_kind k = true) kinds) (AI : all_inhabited K M kinds).
Context (MD : match_metadata K ME) (SY : match_symbols_typed K ME M) (EC : eliminators_compute K ME M).
Notation typed := (PolyTyped.typed K).
Notation ptype g := (ptm K g 0).
Notation env := (nat -> D M).
Notation base := (base M kinds).
Notation good := (good K kinds).
Notation says := (says K M kinds).
Notation claims := (claims K M kinds).
Notation local := (local M).
Notation boolean := (boolean M).
Notation tidy := (tidy K ME).
Notation plain := (plain ME).
Notation vars_of := (map (fun i => TVar i)).

Lemma good_refl g c c' : good g c -> more K g c c' -> steps K g g c c'.
Proof. intros G. apply steps_refl. eapply good_ctx; eauto. Qed.
Lemma has_boolean t rho : boolean t rho <-> has M rho t tbool. Proof. split; intros H; exact H. Qed.
Lemma eq_boolean U l r rho : boolean (teq U l r) rho <-> wt M rho U /\ has M rho l U /\ has M rho r U.
Proof.
  split.
  - intros [W _]. apply swt_eq in W. destruct W as (W0 & W1 & W2 & _ & W3 & W4). split; auto. split; split; auto.
  - intros (W0 & [W1 M1] & [W2 M2]). assert (W : wt M rho (teq U l r)). { apply swt_eq. split; auto. split; auto. split; auto. split; [apply isty_eq; eapply mem_isty; exact M1|auto]. }
    split; auto. apply (isb_eq M _ _ _ U l r W).
Qed.
Lemma eq_claim U l r rho neg : boolean (teq U l r) rho -> (ev M rho (teq U l r) = tv M (negb neg) <-> if neg then ev M rho l <> ev M rho r else ev M rho l = ev M rho r).
Proof. intros [W _]. rewrite eq_value by auto. destruct neg; simpl; tauto. Qed.

Definition related (neg : bool) (x y : D M) : Prop := if neg then x <> y else x = y.
(** [cs] says that [l] and [r] are equal, or that they are not *)
Definition sides U l r (rho : env) : Prop := has M rho l U /\ has M rho r U.
Definition equates (g g' : tenv) (U l r : term) (neg : bool) (cs : clause_literals) : Prop :=
  says g g' (sides U l r) (fun rho => related neg (ev M rho l) (ev M rho r)) cs.
Lemma equates_claims g g' U l r neg cs : equates g g' U l r neg cs -> claims g g' (teq U l r) neg cs.
Proof.
  intros H. eapply says_weaken; [..|exact H]; cbn beta; intros rho _ B; [apply eq_boolean in B; apply B|..]; rewrite (eq_claim U l r rho neg B); auto.
Qed.
Lemma sides_local g U l r : ptype g U = true -> typed g [] l U -> typed g [] r U -> local g (sides U l r).
Proof.
  intros P Hl Hr rho rho' A [[H1 H2] [H3 H4]]. destruct (typed_agree K M g l U _ _ A Hl) as [L1 L2]. destruct (typed_agree K M g r U _ _ A Hr) as [R1 R2].
  rewrite (ptype_agree K M g U _ _ A P) in *. split; split; auto; congruence.
Qed.
Lemma related_local g U l r neg : typed g [] l U -> typed g [] r U -> local g (fun rho => related neg (ev M rho l) (ev M rho r)).
Proof. intros Hl Hr rho rho' A. rewrite (proj2 (typed_agree K M g l U _ _ A Hl)), (proj2 (typed_agree K M g r U _ _ A Hr)). auto. Qed.
Lemma equates_sym g g' U l r neg cs : equates g g' U r l neg cs -> equates g g' U l r neg cs.
Proof. apply says_weaken; unfold sides, related; intros rho _ [? ?]; auto; destruct neg; auto. Qed.

(** ** single literals *)
Lemma claims_signed g t u neg : typed g [] u tbool -> same t u -> claims g g t neg (clauses_from_literal (from_signed_term u (negb neg))).
Proof.
  intros Tu Su. apply (says_literal K M kinds g _ _ (negb neg) u ttrue tbool); auto; [apply (ty_sym K g [] STrue); auto|].
  intros rho _ [W B]. destruct (Su M rho W) as [Wu Eu]. split; [split; auto; change (isb M (ev M rho u)); rewrite Eu; auto|].
  split; [split; [exact I|apply isb_true]|]. rewrite Eu. change (ev M rho ttrue) with (tv M true). pose proof (bool_diff M).
  destruct (isb_tv M _ B) as [E|E]; rewrite E; destruct neg; simpl; intuition congruence.
Qed.
Lemma inline_value g l a s : typed g [] l tbool -> inline l = Some (a, s) -> typed g [] a tbool /\
  forall rho, boolean l rho -> boolean a rho /\ ev M rho l = if s then ev M rho a else bnot M (ev M rho a).
Proof.
  intros Tl E. unfold inline in E. pose proof (inline_ok K _ _ _ _ _ _ Tl E) as A1. split; [destruct s; tauto|]. intros rho [Wl Bl].
  destruct s; [destruct A1 as [_ A1]; destruct (A1 M rho Wl) as [Wa Ea]; split; [split; [auto|rewrite Ea; auto]|auto]|].
  destruct A1 as (_ & _ & A1). destruct (A1 M rho Wl) as (Wa & Ba & Ea). split; [split; auto|auto].
Qed.
Lemma claims_inline g l r a b s s' neg : typed g [] l tbool -> typed g [] r tbool -> inline l = Some (a, s) -> inline r = Some (b, s') ->
  equates g g tbool l r neg (clauses_from_literal (lit_new (xorb (eqb s s') neg) a b)).
Proof.
  intros Tl Tr E1 E2. destruct (inline_value g l a s Tl E1) as [Ta Va]. destruct (inline_value g r b s' Tr E2) as [Tb Vb].
  apply (says_literal K M kinds g _ _ _ a b tbool); auto. intros rho _ [Hl Hr]. unfold related.
  destruct (Va rho Hl) as [Ba Ea]. destruct (Vb rho Hr) as [Bb Eb]. split; [exact Ba|]. split; [exact Bb|]. rewrite Ea, Eb.
  pose proof (bnot_tv M true) as N1. pose proof (bnot_tv M false) as N2. pose proof (bool_diff M) as DD. simpl in *.
  destruct (isb_tv M _ (proj2 Ba)) as [Xa|Xa], (isb_tv M _ (proj2 Bb)) as [Xb|Xb]; rewrite Xa, Xb;
  destruct s, s', neg; simpl; rewrite ?N1, ?N2; split; intros Y; try congruence; auto.
Qed.
Lemma claims_new g U l r a b neg : typed g [] a U -> typed g [] b U -> same l a -> same r b ->
  equates g g U l r neg (clauses_from_literal (lit_new (negb neg) a b)).
Proof.
  intros Ta Tb Sa Sb. apply (says_literal K M kinds g _ _ _ a b U); auto. intros rho _ [[W1 M1] [W2 M2]]. unfold related.
  destruct (Sa M rho W1) as [Wa Ea]. destruct (Sb M rho W2) as [Wb Eb]. split; [split; auto; rewrite Ea; auto|]. split; [split; auto; rewrite Eb; auto|].
  rewrite Ea, Eb. destruct neg; simpl; tauto.
Qed.
(** both sides converted *)
Lemma converted n g c l r U l' r' c1 c2 : good g c -> typed g [] l U -> typed g [] r U -> to_ext K n c l = Some (l', c1) -> to_ext K n c1 r = Some (r', c2) ->
  more K g c c2 /\ gctx g c2 /\ ext_ok K g c2 l U l' /\ ext_ok K g c2 r U r'.
Proof.
  intros Gd Hl Hr E1 E2. pose proof (good_ctx _ _ _ _ Gd) as G.
  destruct (to_ext_ok K _ _ _ _ _ _ E1 G) as [M1 [C1 _]]; [left; eauto|]. assert (G1 : gctx g c1) by (eapply more_ctx; eauto).
  destruct (to_ext_ok K _ _ _ _ _ _ E2 G1) as [M2 [C2 _]]; [left; eauto|]. assert (G2 : gctx g c2) by (eapply more_ctx; eauto).
  split; [eapply more_trans; eauto|]. split; auto. split; auto. eapply ext_ok_more; eauto.
Qed.
Lemma both_terms l r neg cs : eq_to_clause_set l r neg = Some cs -> (forall p x y, l <> EIf p x y) -> (forall p x y, r <> EIf p x y) ->
  exists a b, l = ETerm a /\ r = ETerm b /\ (cs = clauses_from_literal (lit_new (negb neg) a b)).
Proof.
  intros E N1 N2. destruct l as [a|p x y|vs x], r as [b|p' x' y'|vs' x']; simpl in E; try discriminate; try (exfalso; eapply N1; reflexivity); try (exfalso; eapply N2; reflexivity).
  injection E as <-. eauto.
Qed.
Lemma ext_ok_no_if g c t T e : ext_ok K g c t T e -> forall p x y, e <> EIf p x y.
Proof. intros H p x y ->. exact H. Qed.

(** ** equations of functions *)
Lemma with_values_new g c As rho ds : gctx g c -> Forall (fun A => ptype g A = true) As -> Forall2 (fun d A => mem M d (ev M rho A)) ds As ->
  new_ok M g (gext g c As) (with_values M rho (length c) ds).
Proof.
  intros G PA F i T Hi HT. pose proof (with_values_agree M g c rho ds G) as AG. unfold gext in HT. destruct (Nat.ltb_spec i (length c)) as [L|L]; [congruence|].
  assert (PT : ptype g T = true) by (rewrite Forall_forall in PA; apply PA; eapply nth_error_In; eauto).
  rewrite <- (ptype_agree K M g T _ _ AG PT). unfold with_values. destruct (Nat.ltb_spec i (length c)); [lia|].
  clear - F HT. revert ds F HT. generalize (i - length c). intros j. generalize (rho i). intros d0 ds F. revert j. induction F; intros [|j] HT; simpl in *; try discriminate.
  - injection HT as <-. auto.
  - auto.
Qed.
Lemma claims_functions g c c1 As V U l r cs g2 c2 : good g c -> gctx g c1 -> more K g c c1 -> U = arrows As V -> ptype g U = true -> typed g [] l U -> typed g [] r U ->
  steps K (gext g c1 As) g2 (c1 ++ map Some As) c2 ->
  says (gext g c1 As) g2 (fun rho => has M rho (apply l (vars_of (seq (length c1) (length As)))) V /\ has M rho (apply r (vars_of (seq (length c1) (length As)))) V)
    (fun rho => ev M rho (apply l (vars_of (seq (length c1) (length As)))) = ev M rho (apply r (vars_of (seq (length c1) (length As))))) cs ->
  steps K g g2 c c2 /\ equates g g2 U l r false cs.
Proof.
  intros Gd G1 M1 -> PU Hl Hr S2 H. set (g' := gext g c1 As) in *. set (xs := vars_of _) in *.
  apply ptype_arrows in PU as PP. destruct PP as [PA PV]. pose proof (gext_steps K g c1 As G1 PA) as ST.
  assert (ST0 : steps K g g' c (c1 ++ map Some As)). { destruct ST as (X1 & X2 & X3 & X4). split; [eapply more_trans; eauto|]. split; auto. split; auto. intros i T H1 H2. destruct (X4 i T H1 H2). split; auto. apply more_len in M1. lia. }
  split; [eapply steps_trans; eauto|]. assert (LW : local g (sides (arrows As V) l r)) by (apply sides_local; auto).
  assert (HX : forall rho, sides (arrows As V) l r rho -> new_ok M g g' rho -> has M rho (apply l xs) V /\ has M rho (apply r xs) V).
  { intros rho [B1 B2] N. pose proof (gext_has K M g c1 As rho PA G1 N) as HX. split; eapply apply_has; eauto. }
  eapply says_all; [exact KK|exact Gd|exact ST0|exact S2|..|exact H].
  - intros rho _ W N. apply HX; auto.
  - intros rho _ W N E. cbn beta in E |- *. unfold related in E. rewrite !ev_apply, E. auto.
  - intros rho B W NP NE. cbn beta in NP. unfold related in NP. pose proof W as [[W1 W3] [W2 W4]].
    apply (differ K M rho g V As _ _ PU W3 W4 NP). intros (ds & F & ND). assert (LD : length ds = length As) by (eapply Forall2_len; eauto).
    pose proof (with_values_agree M g c1 rho ds G1) as AG. pose proof (with_values_new g c1 As rho ds G1 PA F) as N'. set (rho' := with_values M rho (length c1) ds) in *.
    apply NE. exists rho'. split; auto. split; [eapply LW; eauto|]. split; auto. rewrite !ev_apply. intros HH.
    unfold xs in HH. rewrite <- LD in HH. unfold rho' in HH at 1 3. rewrite !with_values_vars in HH. fold rho' in HH.
    rewrite <- (proj2 (typed_agree K M g l _ _ _ AG Hl)), <- (proj2 (typed_agree K M g r _ _ _ AG Hr)) in HH. contradiction.
Qed.

(** a pair of opposite literals about the same term is the truth of this term *)
Lemma opposite g g1 g2 g3 c c1 c2 c3 t lp ln a s : good g c -> steps K g g1 c c1 -> steps K g1 g2 c1 c2 -> steps K g2 g3 c2 c3 -> claims g g1 t false lp -> claims g1 g2 t true ln ->
  clauses_match_negated lp ln = Some (a, s) -> typed g3 [] a tbool /\
  forall rho, base rho -> boolean t rho -> new_ok M g g3 rho -> boolean a rho /\ ev M rho t = if s then ev M rho a else bnot M (ev M rho a).
Proof.
  intros Gd S1 S2 S3 (P1 & P2 & _) (N1 & N2 & _) E. unfold clauses_match_negated in E. 
  assert (SG : forall cs u p, clauses_as_signed_term cs = Some (u, p) -> exists x, cs = [[x]] /\ is_signed_term x = true /\ left x = u /\ positive x = p).
  { intros cs u p X. destruct cs as [|[|x [|]] [|]]; try discriminate. simpl in X. destruct (is_signed_term x) eqn:ES; [|discriminate]. injection X as <- <-. eauto. }
  destruct (clauses_as_signed_term lp) as [[u p]|] eqn:EP; [|discriminate]. destruct (clauses_as_signed_term ln) as [[u' p']|] eqn:EN; [|discriminate].
  apply SG in EP. destruct EP as (x & -> & Sx & Lx & Px). apply SG in EN. destruct EN as (y & -> & Sy & Ly & Py).
  unfold term_eqb in E. destruct (term_eq_dec u u') as [->|]; [|discriminate]. destruct (eqb p p') eqn:EE; [discriminate|]. injection E as <- <-.
  pose proof (steps_trans K _ _ _ _ _ _ S1 S2) as S02. pose proof S1 as (_ & _ & SB1 & _). pose proof S2 as (_ & _ & SB2 & _). pose proof S3 as (_ & _ & SB3 & _). pose proof S02 as (_ & _ & SB02 & _).
  pose proof (steps_trans K _ _ _ _ _ _ S2 S3) as S13. pose proof S13 as (_ & _ & SB13 & _).
  apply Forall_inv, Forall_inv in P1. destruct P1 as (T & T1 & T2). rewrite Lx in T1.
  assert (TT : right x = ttrue /\ T = tbool).
  { unfold is_signed_term, is_true in Sx. remember (right x) as rx eqn:Erx. clear - T2 Sx. remember (@nil term) as bs eqn:Eb.
    assert (X : rx = ttrue).
    { destruct rx as [[?|?|q]|f b|k A b]; simpl in Sx; try discriminate.
      - destruct q; try discriminate. reflexivity.
      - exfalso. assert (HT : head_atom (spine_head (TApp f b)) = Sym STrue) by (rewrite <- head_spine; simpl; destruct (head_atom f) as [| |[]]; try discriminate; auto).
        pose proof (typed_spine_sym K g1 bs _ _ STrue T2 eq_refl HT eq_refl) as HS. pose proof (spine (TApp f b)) as E. rewrite HS in E.
        assert (NE : args (TApp f b) <> []) by (apply is_app_args; reflexivity). destruct (args (TApp f b)) as [|z zs]; [congruence|]. rewrite E in T2.
        subst bs. change (apply (TSym STrue) (z :: zs)) with (apply (TApp (TSym STrue) z) zs) in T2.
        assert (exists F, typed g1 [] (TApp (TSym STrue) z) F) as [F HF]. { destruct (typed_apply_head K g1 _ _ _ T2) as [->|[Q|[Q|Q]]]; [eauto|discriminate|discriminate|auto]. }
        inversion HF; subst; match goal with [X : PolyTyped.typed _ _ _ (TSym STrue) _ |- _] => inversion X end.
      - exfalso. inversion T2; subst; match goal with [X : ptm K g1 0 A = true |- _] => destruct (head_atom_ptype K g1 A X) as [Y|[(m & i & Y)|(v & Y)]]; rewrite Y in Sx; discriminate end. }
    subst rx bs. split; auto. inversion T2; subst; reflexivity. }
  destruct TT as [Rx ->]. split; [eapply typed_sub; [|exact T1]; intros i U X; auto|].
  intros rho B Bt N.
  assert (Ni1 : new_ok M g g1 rho) by (eapply new_ok_left; [exact SB13|auto]).
  assert (Ni2 : new_ok M g1 g2 rho) by (eapply new_ok_right; [exact SB1|]; eapply new_ok_left; [exact SB3|auto]).
  destruct (P2 rho B Bt Ni1) as [X1 Y1]. destruct (N2 rho B Bt Ni2) as [X2 Y2].
  apply Forall_inv, Forall_inv in X1. destruct X1 as (T' & U1 & U2 & [U3 U4] & _). rewrite Lx in *. pose proof (typed_unique K _ _ _ _ _ U1 T1) as ->.
  apply Forall_inv, Forall_inv in X2. pose proof (has_wt K M _ _ _ X2) as [_ Wy]. assert (Ry : right y = ttrue) by (apply (is_true_eq M (anydom M) rho (nobs M)); auto; exact Sy).
  assert (HH : forall z, all_hold M rho [[z]] -> lit_holds M rho z). { intros z Hz. inversion Hz; subst. match goal with [X : cholds _ _ _ |- _] => destruct X as (? & [<-|[]] & X); exact X end. }
  split; [split; auto|]. unfold lit_holds in HH. pose proof (bool_diff M) as DD. pose proof (bnot_tv M true) as NT. pose proof (bnot_tv M false) as NF. simpl in NT, NF.
  change (mem M (ev M rho u') (ev M rho tbool)) with (isb M (ev M rho u')) in U4.
  destruct (isb_tv M _ (proj2 Bt)) as [E|E].
  - specialize (HH x (Y1 E)). rewrite Lx, Rx, Px in HH. change (ev M rho ttrue) with (tv M true) in HH. rewrite E. destruct (isb_tv M _ U4) as [Q|Q]; rewrite Q in *; destruct p; simpl in *; congruence.
  - specialize (HH y (Y2 E)). rewrite Ly, Ry, Py in HH. change (ev M rho ttrue) with (tv M true) in HH. rewrite E. destruct (isb_tv M _ U4) as [Q|Q]; rewrite Q in *; destruct p, p'; simpl in *; try discriminate; congruence.
Qed.

(** ** the three functions unfolded once *)
Lemma clause_set_S n c t neg : clause_set K ME (S n) c t neg =
    if is_quantifier t then Some (clauses_from_literal (from_signed_term t (negb neg)), c) else
    match split1 t SNot with Some x => clause_set K ME n c x (negb neg) | None =>
    match split2 t SAnd with
    | Some (a, b) =>
      do (l, c) <- clause_set K ME n c a neg; do (r, c) <- clause_set K ME n c b neg;
      Some (if neg then clauses_or l r else clauses_and l r, c)
    | None =>
    match split2 t SOr with
    | Some (a, b) =>
      if is_conjunction a || is_conjunction b
      then do (u, c) <- to_inline_term K n c t; Some (clauses_from_literal (from_signed_term u (negb neg)), c)
      else
        do (l, c) <- clause_set K ME n c a neg; do (r, c) <- clause_set K ME n c b neg;
        Some (if neg then clauses_and l r else clauses_or l r, c)
    | None =>
    match split3 t SEq with
    | Some (_, a, b) => eq_clause_set K ME n c a b neg
    | None =>
    match split4 t SIte with
    | Some (_, p, a, b) =>
      do (lp, c) <- clause_set K ME n c p false;
      do x <- clauses_to_literal lp;
      do (la, c) <- clause_set K ME n c a neg; do (lb, c) <- clause_set K ME n c b neg;
      Some (clause_set_if x la lb, c)
    | None =>
      if is_app t && is_quantified (spine_head t)
      then clause_set K ME n c (instantiate_prefix (spine_head t) (args t)) neg
      else if term_eqb t ttrue then Some (if neg then clauses_false else clauses_true, c)
      else if term_eqb t tfalse then Some (if neg then clauses_true else clauses_false, c)
      else do (u, c) <- to_inline_term K n c t; Some (clauses_from_literal (from_signed_term u (negb neg)), c)
    end end end end end.
Proof. reflexivity. Qed.
Lemma apply_clause_set_S n c f l neg : apply_clause_set K ME (S n) c f l neg =
    if is_quantified f then
      do ts <- map_opt (ext_to_term K c) l;
      clause_set K ME n c (instantiate_prefix f ts) neg
    else
      do (e, c) <- app_to_ext K (to_ext K n) c f l;
      match e with
      | ETerm u => Some (clauses_from_literal (from_signed_term u (negb neg)), c)
      | _ => None
      end.
Proof. reflexivity. Qed.
Lemma eq_clause_set_S n c l r neg : eq_clause_set K ME (S n) c l r neg =
    let cases (other : term) (m : list term * term * list (symbol * term)) :=
      let '(targs, scrut, cs) := m in
      let dargs := firstn (length targs - 1) targs in
      do (parts, c) <- map_state (fun c '(ctor, case) =>
        do (pattern, value, c) <- match_case K c ctor dargs case;
        do (condition, c) <- eq_clause_set K ME n c scrut pattern false;
        do (conclusion, c) <- eq_clause_set K ME n c other value neg;
        Some (clauses_or (negate_clauses condition) conclusion, c)) c cs;
      Some (clauses_and_all parts, c) in
    match split_match K ME r, split_match K ME l with
    | Some m, _ => cases l m
    | None, Some m => cases r m
    | None, None =>
      do T <- get_type K c l;
      match pi_inputs T with
      | [] =>
        if term_eqb T tbool then
          match inline l, inline r with
          | Some (a, s), Some (b, s') =>
            Some (clauses_from_literal (lit_new (xorb (eqb s s') neg) a b), c)
          | _, _ =>
            if neg then
              do (l1, c) <- clause_set K ME n c l true; do (r1, c) <- clause_set K ME n c r true;
              do (l2, c) <- clause_set K ME n c l false; do (r2, c) <- clause_set K ME n c r false;
              Some (clauses_and (clauses_or l1 r1) (clauses_or l2 r2), c)
            else
              do (l1, c) <- clause_set K ME n c l true; do (r1, c) <- clause_set K ME n c r false;
              do (l2, c) <- clause_set K ME n c l false; do (r2, c) <- clause_set K ME n c r true;
              Some (clauses_and (clauses_or l1 r1) (clauses_or l2 r2), c)
          end
        else
          do (l', c) <- to_ext K n c l; do (r', c) <- to_ext K n c r;
          do s <- eq_to_clause_set l' r' neg; Some (s, c)
      | _ =>
        if neg then
          do (l', c) <- to_ext K n c l; do (r', c) <- to_ext K n c r;
          do a <- ext_to_term K c l'; do b <- ext_to_term K c r';
          Some (clauses_from_literal (lit_new false a b), c)
        else if term_eqb (pi_output T) tbool then
          let '(xs, c) := fresh_vars c (pi_inputs T) in
          let xs := map ETerm xs in
          do (lp, c) <- apply_clause_set K ME n c l xs false;
          do (ln, c) <- apply_clause_set K ME n c l xs true;
          do (rp, c) <- apply_clause_set K ME n c r xs false;
          do (rn, c) <- apply_clause_set K ME n c r xs true;
          match clauses_match_negated lp ln, clauses_match_negated rp rn with
          | Some (a, s), Some (b, s') => Some (clauses_from_literal (lit_new (eqb s s') a b), c)
          | _, _ => Some (clauses_and (clauses_or ln rp) (clauses_or lp rn), c)
          end
        else
          do (l', c) <- to_ext K n c l; do (r', c) <- to_ext K n c r;
          let '(xs, c) := fresh_vars c (pi_inputs T) in
          do s <- eq_to_clause_set (ext_apply l' xs) (ext_apply r' xs) false; Some (s, c)
      end
    end.
Proof. reflexivity. Qed.

(** ** the statements proved by induction on the fuel *)
Definition CS n : Prop := forall g c t neg cs c', clause_set K ME n c t neg = Some (cs, c') -> good g c -> typed g [] t tbool -> tidy t = true ->
  exists g', steps K g g' c c' /\ (plain t = true -> g' = g) /\ claims g g' t neg cs.
Definition AS n : Prop := forall g c f As ids neg cs c', apply_clause_set K ME n c f (map ETerm (vars_of ids)) neg = Some (cs, c') -> good g c ->
  typed g [] f (arrows As tbool) -> ptype g (arrows As tbool) = true -> Forall2 (typed g []) (vars_of ids) As -> tidy f = true ->
  exists g', steps K g g' c c' /\ claims g g' (apply f (vars_of ids)) neg cs.
Definition ES n : Prop := forall g c l r U neg cs c', eq_clause_set K ME n c l r neg = Some (cs, c') -> good g c -> ptype g U = true ->
  typed g [] l U -> typed g [] r U -> tidy l = true -> tidy r = true ->
  exists g', steps K g g' c c' /\ (plain l = true -> plain r = true -> pi_inputs U = [] -> g' = g) /\ equates g g' U l r neg cs.

Lemma direct_ok n g c l r U neg cs c' : eq_clause_set K ME n c l r neg = Some (cs, c') -> good g c -> typed g [] l U -> typed g [] r U ->
  pi_inputs U = [] -> U <> tbool -> split_match K ME l = None -> split_match K ME r = None -> more K g c c' /\ equates g g U l r neg cs.
Proof.
  intros E Gd Hl Hr PI NB S1 S2. destruct n as [|n]; [discriminate|]. rewrite eq_clause_set_S in E. cbv zeta in E. rewrite S1, S2 in E. rewrite (typed_type K g c l U) in E by (auto; eapply good_ctx; eauto).
  cbn [obind] in E. rewrite PI in E. unfold term_eqb in E. destruct (term_eq_dec U tbool) as [|_]; [congruence|].
  destruct (to_ext K n c l) as [[l' c1]|] eqn:E1; [|discriminate]. cbn [obind] in E. destruct (to_ext K n c1 r) as [[r' c2]|] eqn:E2; [|discriminate]. cbn [obind] in E.
  destruct (converted n g c l r U l' r' c1 c2 Gd Hl Hr E1 E2) as (Mo & G2 & X1 & X2). destruct (eq_to_clause_set l' r' neg) as [s|] eqn:E3; [|discriminate]. injection E as <- <-.
  split; auto. destruct (both_terms _ _ _ _ E3 (ext_ok_no_if _ _ _ _ _ X1) (ext_ok_no_if _ _ _ _ _ X2)) as (a & b & -> & -> & ->). destruct X1, X2. apply claims_new; auto.
Qed.

(** ** one case of a match *)
Lemma inputs_arrows l B : pi_inputs (arrows l B) = l ++ pi_inputs B.
Proof. induction l as [|A l IH]; [reflexivity|]. cbn [arrows tarrow pi_inputs app]. rewrite IH. reflexivity. Qed.
Lemma pattern_no_match ctor l : ME ctor = None -> split_match K ME (apply (TSym ctor) l) = None.
Proof.
  intros E. unfold split_match. destruct (is_app _); auto. assert (X : spine_head (apply (TSym ctor) l) = TSym ctor).
  { assert (X : forall l f, spine_head (apply f l) = spine_head f) by (intros l0; induction l0 as [|a l0 IH]; intros f; [reflexivity|]; exact (IH (TApp f a))). apply X. }
  rewrite X. simpl. rewrite E. reflexivity.
Qed.
Lemma negate_has g rho x : lit_has K M g rho x -> lit_has K M g rho (negate x). Proof. intros H. exact H. Qed.
Lemma says_negate g U l r cs : equates g g U l r false cs -> equates g g U l r true (negate_clauses cs).
Proof.
  intros H. apply says_same in H. destruct H as [H1 H2]. apply says_exact; [apply set_negate; auto|]. intros rho B W. destruct (H2 rho B W) as [X Y]; [apply val_dec|].
  split; [apply set_negate; auto; intros; apply negate_has; auto|]. rewrite hold_negate by (eapply set_wt; eauto). rewrite Y. simpl. tauto.
Qed.
Lemma related_dec neg x y : ~ related neg x y -> (if neg then x = y else x <> y).
Proof. unfold related. destruct neg; auto. destruct (val_dec M x y); tauto. Qed.
Definition case_holds (scrut other : term) (As : list term) (neg : bool) (ctor : symbol) (Fs : list term) (case : term) (rho : env) : Prop :=
  forall ds, Forall2 (fun d A => mem M d (ev M rho A)) ds Fs -> ev M rho scrut = dapps M (ev M rho (apply (TSym ctor) As)) ds ->
  related neg (ev M rho other) (dapps M (ev M rho case) ds).

Lemma case_ok n : ES n -> forall g c scrut Da other U ctor As Fs case neg (W : env -> Prop) pattern value c1 condition c2 conclusion c3,
  good g c -> ptype g U = true -> typed g [] scrut Da -> typed g [] other U -> typed g [] case (arrows Fs U) -> typed g [] (apply (TSym ctor) As) (arrows Fs Da) ->
  ptype g Da = true -> pi_inputs Da = [] -> Da <> tbool -> Forall (fun F => ptype g F = true) Fs ->
  value_symbol ctor = true -> ME ctor = None -> length As <= count_type_params (symbol_type K ctor) -> instance (symbol_type K ctor) As = arrows Fs Da ->
  split_match K ME scrut = None -> tidy other = true -> tidy case = true ->
  match_case K c ctor As case = Some (pattern, value, c1) -> eq_clause_set K ME n c1 scrut pattern false = Some (condition, c2) ->
  eq_clause_set K ME n c2 other value neg = Some (conclusion, c3) -> local g W ->
  (forall rho, base rho -> W rho -> has M rho scrut Da /\ has M rho other U /\ has M rho (apply (TSym ctor) As) (arrows Fs Da) /\ has M rho case (arrows Fs U)) ->
  exists g', steps K g g' c c3 /\ says g g' W (case_holds scrut other As neg ctor Fs case) (clauses_or (negate_clauses condition) conclusion).
Proof.
  intros IH g c scrut Da other U ctor As Fs case neg W pattern value c1 condition c2 conclusion c3 Gd PU Ts To Tc Tp PD ID ND PF VC MC LC IC SM Yo Yc EM EC1 EC2 LW HW.
  pose proof (good_ctx _ _ _ _ Gd) as G. unfold match_case in EM. rewrite (apply_type_args_instance _ _ LC), IC in EM. cbn [obind] in EM.
  destruct (field_vars _ c (arrows Fs Da)) as [[xs0 c0]|] eqn:EF; [|discriminate]. cbn [obind] in EM. injection EM as <- <- <-.
  assert (PFD : ptype g (arrows Fs Da) = true) by (apply ptype_arrows; auto). assert (PFU : ptype g (arrows Fs U) = true) by (apply ptype_arrows; auto).
  apply (field_vars_ok K g) in EF; auto. rewrite inputs_arrows, ID, app_nil_r, fresh_vars_eq in EF. injection EF as -> ->.
  set (ids := seq (length c) (length Fs)) in *. set (g1 := gext g c Fs). pose proof (gext_steps K g c Fs G PF) as ST. fold g1 in ST. pose proof ST as (_ & _ & SB & _).
  pose proof (gext_vars K g c Fs PF G) as TX. fold g1 ids in TX.
  assert (Gd1 : good g1 (c ++ map Some Fs)) by (eapply good_steps; eauto).
  assert (TP : typed g1 [] (apply (TSym ctor) (As ++ vars_of ids)) Da). { rewrite apply_app. eapply typed_apply_arrows; [eapply typed_sub; eauto|eapply ptype_sub; eauto|auto]. }
  assert (Ts1 : typed g1 [] scrut Da) by (eapply typed_sub; eauto). assert (To1 : typed g1 [] other U) by (eapply typed_sub; eauto).
  assert (Tc1 : typed g1 [] case (arrows Fs U)) by (eapply typed_sub; eauto). assert (Tp1 : typed g1 [] (apply (TSym ctor) As) (arrows Fs Da)) by (eapply typed_sub; eauto).
  destruct (direct_ok _ _ _ _ _ _ _ _ _ EC1 Gd1 Ts1 TP ID ND SM (pattern_no_match _ _ MC)) as [Mo CL].
  assert (ST2 : steps K g1 g1 (c ++ map Some Fs) c2) by (apply good_refl; auto). assert (Gd2 : good g1 c2) by (eapply good_steps; eauto).
  assert (PD1 : ptype g1 Da = true) by (eapply ptype_sub; eauto). assert (PU1 : ptype g1 U = true) by (eapply ptype_sub; eauto). assert (PFU1 : ptype g1 (arrows Fs U) = true) by (eapply ptype_sub; eauto).
  destruct (instantiate_vars K ME g1 ids case Fs U Tc1 PFU1 TX Yc) as (TV & SV & YV). set (value := instantiate_prefix case (vars_of ids)) in *.
  destruct (IH _ _ _ _ _ _ _ _ EC2 Gd2 PU1 To1 TV Yo YV) as (g3 & ST3 & _ & CL3).
  set (pattern := apply (TSym ctor) (As ++ vars_of ids)) in *.
  exists g3. pose proof (steps_trans K _ _ _ _ _ _ ST2 ST3) as ST13. split; [eapply steps_trans; eauto|].
  assert (OR : says g1 g3 (fun rho => sides Da scrut pattern rho /\ sides U other value rho)
     (fun rho => related true (ev M rho scrut) (ev M rho pattern) \/ related neg (ev M rho other) (ev M rho value)) (clauses_or (negate_clauses condition) conclusion)).
  { eapply says_or with (W2 := sides U other value); [exact KK|exact Gd1|exact ST2|exact ST3|..|exact CL3].
    - intros rho rho' A [H1 H2]. split; [eapply (sides_local g1); eauto|eapply (sides_local g1 U); eauto].
    - eapply related_local; eauto.
    - intros rho _ [_ H] _. exact H.
    - eapply says_weaken; [..|apply says_negate; exact CL]; cbn beta; try tauto. }
  assert (HX : forall rho, base rho -> W rho -> new_ok M g g1 rho -> sides Da scrut pattern rho /\ sides U other value rho /\
     ev M rho pattern = dapps M (ev M rho (apply (TSym ctor) As)) (map (ev M rho) (vars_of ids)) /\ ev M rho value = dapps M (ev M rho case) (map (ev M rho) (vars_of ids))).
  { intros rho B W0 N. destruct (HW rho B W0) as (H1 & H2 & H3 & H4). pose proof (gext_has K M g c Fs rho PF G N) as HX. fold ids in HX.
    pose proof (apply_has K M rho g _ _ _ _ H3 PFD HX) as A1. pose proof (apply_has K M rho g _ _ _ _ H4 PFU HX) as [A2 A3]. rewrite <- apply_app in A1. fold pattern in A1.
    destruct (SV M rho A2) as [V1 V2]. fold value in V1, V2. split; [split; auto|split; [split; auto; split; auto; rewrite V2; auto|split]].
    - unfold pattern. rewrite apply_app. apply ev_apply.
    - rewrite V2. apply ev_apply. }
  eapply says_all; [exact KK|exact Gd|exact ST|exact ST13|..|exact OR].
  - intros rho B W0 N. destruct (HX rho B W0 N) as (H1 & H2 & _). auto.
  - intros rho B W0 N H. destruct (HX rho B W0 N) as (H1 & H2 & V1 & V2).
    destruct (val_dec M (ev M rho scrut) (ev M rho pattern)) as [E|E]; [right|left; auto]. rewrite V2. apply H.
    + pose proof (gext_has K M g c Fs rho PF G N) as HX'. fold ids in HX'. clear - HX'. induction HX' as [|x F xs Fs [_ H] _ IH]; constructor; auto.
    + rewrite E. exact V1.
  - intros rho B W0 NP NE. apply NP. intros ds FD ED.
    assert (RD : related neg (ev M rho other) (dapps M (ev M rho case) ds) \/ ~ related neg (ev M rho other) (dapps M (ev M rho case) ds))
      by (unfold related; destruct (val_dec M (ev M rho other) (dapps M (ev M rho case) ds)); destruct neg; tauto).
    destruct RD as [RD|RD]; [exact RD|exfalso]. apply NE. assert (LD : length ds = length Fs) by (eapply Forall2_len; eauto).
    pose proof (with_values_agree M g c rho ds G) as AG. pose proof (with_values_new g c Fs rho ds G PF FD) as N'. set (rho' := with_values M rho (length c) ds) in *.
    assert (B' : base rho') by (eapply base_agree; [exact KK|eapply agree_sub; [exact (good_sub _ _ _ _ Gd)|exact AG]|auto]).
    assert (W' : W rho') by (eapply LW; eauto). exists rho'. split; auto. split; auto. split; auto.
    destruct (HX rho' B' W' N') as (H1 & H2 & V1 & V2). assert (MV : map (ev M rho') (vars_of ids) = ds) by (unfold ids; rewrite <- LD; apply with_values_vars).
    rewrite MV in V1, V2. rewrite <- (proj2 (typed_agree K M g _ _ _ _ AG Tp)) in V1. rewrite <- (proj2 (typed_agree K M g _ _ _ _ AG Tc)) in V2.
    rewrite V1, V2. rewrite <- (proj2 (typed_agree K M g _ _ _ _ AG Ts)), <- (proj2 (typed_agree K M g _ _ _ _ AG To)). unfold related at 1. tauto.
Qed.

(** ** all cases *)
Lemma fold_and_app l : forall a b, fold_left clauses_and l (clauses_and a b) = clauses_and a (fold_left clauses_and l b).
Proof. induction l as [|x l IH]; intros a b; [reflexivity|]. cbn [fold_left]. rewrite <- IH. f_equal. unfold clauses_and. symmetry. apply app_assoc. Qed.
Lemma and_all_cons p ps : clauses_and_all (p :: ps) = clauses_and p (clauses_and_all ps).
Proof. unfold clauses_and_all. cbn [fold_left]. rewrite <- fold_and_app. f_equal. unfold clauses_and, clauses_true. rewrite app_nil_r. reflexivity. Qed.

Lemma cases_ok n : ES n -> forall scrut Da other U As neg (W : env -> Prop) ctors fss cases g c parts c',
  good g c -> ptype g U = true -> typed g [] scrut Da -> typed g [] other U -> ptype g Da = true -> pi_inputs Da = [] -> Da <> tbool ->
  split_match K ME scrut = None -> tidy other = true -> Forall (Forall (fun F => ptype g F = true)) fss ->
  Forall2 (fun ctor Fs => value_symbol ctor = true /\ ME ctor = None /\ length As <= count_type_params (symbol_type K ctor) /\ instance (symbol_type K ctor) As = arrows Fs Da) ctors fss ->
  Forall2 (fun case Fs => typed g [] case (arrows Fs U)) cases fss -> Forall (fun x => tidy x = true) cases ->
  Forall2 (fun ctor Fs => typed g [] (apply (TSym ctor) As) (arrows Fs Da)) ctors fss ->
  map_state (fun c '(ctor, case) =>
        obind (match_case K c ctor As case) (fun '(pattern, value, c) =>
        obind (eq_clause_set K ME n c scrut pattern false) (fun '(condition, c) =>
        obind (eq_clause_set K ME n c other value neg) (fun '(conclusion, c) =>
        Some (clauses_or (negate_clauses condition) conclusion, c))))) c (combine ctors cases) = Some (parts, c') ->
  local g W ->
  (forall rho, base rho -> W rho -> has M rho scrut Da /\ has M rho other U /\ Forall2 (fun case Fs => has M rho case (arrows Fs U)) cases fss /\
    Forall2 (fun ctor Fs => has M rho (apply (TSym ctor) As) (arrows Fs Da)) ctors fss) ->
  exists g', steps K g g' c c' /\ says g g' W (fun rho => forall j ctor Fs case, nth_error ctors j = Some ctor -> nth_error fss j = Some Fs -> nth_error cases j = Some case ->
    case_holds scrut other As neg ctor Fs case rho) (clauses_and_all parts).
Proof.
  intros IH scrut Da other U As neg W ctors. induction ctors as [|ctor ctors IHc]; intros fss cases g c parts c' Gd PU Ts To PD ID ND SM Yo PF FC FT FY FP E LW HW.
  - cbn in E. injection E as <- <-. exists g. split; [apply good_refl; auto; apply more_refl|]. apply says_exact; [constructor|]. intros rho _ _. split; [constructor|].
    split; [intros _ [|j] ctor Fs case X; discriminate X|constructor].
  - inversion FC as [|? Fs ? fss' (V1 & V2 & V3 & V4) FC' EQ1 EQ2]; subst. inversion FT as [|case ? cases' ? Tc FT' EQ3 EQ4]; subst.
    inversion FP as [|? ? ? ? Tp FP' EQ5 EQ6]; subst. inversion PF as [|? ? PF1 PF2]; subst. inversion FY as [|? ? Yc FY']; subst.
    cbn [combine map_state] in E. destruct (match_case K c ctor As case) as [[[pattern value] c1]|] eqn:E1; [|discriminate]. cbn [obind] in E.
    destruct (eq_clause_set K ME n c1 scrut pattern false) as [[condition c2]|] eqn:E2; [|discriminate]. cbn [obind] in E.
    destruct (eq_clause_set K ME n c2 other value neg) as [[conclusion c3]|] eqn:E3; [|discriminate]. cbn [obind] in E.
    match type of E with match ?m with _ => _ end = _ => destruct m as [[ps c4]|] eqn:E4; [|discriminate] | obind ?m _ = _ => destruct m as [[ps c4]|] eqn:E4; [|discriminate] end. cbn [obind] in E. injection E as <- <-.
    destruct (case_ok n IH g c scrut Da other U ctor As Fs case neg W pattern value c1 condition c2 conclusion c3) as (g1 & S1 & Y1); auto.
    { intros rho B W0. destruct (HW rho B W0) as (H1 & H2 & H3 & H4). inversion H3; subst. inversion H4; subst. auto. }
    pose proof S1 as (_ & _ & SB & _). assert (Gd1 : good g1 c3) by (eapply good_steps; eauto).
    destruct (IHc fss' cases' g1 c3 ps c4) as (g2 & S2 & Y2); auto.
    + eapply ptype_sub; eauto.
    + eapply typed_sub; eauto.
    + eapply typed_sub; eauto.
    + eapply ptype_sub; eauto.
    + eapply Forall_impl; [|exact PF2]. intros l Hl. eapply Forall_impl; [|exact Hl]. intros F HF. eapply ptype_sub; eauto.
    + eapply Forall2_impl; [|exact FT']. intros x y H. eapply typed_sub; eauto.
    + eapply Forall2_impl; [|exact FP']. intros x y H. eapply typed_sub; eauto.
    + eapply local_sub; eauto.
    + intros rho B W0. destruct (HW rho B W0) as (H1 & H2 & H3 & H4). inversion H3; subst. inversion H4; subst. auto.
    + exists g2. split; [eapply steps_trans; eauto|]. rewrite and_all_cons.
      assert (LP : forall ctor Fs case, typed g [] (apply (TSym ctor) As) (arrows Fs Da) -> typed g [] case (arrows Fs U) -> Forall (fun F => ptype g F = true) Fs ->
        local g (case_holds scrut other As neg ctor Fs case)).
      { clear - Ts To. intros ctor Fs case H1 H2 H3 rho rho' A H ds FD ED.
        rewrite <- (proj2 (typed_agree K M g _ _ _ _ A To)), <- (proj2 (typed_agree K M g _ _ _ _ A H2)). apply H.
        - clear - FD H3 A. induction FD; constructor; inversion H3; subst; auto. rewrite (ptype_agree K M g _ _ _ A); auto.
        - rewrite (proj2 (typed_agree K M g _ _ _ _ A Ts)), (proj2 (typed_agree K M g _ _ _ _ A H1)). auto. }
      eapply says_weaken; [..|eapply says_both; [eapply says_up; [exact KK|exact AI|exact Gd|exact S1|exact S2|exact Y1]|eapply says_down; [exact KK|exact AI|exact Gd|exact S1|exact S2|exact LW| |exact Y2]]]; cbn beta.
      * auto.
      * intros rho _ _ H. split; [apply (H 0 ctor Fs case); reflexivity|]. intros j ct F ca X1 X2 X3. apply (H (S j)); auto.
      * intros rho _ _ [HA HB] [|j] ct F ca X1 X2 X3; cbn in X1, X2, X3; [|eapply HB; eauto]. injection X1 as <-. injection X2 as <-. injection X3 as <-. auto.
      * intros rho rho' A H j ct F ca X1 X2 X3. eapply LP; [| | |exact A|eapply H; eauto].
        -- clear - FP' X1 X2. revert j X1 X2. induction FP'; intros [|j] X1 X2; try discriminate; [injection X1 as <-; injection X2 as <-; auto|eauto].
        -- clear - FT' X3 X2. revert j X3 X2. induction FT'; intros [|j] X1 X2; try discriminate; [injection X1 as <-; injection X2 as <-; auto|eauto].
        -- rewrite Forall_forall in PF2. apply PF2. eapply nth_error_In; eauto.
Qed.

Lemma match_ok n : ES n -> forall g c other t U targs scrut cs parts c' neg, good g c -> ptype g U = true -> typed g [] other U -> typed g [] t U ->
  tidy other = true -> tidy t = true -> split_match K ME t = Some (targs, scrut, cs) ->
  map_state (fun c '(ctor, case) =>
        obind (match_case K c ctor (firstn (length targs - 1) targs) case) (fun '(pattern, value, c) =>
        obind (eq_clause_set K ME n c scrut pattern false) (fun '(condition, c) =>
        obind (eq_clause_set K ME n c other value neg) (fun '(conclusion, c) =>
        Some (clauses_or (negate_clauses condition) conclusion, c))))) c cs = Some (parts, c') ->
  exists g', steps K g g' c c' /\ equates g g' U other t neg (clauses_and_all parts).
Proof.
  intros IH g c other t U targs scrut cs parts c' neg Gd PU To Tt Yo Yt SM E.
  destruct (match_parts K ME MD _ _ _ _ _ _ Tt PU SM) as (s & ctors & cases & As & Da & fss & P).
  destruct (parts_tidy K ME _ _ _ _ _ _ _ _ _ _ _ _ P Yt) as (S1 & Y1 & Y2).
  pose proof P as [PM Pt Pa Pc Ps PAs PDa Pin Pnb Pfs Pinst Psc Pct Pca]. subst targs cs.
  replace (firstn (length (As ++ [U]) - 1) (As ++ [U])) with As in E by (rewrite app_length; cbn [length]; rewrite Nat.add_sub, firstn_app, Nat.sub_diag, firstn_all, firstn_O, app_nil_r; reflexivity).
  destruct (cases_ok n IH scrut Da other U As neg (sides U other t) ctors fss cases g c parts c') as (g' & St & Sy); auto.
  - eapply Forall2_impl; [|exact Pct]. cbn beta. tauto.
  - eapply Forall2_impl; [|exact Pct]. cbn beta. intros ctor Fs (V1 & V2 & V3 & V4 & V5 & V6). rewrite <- V6. apply typed_instance_intro; auto. apply (ty_sym K g [] ctor V1).
  - apply sides_local; auto.
  - intros rho _ [H1 [H2 H3]]. destruct (match_has K ME M SY g _ _ _ _ _ _ _ _ _ _ _ P PU rho H2) as (X1 & X2 & X3). auto.
  - exists g'. split; auto. eapply says_weaken; [..|exact Sy]; cbn beta; auto; intros rho _ [H1 [H2 H3]].
    + intros H. exact (proj1 (match_value K ME M SY EC g _ _ _ _ _ _ _ _ _ _ _ P PU rho (related neg (ev M rho other)) H2) H).
    + intros H. exact (proj2 (match_value K ME M SY EC g _ _ _ _ _ _ _ _ _ _ _ P PU rho (related neg (ev M rho other)) H2) H).
Qed.

(** ** the induction *)
Lemma add_spine_terms c l : forall s1, add_spine K c None s1 [] (map ETerm l) = Some (None, s1 ++ l, []).
Proof. induction l as [|x l IH]; intros s1; cbn [map add_spine]; [rewrite app_nil_r; reflexivity|]. rewrite IH, <- app_assoc. reflexivity. Qed.
Lemma map_opt_terms c l : map_opt (ext_to_term K c) (map ETerm l) = Some l.
Proof. induction l as [|x l IH]; [reflexivity|]. cbn [map map_opt ext_to_term obind]. rewrite IH. reflexivity. Qed.

Lemma apply_ok n : CS n -> AS (S n).
Proof.
  intros IH g c f As ids neg cs c' E Gd Tf PF FX Yf. rewrite apply_clause_set_S in E. destruct (is_quantified f) eqn:EQ.
  - rewrite map_opt_terms in E. cbn [obind] in E. destruct (instantiate_vars K ME g ids f As tbool Tf PF FX Yf) as (T1 & S1 & Y1).
    destruct (IH _ _ _ _ _ _ E Gd T1 Y1) as (g' & St & _ & C). exists g'. split; auto. eapply claims_same; eauto.
  - unfold app_to_ext in E. destruct (to_ext K n c f) as [[e c1]|] eqn:E1; [|discriminate]. cbn [obind] in E.
    assert (NL : is_lambda f = false) by (destruct f as [| |[] ? ?]; auto; discriminate). rewrite NL in E.
    destruct (to_ext_ok K _ _ _ _ _ _ E1 (good_ctx _ _ _ _ Gd)) as [M1 [C1 _]]; [left; eauto|]. specialize (C1 _ Tf).
    assert (HX : exists t, typed g [] t (arrows As tbool) /\ same f t /\ e <> EIf (Lit true ttrue ttrue) ttrue ttrue /\
       (match e with ETerm t => Some (None, [t], []) | EIf p a b => Some (Some p, [a], [b]) | ELam _ _ => do t <- ext_to_term K c1 e; Some (None, [t], []) end = Some (None, [t], []) \/
        match e with ETerm t => Some (None, [t], []) | EIf p a b => Some (Some p, [a], [b]) | ELam _ _ => do t <- ext_to_term K c1 e; Some (None, [t], []) end = @None (option literal * list term * list term))).
    { destruct e as [u|? ? ?|vs b]; [|destruct C1|].
      - destruct C1. exists u. split; auto. split; auto. split; [discriminate|auto].
      - destruct (ext_to_term K c1 (ELam vs b)) as [u|] eqn:EU; [|exists f; split; auto; split; [apply same_refl|split; [discriminate|auto]]].
        destruct (ext_to_term_ok K _ _ _ _ _ _ _ C1 EU). exists u. split; auto. split; auto. split; [discriminate|auto]. }
    destruct HX as (t & Tt & St & _ & [X|X]); rewrite X in E; cbn [obind] in E; [|discriminate]. rewrite add_spine_terms in E. cbn [obind app from_spine] in E. injection E as <- <-.
    exists g. split; [apply good_refl; auto|]. apply claims_signed; [eapply typed_apply_arrows; eauto|apply apply_same_head; auto].
Qed.

Lemma tidy_bin f a b : tidy (TApp (TApp f a) b) = true -> tidy a = true /\ tidy b = true.
Proof. intros H. apply tidy_app_inv in H. destruct H as (H1 & H2 & _). apply tidy_app_inv in H1. tauto. Qed.
Lemma plain_bin f a b : plain (TApp (TApp f a) b) = true -> plain a = true /\ plain b = true.
Proof. cbn [MatchSpec.plain]. rewrite !andb_true_iff. tauto. Qed.
Lemma plain_eq U a b : plain (teq U a b) = true -> plain a = true /\ plain b = true /\ pi_inputs U = [].
Proof.
  intros H. pose proof (plain_bin _ _ _ H). split; [tauto|]. split; [tauto|]. destruct U as [| |[] A B]; auto. exfalso.
  unfold teq in H. cbn [MatchSpec.plain] in H. rewrite ?andb_true_iff in H. cbn [negb] in H. repeat match goal with [X : _ /\ _ |- _] => destruct X end. discriminate.
Qed.

Lemma eq_ok n : CS n -> AS n -> ES n -> ES (S n).
Proof.
  intros IC IA IE g c l r U neg cs c' E Gd PU Tl Tr Yl Yr. pose proof (good_ctx _ _ _ _ Gd) as G. rewrite eq_clause_set_S in E. cbv zeta in E.
  destruct (split_match K ME r) as [[[targs scrut] cases]|] eqn:SR.
  { match type of E with obind ?m _ = _ => destruct m as [[parts c1]|] eqn:EM; [|discriminate] end. cbn [obind] in E. injection E as <- <-.
    destruct (match_ok n IE g c l r U _ _ _ _ _ _ Gd PU Tl Tr Yl Yr SR EM) as (g' & St & Q). exists g'. split; auto. split; auto.
    intros _ Pr. rewrite (plain_no_match K ME r Pr Yr) in SR. discriminate. }
  destruct (split_match K ME l) as [[[targs scrut] cases]|] eqn:SL.
  { match type of E with obind ?m _ = _ => destruct m as [[parts c1]|] eqn:EM; [|discriminate] end. cbn [obind] in E. injection E as <- <-.
    destruct (match_ok n IE g c r l U _ _ _ _ _ _ Gd PU Tr Tl Yr Yl SL EM) as (g' & St & Q). exists g'. split; auto. split; [|apply equates_sym; auto].
    intros Pl. rewrite (plain_no_match K ME l Pl Yl) in SL. discriminate. }
  rewrite (typed_type K g c l U) in E by auto. cbn [obind] in E. pose proof (arrows_pi U) as AU. destruct (pi_inputs U) as [|A0 As0] eqn:EP.
  - destruct (term_eqb U tbool) eqn:EB.
    + unfold term_eqb in EB. destruct (term_eq_dec U tbool) as [->|]; [|discriminate]. clear EB AU.
      assert (INL : (exists a s b s', inline l = Some (a, s) /\ inline r = Some (b, s') /\ Some (clauses_from_literal (lit_new (xorb (eqb s s') neg) a b), c) = Some (cs, c')) \/
        (if neg then
              do (l1, c) <- clause_set K ME n c l true; do (r1, c) <- clause_set K ME n c r true;
              do (l2, c) <- clause_set K ME n c l false; do (r2, c) <- clause_set K ME n c r false;
              Some (clauses_and (clauses_or l1 r1) (clauses_or l2 r2), c)
            else
              do (l1, c) <- clause_set K ME n c l true; do (r1, c) <- clause_set K ME n c r false;
              do (l2, c) <- clause_set K ME n c l false; do (r2, c) <- clause_set K ME n c r true;
              Some (clauses_and (clauses_or l1 r1) (clauses_or l2 r2), c)) = Some (cs, c')).
      { destruct (inline l) as [[a s]|]; [|right; exact E]. destruct (inline r) as [[b s']|]; [left; exists a, s, b, s'; auto|right; exact E]. }
      clear E. destruct INL as [(a & s & b & s' & I1 & I2 & E)|E].
      * injection E as <- <-. exists g. split; [apply good_refl; auto; apply more_refl|]. split; auto. apply claims_inline; auto.
      * assert (FOUR : exists y l1 c1 r1 c2 l2 c3 r2, clause_set K ME n c l true = Some (l1, c1) /\ clause_set K ME n c1 r y = Some (r1, c2) /\
          clause_set K ME n c2 l false = Some (l2, c3) /\ clause_set K ME n c3 r (negb y) = Some (r2, c') /\ cs = clauses_and (clauses_or l1 r1) (clauses_or l2 r2) /\ y = neg).
        { destruct neg; [exists true|exists false];
          (destruct (clause_set K ME n c l true) as [[l1 c1]|]; [|discriminate]; cbn [obind] in E;
           match type of E with obind ?m _ = _ => destruct m as [[r1 c2]|] eqn:E2; [|discriminate] end; cbn [obind] in E;
           match type of E with obind ?m _ = _ => destruct m as [[l2 c3]|] eqn:E3; [|discriminate] end; cbn [obind] in E;
           match type of E with obind ?m _ = _ => destruct m as [[r2 c4]|] eqn:E4; [|discriminate] end; cbn [obind] in E; injection E as <- <-;
           exists l1, c1, r1, c2, l2, c3, r2; auto 10). }
        clear E. destruct FOUR as (y & l1 & c1 & r1 & c2 & l2 & c3 & r2 & E1 & E2 & E3 & E4 & -> & ->).
        destruct (IC _ _ _ _ _ _ E1 Gd Tl Yl) as (g1 & S1 & P1 & C1). pose proof S1 as (_ & _ & B1 & _). pose proof (good_steps _ _ _ _ _ _ Gd S1) as Gd1.
        destruct (IC _ _ _ _ _ _ E2 Gd1 (typed_sub K _ _ _ _ _ B1 Tr) Yr) as (g2 & S2 & P2 & C2). pose proof (steps_trans K _ _ _ _ _ _ S1 S2) as S02. pose proof S02 as (_ & _ & B2 & _). pose proof (good_steps _ _ _ _ _ _ Gd S02) as Gd2.
        destruct (IC _ _ _ _ _ _ E3 Gd2 (typed_sub K _ _ _ _ _ B2 Tl) Yl) as (g3 & S3 & P3 & C3). pose proof (steps_trans K _ _ _ _ _ _ S02 S3) as S03. pose proof S03 as (_ & _ & B3 & _). pose proof (good_steps _ _ _ _ _ _ Gd S03) as Gd3.
        destruct (IC _ _ _ _ _ _ E4 Gd3 (typed_sub K _ _ _ _ _ B3 Tr) Yr) as (g4 & S4 & P4 & C4).
        exists g4. split; [eapply steps_trans; eauto|]. split; [intros Q1 Q2 _; rewrite (P4 Q2), (P3 Q1), (P2 Q2), (P1 Q1); auto|].
        eapply says_weaken; [..|exact (claims_equal K M kinds KK AI g g1 g2 g3 g4 c c1 c2 c3 c' l r true neg l1 r1 l2 r2 Gd S1 S2 S3 S4 Tl Tr C1 C2 C3 C4)]; cbn beta; intros rho _ [H1 H2]; unfold related; destruct neg; cbn [xorb negb]; auto; split; auto.
    + unfold term_eqb in EB. destruct (term_eq_dec U tbool) as [|NB]; [discriminate|]. clear EB.
      destruct (direct_ok (S n) g c l r U neg cs c') as [Mo Q]; auto.
      * rewrite eq_clause_set_S. cbv zeta. rewrite SR, SL, (typed_type K g c l U) by auto. cbn [obind]. rewrite EP. unfold term_eqb. destruct (term_eq_dec U tbool); [contradiction|exact E].
      * exists g. split; [apply good_refl; auto|]. auto.
  - destruct neg.
    { destruct (to_ext K n c l) as [[l' c1]|] eqn:E1; [|discriminate]. cbn [obind] in E. destruct (to_ext K n c1 r) as [[r' c2]|] eqn:E2; [|discriminate]. cbn [obind] in E.
      destruct (converted n g c l r U l' r' c1 c2 Gd Tl Tr E1 E2) as (Mo & G2 & X1 & X2). destruct (ext_to_term K c2 l') as [a|] eqn:E3; [|discriminate]. cbn [obind] in E.
      destruct (ext_to_term K c2 r') as [b|] eqn:E4; [|discriminate]. cbn [obind] in E. injection E as <- <-.
      destruct (ext_to_term_ok K _ _ _ _ _ _ _ X1 E3). destruct (ext_to_term_ok K _ _ _ _ _ _ _ X2 E4). exists g. split; [apply good_refl; auto|]. split; auto. apply (claims_new g U l r a b true); auto. }
    rewrite <- EP in E, AU. rewrite fresh_vars_eq in E. set (As := pi_inputs U) in *. set (V := pi_output U) in *. assert (NP : A0 :: As0 = [] -> False) by discriminate.
    pose proof PU as PU'. rewrite AU in PU'. apply ptype_arrows in PU' as PP. destruct PP as [PA PV].
    destruct (term_eqb V tbool) eqn:EB.
    + unfold term_eqb in EB. destruct (term_eq_dec V tbool) as [EV|]; [|discriminate]. clear EB. rewrite EV in *.
      pose proof (gext_steps K g c As G PA) as ST. set (gx := gext g c As) in *. set (cx := c ++ map Some As) in *. pose proof ST as (_ & _ & SB & _). pose proof (good_steps _ _ _ _ _ _ Gd ST) as Gx.
      set (ids := seq (length c) (length As)) in *. pose proof (gext_vars K g c As PA G) as TX. fold gx ids in TX.
      rewrite AU in Tl, Tr. pose proof (typed_sub K _ _ _ _ _ SB Tl) as Tl0. pose proof (typed_sub K _ _ _ _ _ SB Tr) as Tr0.
      assert (PX : ptype gx (arrows As tbool) = true) by (eapply ptype_sub; eauto).
      destruct (apply_clause_set K ME n cx l (map ETerm (vars_of ids)) false) as [[lp c1]|] eqn:E1; [|discriminate]. cbn [obind] in E.
      destruct (apply_clause_set K ME n c1 l (map ETerm (vars_of ids)) true) as [[ln c2]|] eqn:E2; [|discriminate]. cbn [obind] in E.
      destruct (apply_clause_set K ME n c2 r (map ETerm (vars_of ids)) false) as [[rp c3]|] eqn:E3; [|discriminate]. cbn [obind] in E.
      destruct (apply_clause_set K ME n c3 r (map ETerm (vars_of ids)) true) as [[rn c4]|] eqn:E4; [|discriminate]. cbn [obind] in E.
      assert (UP : forall g' c0, steps K gx g' cx c0 -> typed g' [] l (arrows As tbool) /\ typed g' [] r (arrows As tbool) /\ ptype g' (arrows As tbool) = true /\ Forall2 (typed g' []) (vars_of ids) As /\ good g' c0).
      { intros g' c0 S0. pose proof S0 as (_ & _ & B0 & _). split; [eapply typed_sub; eauto|]. split; [eapply typed_sub; eauto|]. split; [eapply ptype_sub; eauto|]. split; [|eapply good_steps; eauto].
        eapply Forall2_impl; [|exact TX]. intros x y H. eapply typed_sub; eauto. }
      destruct (IA _ _ _ _ _ _ _ _ E1 Gx Tl0 PX TX Yl) as (g1 & S1 & C1). destruct (UP _ _ S1) as (U1 & U2 & U3 & U4 & U5).
      destruct (IA _ _ _ _ _ _ _ _ E2 U5 U1 U3 U4 Yl) as (g2 & S2 & C2). pose proof (steps_trans K _ _ _ _ _ _ S1 S2) as S02. clear U1 U2 U3 U4 U5. destruct (UP _ _ S02) as (U1 & U2 & U3 & U4 & U5).
      destruct (IA _ _ _ _ _ _ _ _ E3 U5 U2 U3 U4 Yr) as (g3 & S3 & C3). pose proof (steps_trans K _ _ _ _ _ _ S02 S3) as S03. clear U1 U2 U3 U4. destruct (UP _ _ S03) as (U1 & U2 & U3 & U4 & U6).
      destruct (IA _ _ _ _ _ _ _ _ E4 U6 U2 U3 U4 Yr) as (g4 & S4 & C4). pose proof (steps_trans K _ _ _ _ _ _ S03 S4) as S04. pose proof (steps_trans K _ _ _ _ _ _ S3 S4) as S24.
      clear U1 U2 U3 U4 U6. set (a := apply l (vars_of ids)) in *. set (b := apply r (vars_of ids)) in *.
      assert (Ta : typed gx [] a tbool) by (eapply typed_apply_arrows; eauto). assert (Tb : typed gx [] b tbool) by (eapply typed_apply_arrows; eauto).
      assert (DONE : forall X g', steps K gx g' cx c4 -> says gx g' (fun rho => boolean a rho /\ boolean b rho) (fun rho => ev M rho a = ev M rho b) X ->
        exists g', steps K g g' c c4 /\ (plain l = true -> plain r = true -> A0 :: As0 = [] -> g' = g) /\ equates g g' U l r false X).
      { intros X g' SX HX. rewrite AU. destruct (claims_functions g c c As tbool (arrows As tbool) l r X g' c4 Gd G (more_refl K g c) eq_refl PU' Tl Tr SX HX) as [Q1 Q2].
        exists g'. split; auto. split; auto. intros _ _ Q. destruct (NP Q). }
      assert (PLAIN : Some (clauses_and (clauses_or ln rp) (clauses_or lp rn), c4) = Some (cs, c') -> exists g', steps K g g' c c' /\ (plain l = true -> plain r = true -> A0 :: As0 = [] -> g' = g) /\ equates g g' U l r false cs).
      { intros X. injection X as <- <-. apply (DONE _ g4 S04). apply (claims_equal_functions K M kinds KK AI gx g1 g2 g3 g4 cx c1 c2 c3 c4 a b lp ln rp rn); auto. }
      destruct (clauses_match_negated lp ln) as [[u s]|] eqn:N1; [|auto]. destruct (clauses_match_negated rp rn) as [[w s']|] eqn:N2; [|auto]. clear PLAIN. injection E as <- <-.
      apply (DONE _ g4 S04). destruct (opposite gx g1 g2 g4 cx c1 c2 c4 a lp ln u s Gx S1 S2 S24 C1 C2 N1) as [Tu Vu].
      assert (SR4 : steps K g4 g4 c4 c4) by (apply good_refl; [eapply good_steps; [exact Gx|exact S04]|apply more_refl]).
      destruct (opposite g2 g3 g4 g4 c2 c3 c4 c4 b rp rn w s' U5 S3 S4 SR4 C3 C4 N2) as [Tw Vw].
      assert (LIT : says g4 g4 (fun rho => (boolean a rho /\ boolean b rho) /\ new_ok M gx g4 rho) (fun rho => ev M rho a = ev M rho b) (clauses_from_literal (lit_new (eqb s s') u w))).
      { apply (says_literal K M kinds g4 _ _ _ u w tbool); auto. intros rho B [[Ba Bb] N]. destruct (Vu rho B Ba N) as [Bu Eu].
        destruct (Vw rho B Bb) as [Bw Ew]; [eapply new_ok_right; [|exact N]; apply S02|]. split; [exact Bu|]. split; [exact Bw|]. rewrite Eu, Ew.
        pose proof (bnot_tv M true) as NT. pose proof (bnot_tv M false) as NF. pose proof (bool_diff M) as DD. simpl in NT, NF, DD.
        destruct (isb_tv M _ (proj2 Bu)) as [Xa|Xa], (isb_tv M _ (proj2 Bw)) as [Xb|Xb]; rewrite Xa, Xb; destruct s, s'; simpl; rewrite ?NT, ?NF; split; intros Y; try congruence; auto. }
      eapply says_all; [exact KK|exact Gx|exact S04|exact SR4|..|exact LIT]; cbn beta.
      * auto.
      * auto.
      * intros rho B [Ba Bb] ND NE. destruct (fill K M kinds AI _ _ _ _ rho Gx S04 B) as (rho' & AG & N). apply NE. exists rho'. split; auto.
        split; [split; eapply (boolean_local K M gx); eauto|]. split; auto. rewrite <- (proj2 (typed_agree K M gx _ _ _ _ AG Ta)), <- (proj2 (typed_agree K M gx _ _ _ _ AG Tb)). auto.
    + destruct (to_ext K n c l) as [[l' c1]|] eqn:E1; [|discriminate]. cbn [obind] in E. destruct (to_ext K n c1 r) as [[r' c2]|] eqn:E2; [|discriminate]. cbn [obind] in E.
      destruct (converted n g c l r U l' r' c1 c2 Gd Tl Tr E1 E2) as (Mo & G2 & X1 & X2). rewrite fresh_vars_eq in E. fold As in E. set (xs := vars_of (seq (length c2) (length As))) in *.
      destruct (eq_to_clause_set (ext_apply l' xs) (ext_apply r' xs) false) as [s|] eqn:E3; [|discriminate]. cbn [obind] in E. injection E as <- <-.
      pose proof (gext_steps K g c2 As G2 PA) as ST. set (gx := gext g c2 As) in *. pose proof ST as (_ & _ & SB & _). pose proof (gext_vars K g c2 As PA G2) as TX. fold gx xs in TX.
      rewrite AU in X1, X2. pose proof (ext_ok_gext K g c2 As _ _ _ G2 PA X1) as Y1. pose proof (ext_ok_gext K g c2 As _ _ _ G2 PA X2) as Y2. fold gx in Y1, Y2.
      assert (PX : ptype gx (arrows As V) = true) by (eapply ptype_sub; eauto).
      pose proof (ext_apply_ok K _ _ _ _ _ _ _ Y1 PX TX) as Z1. pose proof (ext_apply_ok K _ _ _ _ _ _ _ Y2 PX TX) as Z2.
      destruct (both_terms _ _ _ _ E3 (ext_ok_no_if _ _ _ _ _ Z1) (ext_ok_no_if _ _ _ _ _ Z2)) as (a & b & Ea & Eb & ->). rewrite Ea in Z1. rewrite Eb in Z2. destruct Z1 as [T1 Q1], Z2 as [T2 Q2].
      assert (Gdx : good gx (c2 ++ map Some As)). { eapply good_steps; [|exact ST]. eapply good_steps; [exact Gd|]. apply good_refl; auto. }
      assert (SX : steps K gx gx (c2 ++ map Some As) (c2 ++ map Some As)) by (apply good_refl; auto; apply more_refl).
      destruct (claims_functions g c c2 As V U l r _ gx (c2 ++ map Some As) Gd G2 Mo AU PU Tl Tr SX (claims_new gx V _ _ a b false T1 T2 Q1 Q2)) as [R1 R2].
      exists gx. split; auto. split; auto. intros _ _ Q. destruct (NP Q).
Qed.

Lemma set_ok n : CS n -> ES n -> CS (S n).
Proof.
  intros IC IE g c t neg cs c' E Gd Tt Yt. pose proof (good_ctx _ _ _ _ Gd) as G. rewrite clause_set_S in E.
  assert (INLINE : forall u c1, to_inline_term K n c t = Some (u, c1) -> exists g', steps K g g' c c1 /\ (plain t = true -> g' = g) /\ claims g g' t neg (clauses_from_literal (from_signed_term u (negb neg)))).
  { intros u c1 H. destruct (to_inline_ok K _ _ _ _ _ _ _ H G Tt) as (Mo & Tu & Su). exists g. split; [apply good_refl; auto|]. split; auto. apply claims_signed; auto. }
  destruct (is_quantifier t) eqn:EQ.
  { injection E as <- <-. exists g. split; [apply good_refl; auto; apply more_refl|]. split; auto. apply claims_signed; auto. apply same_refl. }
  assert (SPL : forall s k l, split_symbol_application t s k = Some l -> is_value s = true -> t = apply (TSym s) l) by (intros s k l H V; destruct (split_typed K g [] t tbool s k l Tt H V); auto).
  destruct (split1 t SNot) as [x|] eqn:E1.
  { unfold split1 in E1. destruct (split_symbol_application t SNot 1) as [[|? [|? ?]]|] eqn:X; try discriminate. injection E1 as ->. apply SPL in X; auto. subst t.
    destruct (typed_not K g [] x tbool Tt) as [_ Tx]. apply tidy_app_inv in Yt. destruct Yt as (_ & Yx & _). destruct (IC _ _ _ _ _ _ E Gd Tx Yx) as (g' & S1 & P1 & C1).
    exists g'. split; auto. split; [intros P; apply P1; change (plain (TApp (TSym SNot) x) = true) in P; cbn [MatchSpec.plain] in P; rewrite !andb_true_iff in P; tauto|]. apply claims_not; auto. }
  assert (TWO : forall s, s = SAnd \/ s = SOr -> forall a b, split2 t s = Some (a, b) -> t = TApp (TApp (TSym s) a) b /\ typed g [] a tbool /\ typed g [] b tbool /\ tidy a = true /\ tidy b = true /\
    (plain t = true -> plain a = true /\ plain b = true)).
  { intros s Hs a b X. unfold split2 in X. destruct (split_symbol_application t s 2) as [[|? [|? [|? ?]]]|] eqn:X0; try discriminate. injection X as -> ->.
    apply SPL in X0; [|destruct Hs; subst; reflexivity]. change (t = TApp (TApp (TSym s) a) b) in X0. subst t. destruct (typed_bin K g [] s a b tbool Hs Tt) as (_ & T1 & T2). destruct (tidy_bin _ _ _ Yt).
    split; auto. split; auto. split; auto. split; auto. split; auto. apply plain_bin. }
  assert (BIN : forall s a b l c1 r c2, s = SAnd \/ s = SOr -> split2 t s = Some (a, b) -> clause_set K ME n c a neg = Some (l, c1) -> clause_set K ME n c1 b neg = Some (r, c2) ->
    exists g', steps K g g' c c2 /\ (plain t = true -> g' = g) /\ claims g g' t neg (if xorb (if symbol_eq_dec s SAnd then true else false) neg then clauses_and l r else clauses_or l r)).
  { intros s a b l c1 r c2 Hs X X1 X2. destruct (TWO s Hs a b X) as (-> & T1 & T2 & Y1 & Y2 & PP). destruct (IC _ _ _ _ _ _ X1 Gd T1 Y1) as (g1 & S1 & P1 & C1).
    pose proof S1 as (_ & _ & B1 & _). destruct (IC _ _ _ _ _ _ X2 (good_steps _ _ _ _ _ _ Gd S1) (typed_sub K _ _ _ _ _ B1 T2) Y2) as (g2 & S2 & P2 & C2).
    exists g2. split; [eapply steps_trans; eauto|]. split; [intros P; destruct (PP P) as [Q1 Q2]; rewrite (P2 Q2), (P1 Q1); auto|].
    eapply (claims_bin K M kinds KK AI g g1 g2 c c1 c2); auto. }
  destruct (split2 t SAnd) as [[a b]|] eqn:E2.
  { destruct (clause_set K ME n c a neg) as [[l c1]|] eqn:X1; [|discriminate]. cbn [obind] in E. destruct (clause_set K ME n c1 b neg) as [[r c2]|] eqn:X2; [|discriminate]. cbn [obind] in E. injection E as <- <-.
    specialize (BIN SAnd a b l c1 r c2 (or_introl eq_refl) E2 X1 X2). destruct (symbol_eq_dec SAnd SAnd); [|congruence]. destruct neg; exact BIN. }
  destruct (split2 t SOr) as [[a b]|] eqn:E3.
  { destruct (is_conjunction a || is_conjunction b).
    - destruct (to_inline_term K n c t) as [[u c1]|] eqn:X; [|discriminate]. cbn [obind] in E. injection E as <- <-. auto.
    - destruct (clause_set K ME n c a neg) as [[l c1]|] eqn:X1; [|discriminate]. cbn [obind] in E. destruct (clause_set K ME n c1 b neg) as [[r c2]|] eqn:X2; [|discriminate]. cbn [obind] in E. injection E as <- <-.
      specialize (BIN SOr a b l c1 r c2 (or_intror eq_refl) E3 X1 X2). destruct (symbol_eq_dec SOr SAnd); [congruence|]. destruct neg; exact BIN. }
  destruct (split3 t SEq) as [[[U a] b]|] eqn:E4.
  { unfold split3 in E4. destruct (split_symbol_application t SEq 3) as [[|? [|? [|? [|? ?]]]]|] eqn:X; try discriminate. injection E4 as -> -> ->. apply SPL in X; auto. change (t = teq U a b) in X. subst t.
    destruct (typed_eq K g [] U a b tbool Tt) as (_ & PU & T1 & T2). destruct (tidy_bin _ _ _ Yt) as [Y1 Y2]. destruct (IE _ _ _ _ _ _ _ _ E Gd PU T1 T2 Y1 Y2) as (g' & S1 & P1 & Q1).
    exists g'. split; auto. split; [intros P; apply plain_eq in P; apply P1; tauto|]. apply equates_claims; auto. }
  destruct (split4 t SIte) as [[[[U p] a] b]|] eqn:E5.
  { unfold split4 in E5. destruct (split_symbol_application t SIte 4) as [[|? [|? [|? [|? [|? ?]]]]]|] eqn:X; try discriminate. injection E5 as -> -> -> ->. apply SPL in X; auto. change (t = tite U p a b) in X. subst t.
    destruct (typed_ite K g [] U p a b tbool Tt) as (<- & PU & T0 & T1 & T2). destruct (tidy_bin _ _ _ Yt) as [Y1 Y2].
    assert (Y0 : tidy p = true /\ plain p = true).
    { apply tidy_app_inv in Yt. destruct Yt as (Yt & _ & _). apply tidy_app_inv in Yt. destruct Yt as (Yt & _ & _). split; [apply tidy_app_inv in Yt; tauto|].
      cbn [MatchSpec.tidy spine_head args app length Nat.eqb negb orb] in Yt. rewrite !andb_true_iff in Yt. tauto. }
    destruct Y0 as [Y0 P0].
    destruct (clause_set K ME n c p false) as [[lp c0]|] eqn:X0; [|discriminate]. cbn [obind] in E. destruct (clauses_to_literal lp) as [x|] eqn:XL; [|discriminate]. cbn [obind] in E.
    destruct (clause_set K ME n c0 a neg) as [[la c1]|] eqn:X1; [|discriminate]. cbn [obind] in E. destruct (clause_set K ME n c1 b neg) as [[lb c2]|] eqn:X2; [|discriminate]. cbn [obind] in E. injection E as <- <-.
    destruct (IC _ _ _ _ _ _ X0 Gd T0 Y0) as (g0 & S0 & PP0 & C0). specialize (PP0 P0). subst g0. pose proof (good_steps _ _ _ _ _ _ Gd S0) as Gd0.
    destruct (IC _ _ _ _ _ _ X1 Gd0 T1 Y1) as (g1 & S1 & P1 & C1). pose proof S1 as (_ & _ & B1 & _).
    destruct (IC _ _ _ _ _ _ X2 (good_steps _ _ _ _ _ _ Gd0 S1) (typed_sub K _ _ _ _ _ B1 T2) Y2) as (g2 & S2 & P2 & C2).
    exists g2. split; [eapply steps_trans; [exact S0|eapply steps_trans; eauto]|]. split.
    - intros P. destruct (plain_bin _ _ _ P) as [Q1 Q2]. rewrite (P2 Q2), (P1 Q1). auto.
    - eapply (claims_ite K M kinds KK AI g g1 g2 c0 c1 c2); eauto. }
  destruct (is_app t && is_quantified (spine_head t)) eqn:E6.
  { exfalso. apply andb_true_iff in E6. destruct E6 as [X1 X2]. destruct (tidy_head K ME t Yt X1) as [h Eh]. rewrite Eh in X2. discriminate. }
  assert (CONST : forall (b : bool), (forall rho, ev M rho t = tv M b) -> cs = (if xorb b neg then clauses_true else clauses_false) -> c' = c -> exists g', steps K g g' c c' /\ (plain t = true -> g' = g) /\ claims g g' t neg cs).
  { intros b EV -> ->. exists g. split; [apply good_refl; auto; apply more_refl|]. split; auto. apply says_exact.
    - destruct (xorb b neg); constructor; constructor.
    - intros rho _ _. split; [destruct (xorb b neg); constructor; constructor|]. rewrite EV. destruct b, neg; cbn [xorb negb];
      (split; [intros H|intros H]); try constructor; try reflexivity; try (exfalso; apply (bool_diff M); simpl in H; congruence);
      (inversion H; subst; match goal with [X : cholds _ _ _ |- _] => destruct X as (? & [] & _) end). }
  unfold term_eqb in E. destruct (term_eq_dec t ttrue) as [->|_]; [injection E as <- <-; apply (CONST true); [reflexivity|destruct neg; reflexivity|reflexivity]|].
  destruct (term_eq_dec t tfalse) as [->|_]; [injection E as <- <-; apply (CONST false); [reflexivity|destruct neg; reflexivity|reflexivity]|].
  destruct (to_inline_term K n c t) as [[u c1]|] eqn:X; [|discriminate]. cbn [obind] in E. injection E as <- <-. auto.
Qed.

Theorem all_ok n : CS n /\ AS n /\ ES n.
Proof.
  induction n as [|n (IC & IA & IE)].
  - split; [|split]; intros until 1; discriminate.
  - split; [apply set_ok; auto|]. split; [apply apply_ok; auto|apply eq_ok; auto].
Qed.
End Ind.
