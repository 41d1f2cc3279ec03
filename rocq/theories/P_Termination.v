(** C33: accepted recursive definitions are well-founded. *)
From Coq Require Import List Arith Bool Lia Wellfounded.
Import ListNotations.
From Verif Require Import Termination.

(** ** Meaning of values.  Nothing is assumed about the domain but that binders do not look at names and that matching a value against a
    constructor yields parts of it. *)
Section Meaning.
Context {D : Type}.
Record world := World {
  w_con : nat -> list D -> D;
  w_app : D -> list D -> D;
  w_lambda : nat -> (list D -> D) -> D;
  w_forall : nat -> (list D -> D) -> D;
  w_exists : nat -> (list D -> D) -> D;
  w_binary : nat -> D -> D -> D;
  w_not : D -> D;
  w_try : D -> D;
  w_bool : bool -> D;
  w_ite : D -> D -> D -> D;
  w_parts : nat -> D -> option (list D);       (* constructor and value *)
  w_default : D }.
Context (W : world).
Definition apply (d : D) (args : list D) : D := match args with [] => d | _ => w_app W d args end.
(** the recursive function [F] with [n] arguments, applied to any number of them *)
Definition call (n : nat) (F : list D -> D) (bound args : list D) : D :=
  if Nat.leb n (length args) then apply (F (bound ++ firstn n args)) (skipn n args)
  else w_lambda W (n - length args) (fun rest => F (bound ++ args ++ rest)).
Fixpoint find_case (d : D) (l : list (nat * nat * (list D -> D))) : D :=
  match l with
  | [] => w_default W
  | (n, c, f) :: l => match w_parts W c d with
                      | Some ws => if Nat.eqb (length ws) n then f ws else find_case d l
                      | None => find_case d l
                      end
  end.
(** the value of [v], applied to [pend] *)
Fixpoint eval (name n : nat) (F : list D -> D) (env : list D) (v : value) (pend : list D) : D :=
  let go := fun env v => eval name n F env v [] in
  match v with
  | App f args => eval name n F env f (map (fun a => eval name n F env a []) args ++ pend)
  | Const c bound => let bs := map (fun a => eval name n F env a []) bound in
                     if Nat.eqb c name then call n F bs pend else apply (w_con W c bs) pend
  | TypeApp f => match as_name f with
                 | Some c => if Nat.eqb c name then eval name n F env f pend else apply (eval name n F env f []) pend
                 | None => apply (eval name n F env f []) pend
                 end
  | Var j => apply (nth j env (w_default W)) pend
  | Bool b => apply (w_bool W b) pend
  | Lambda k b => apply (w_lambda W k (fun xs => eval name n F (env ++ xs) b [])) pend
  | ForAll k b => apply (w_forall W k (fun xs => eval name n F (env ++ xs) b [])) pend
  | Exists k b => apply (w_exists W k (fun xs => eval name n F (env ++ xs) b [])) pend
  | Binary op l r => apply (w_binary W op (eval name n F env l []) (eval name n F env r [])) pend
  | Not v => apply (w_not W (eval name n F env v [])) pend
  | Try v => apply (w_try W (eval name n F env v [])) pend
  | Grouping v => apply (eval name n F env v []) pend
  | Ite a b c => apply (w_ite W (eval name n F env a []) (eval name n F env b []) (eval name n F env c [])) pend
  | Match s cases => apply (find_case (eval name n F env s [])
                       (map (fun c => match c with (k, i, _, r) => (k, i, fun ws => eval name n F (env ++ ws) r []) end) cases)) pend
  end.
(** [F] satisfies the definition: family parameters first, then the arguments *)
Definition solves (name params n : nat) (body : value) (F : list D -> D) : Prop :=
  forall args, length args = params + n -> F args = eval name n F args body [].
Definition extensional : Prop :=
  forall k f g, (forall xs, length xs = k -> f xs = g xs) -> w_lambda W k f = w_lambda W k g /\ w_forall W k f = w_forall W k g /\ w_exists W k f = w_exists W k g.
(** [part w d]: matching [d] can yield [w] *)
Definition part (w d : D) : Prop := exists c ws, w_parts W c d = Some ws /\ In w ws.
End Meaning.

(** the recursive function does not occur in the family values of constants, which the checker does not look at *)
Fixpoint mentions (name : nat) (v : value) : bool :=
  match v with
  | Var _ | Bool _ => false
  | Const c bound => Nat.eqb c name || existsb (mentions name) bound
  | App f args => mentions name f || existsb (mentions name) args
  | TypeApp f | Lambda _ f | ForAll _ f | Exists _ f | Not f | Try f | Grouping f => mentions name f
  | Binary _ l r => mentions name l || mentions name r
  | Ite a b c => mentions name a || mentions name b || mentions name c
  | Match s cases => mentions name s || existsb (fun c => match c with (_, _, p, r) => mentions name p || mentions name r end) cases
  end.
Fixpoint bound_clean (name : nat) (v : value) : bool :=
  match v with
  | Var _ | Bool _ => true
  | Const c bound => (negb (Nat.eqb c name) || match bound with [] => true | _ => false end) && forallb (fun b => negb (mentions name b)) bound
  | App f args => bound_clean name f && forallb (bound_clean name) args
  | TypeApp f | Lambda _ f | ForAll _ f | Exists _ f | Not f | Try f | Grouping f => bound_clean name f
  | Binary _ l r => bound_clean name l && bound_clean name r
  | Ite a b c => bound_clean name a && bound_clean name b && bound_clean name c
  | Match s cases => bound_clean name s && forallb (fun c => match c with (_, _, p, r) => bound_clean name p && bound_clean name r end) cases
  end.

Lemma value_ind' (P : value -> Prop) :
  (forall j, P (Var j)) -> (forall c bound, Forall P bound -> P (Const c bound)) -> (forall f args, P f -> Forall P args -> P (App f args)) -> (forall f, P f -> P (TypeApp f)) ->
  (forall n b, P b -> P (Lambda n b)) -> (forall n b, P b -> P (ForAll n b)) -> (forall n b, P b -> P (Exists n b)) -> (forall op l r, P l -> P r -> P (Binary op l r)) ->
  (forall v, P v -> P (Not v)) -> (forall v, P v -> P (Try v)) -> (forall v, P v -> P (Grouping v)) -> (forall b, P (Bool b)) -> (forall a b c, P a -> P b -> P c -> P (Ite a b c)) ->
  (forall s cases, P s -> Forall (fun c => P (snd (fst c)) /\ P (snd c)) cases -> P (Match s cases)) -> forall v, P v.
Proof.
  intros H1 H2 H3 H4 H5 H6 H7 H8 H9 H10 H11 H12 H13 H14. fix IH 1. intros [j|c bound|f args|f|n b|n b|n b|op l r|v|v|v|b|a b c|s cases].
  - apply H1.
  - apply H2. induction bound as [|x l IHl]; constructor; [apply IH|exact IHl].
  - apply H3; [apply IH|]. induction args as [|x l IHl]; constructor; [apply IH|exact IHl].
  - apply H4, IH.
  - apply H5, IH.
  - apply H6, IH.
  - apply H7, IH.
  - apply H8; apply IH.
  - apply H9, IH.
  - apply H10, IH.
  - apply H11, IH.
  - apply H12.
  - apply H13; apply IH.
  - apply H14; [apply IH|]. induction cases as [|[[[n i] p] r] cases IHc]; constructor; [|exact IHc]. split; cbn; apply IH.
Qed.

Section Proofs.
Context {D : Type} (W : @world D) (Ext : extensional W) (name n : nat).

(** values that do not mention the function do not depend on it *)
Lemma eval_unmentioned F G v : mentions name v = false -> forall env pend, eval W name n F env v pend = eval W name n G env v pend.
Proof.
  assert (LS : forall l env, Forall (fun v => mentions name v = false -> forall env pend, eval W name n F env v pend = eval W name n G env v pend) l -> existsb (mentions name) l = false ->
    map (fun a => eval W name n F env a []) l = map (fun a => eval W name n G env a []) l).
  { intros l env H M. apply map_ext_in. intros a Ha. rewrite Forall_forall in H. apply H; auto. destruct (mentions name a) eqn:Ea; auto. assert (X : existsb (mentions name) l = true) by (apply existsb_exists; eauto). congruence. }
  induction v as [j|c bound IH|f args IHf IHa|f IH|k b IH|k b IH|k b IH|op l r IHl IHr|v IH|v IH|v IH|b|a b c IHa IHb IHc|s cases IHs IHc] using value_ind'; cbn [mentions]; intros M env pend; cbn [eval]; auto.
  - apply orb_false_iff in M. destruct M as [M1 M2]. rewrite M1. rewrite (LS bound env IH M2). auto.
  - apply orb_false_iff in M. destruct M as [M1 M2]. rewrite (LS args env IHa M2). apply IHf; auto.
  - rewrite (IH M env pend), (IH M env []). auto.
  - f_equal. apply (Ext k). intros xs _. apply IH. auto.
  - f_equal. apply (Ext k). intros xs _. apply IH. auto.
  - f_equal. apply (Ext k). intros xs _. apply IH. auto.
  - apply orb_false_iff in M. destruct M as [M1 M2]. rewrite IHl, IHr; auto.
  - rewrite IH; auto.
  - rewrite IH; auto.
  - rewrite IH; auto.
  - apply orb_false_iff in M. destruct M as [M1 M3]. apply orb_false_iff in M1. destruct M1 as [M1 M2]. rewrite IHa, IHb, IHc; auto.
  - apply orb_false_iff in M. destruct M as [M1 M2]. rewrite IHs; auto. f_equal. generalize (eval W name n G env s []) as d. intros d.
    induction cases as [|[[[k i] p] r] cases IH]; auto. cbn [map find_case]. cbn [existsb] in M2. apply orb_false_iff in M2. destruct M2 as [M2 M3]. apply orb_false_iff in M2. destruct M2 as [_ M2].
    inversion IHc as [|? ? [_ Hr] Hc]; subst. cbn in Hr. rewrite IH; auto. destruct (w_parts W i d) as [ws|]; auto. rewrite Hr; auto.
Qed.

(** the map of the checker describes the stack *)
Definition map_ok (m : list (option nat)) (env : list D) : Prop :=
  length m = length env /\ n <= length m /\ (forall j, j < n -> nth_error m j = Some (Some j)) /\
  forall j i, n <= j -> i < n -> nth_error m j = Some (Some i) -> exists w, nth_error env j = Some w /\ part W w (nth i env (w_default W)).
Lemma map_ok_push m env vars ws : map_ok m env -> length vars = length ws -> (forall k i, nth_error vars k = Some (Some i) -> exists w, nth_error ws k = Some w /\ part W w (nth i env (w_default W))) -> map_ok (m ++ vars) (env ++ ws).
Proof.
  intros (M1 & M2 & M3 & M4) L H. unfold map_ok. rewrite !app_length. repeat split; try lia.
  - intros j Hj. rewrite nth_error_app1 by lia. auto.
  - intros j i Hj Hi E. rewrite (app_nth1 env) by lia. destruct (Nat.lt_ge_cases j (length m)) as [Lj|Lj].
    + rewrite nth_error_app1 in E by auto. destruct (M4 j i Hj Hi E) as (w & A1 & A2). exists w. rewrite nth_error_app1; auto; lia.
    + rewrite nth_error_app2 in E by auto. destruct (H _ _ E) as (w & A1 & A2). exists w. rewrite M1 in *. rewrite nth_error_app2 by auto. auto.
Qed.
Context (k : nat).
Definition sk (s : state) : bool := nth k (strict s) false.
(** [good a m]: the traversal [a] was run on the map [m] and the position was still decreasing after it *)
Definition good (a : act) (m : list (option nat)) : Prop := exists s s', sub_map s = m /\ a s = Some s' /\ sk s' = true.
(** traversals keep the map and never turn the position on again *)
Definition tame (a : act) : Prop := forall s s', a s = Some s' -> sub_map s' = sub_map s /\ length (strict s') = length (strict s) /\ (sk s' = true -> sk s = true).
Lemma tame_run l : Forall tame l -> tame (run_all l).
Proof.
  induction 1 as [|a l Ha Hl IH]; intros s s' E; cbn in E; [injection E as <-; auto|]. destruct (a s) as [s1|] eqn:E1; [|discriminate]. destruct (Ha _ _ E1) as (A1 & A2 & A3). destruct (IH _ _ E) as (B1 & B2 & B3). rewrite B1, B2. auto.
Qed.
Lemma run_good l : Forall tame l -> forall s s', run_all l s = Some s' -> sk s' = true -> Forall (fun a => good a (sub_map s)) l.
Proof.
  induction 1 as [|a l Ha Hl IH]; intros s s' E S; constructor; cbn in E; destruct (a s) as [s1|] eqn:E1; try discriminate; destruct (Ha _ _ E1) as (A1 & A2 & A3); destruct (tame_run l Hl _ _ E) as (B1 & B2 & B3).
  - exists s, s1. auto.
  - rewrite <- A1. eapply IH; eauto.
Qed.
Lemma tame_scoped vars l : Forall tame l -> tame (scoped vars l).
Proof.
  intros H s s' E. unfold scoped in E. destruct (run_all l _) as [s1|] eqn:E1; [|discriminate]. injection E as <-. destruct (tame_run l H _ _ E1) as (B1 & B2 & B3). cbn in B1. split; [|split; auto]. cbn [with_map sub_map]. rewrite B1, firstn_app, firstn_all, Nat.sub_diag. cbn. apply app_nil_r.
Qed.
Lemma good_scoped vars l m : Forall tame l -> good (scoped vars l) m -> Forall (fun a => good a (m ++ vars)) l.
Proof.
  intros H (s & s' & <- & E & S). unfold scoped in E. destruct (run_all l _) as [s1|] eqn:E1; [|discriminate]. injection E as <-. apply (run_good l H _ _ E1). exact S.
Qed.
Lemma call_strict_spec s args : forall l i l', call_strict s i l args = Some l' -> length l' = length l /\ forall j, nth j l' false = true -> nth j l false = true /\ arg_strict s (i + j) (nth_error args (i + j)) = Some true.
Proof.
  induction l as [|b l IH]; intros i l' E; cbn in E; [injection E as <-; split; auto; intros [|j]; discriminate|].
  destruct (arg_strict s i (nth_error args i)) as [x|] eqn:Ea; [|discriminate]. destruct (call_strict s (S i) l args) as [r|] eqn:Er; [|discriminate]. injection E as <-. destruct (IH _ _ Er) as [L H]. split; [cbn; lia|]. intros [|j] Hj; cbn in Hj.
  - apply andb_true_iff in Hj. destruct Hj as [-> ->]. rewrite Nat.add_0_r. auto.
  - destruct (H j Hj) as [H1 H2]. rewrite Nat.add_succ_r. auto.
Qed.
Lemma tame_call args : tame (fun s => recursive_call s args).
Proof.
  intros s s' E. unfold recursive_call in E. destruct (call_strict s 0 (strict s) args) as [l|] eqn:E1; [|discriminate]. injection E as <-. destruct (call_strict_spec _ _ _ _ _ E1) as [L H]. repeat split; auto. intros S. apply (H k S).
Qed.
Lemma tame_traverse v : forall pend, Forall (fun p => tame (snd p)) pend -> tame (traverse name v pend).
Proof.
  assert (TA : forall a pend, tame a -> Forall (fun p : value * act => tame (snd p)) pend -> tame (run_all (a :: map snd pend))).
  { intros a pend Ha Hp. apply tame_run. constructor; auto. rewrite Forall_map. auto. }
  assert (T0 : tame Some) by (intros s s' E; injection E as <-; auto).
  induction v as [j|c bound IH|f args IHf IHa|f IH|m b IH|m b IH|m b IH|op l r IHl IHr|v IH|v IH|v IH|b|a b c IHa IHb IHc|s cases IHs IHc] using value_ind'; intros pend Hp; cbn [traverse]; try (apply TA; auto; fail).
  - apply TA; auto. destruct (Nat.eqb c name); auto. destruct pend as [|p pend]; [|apply tame_call]. intros s s' E. injection E as <-. repeat split; auto; cbn; [apply map_length|]. unfold sk. cbn. intros X. exfalso. clear - X. revert X. generalize (strict s) as l. intros l. revert k. induction l as [|b l IHl]; intros [|k0]; cbn; try discriminate. apply IHl.
  - apply IHf. apply Forall_app. split; auto. rewrite Forall_map. eapply Forall_impl; [|exact IHa]. cbn. auto.
  - apply TA; auto. destruct (as_name f) as [c|]; [|apply IH; auto]. destruct pend as [|p pend]; [apply IH; auto|]. destruct (Nat.eqb c name); [apply tame_call|apply IH; auto].
  - apply TA; auto. apply tame_scoped. auto.
  - apply TA; auto. apply tame_scoped. auto.
  - apply TA; auto. apply tame_scoped. auto.
  - apply TA; auto. apply (tame_run [_; _]). auto.
  - apply TA; auto. apply (tame_run [_; _; _]). auto.
  - apply TA; auto. apply (tame_run (_ :: _)). constructor; auto. rewrite Forall_map. eapply Forall_impl; [|exact IHc]. intros [[[m i] p] r] [H1 H2]. cbn in *. apply tame_scoped. auto.
Qed.

Lemma tame1 v : tame (traverse name v []).
Proof. apply tame_traverse. auto. Qed.

Context (F G : list D -> D) (env0 : list D) (Len0 : n <= length env0) (Kn : k < n).
(** the functions agree on arguments that are smaller at position [k] *)
Context (Agree : forall l, length l = n -> (exists w, nth_error l k = Some w /\ part W w (nth k env0 (w_default W))) -> F l = G l).
Definition under (env : list D) : Prop := exists r, env = env0 ++ r.
Definition args_match (env : list D) (pend : list (value * act)) (xs : list D) : Prop :=
  length xs = length pend /\ forall i j a, nth_error pend i = Some (Var j, a) -> nth_error xs i = Some (nth j env (w_default W)).

Lemma call_agree m env s s' pend xs : map_ok m env -> under env -> sub_map s = m -> recursive_call s (map fst pend) = Some s' -> sk s' = true -> args_match env pend xs ->
  call W n F [] xs = call W n G [] xs.
Proof.
  intros (M1 & M2 & M3 & M4) [rest ->] <- E S [Lx Hx]. unfold recursive_call in E. destruct (call_strict s 0 (strict s) (map fst pend)) as [l|] eqn:E1; [|discriminate]. injection E as <-. destruct (call_strict_spec _ _ _ _ _ E1) as [_ H]. destruct (H k S) as [_ A]. cbn [Nat.add] in A.
  unfold arg_strict in A. destruct (nth_error (map fst pend) k) as [v|] eqn:Ev; [|discriminate]. destruct v; try discriminate. destruct (Nat.eqb_spec k j) as [|Nj]; [discriminate|]. destruct (nth_error (sub_map s) j) as [[i|]|] eqn:Em; try discriminate. injection A as A. apply Nat.eqb_eq in A. subst i.
  assert (Hj : n <= j) by (destruct (Nat.lt_ge_cases j n) as [L|L]; auto; rewrite M3 in Em by auto; congruence).
  destruct (M4 j k Hj Kn Em) as (w & W1 & W3). rewrite nth_error_map in Ev. destruct (nth_error pend k) as [[v a]|] eqn:Ep; [|discriminate]. cbn in Ev. injection Ev as ->. specialize (Hx _ _ _ Ep). rewrite (nth_error_nth _ _ (w_default W) W1) in Hx.
  assert (Pk : part W w (nth k env0 (w_default W))).
  { rewrite app_nth1 in W3 by lia. auto. }
  unfold call. cbn [app]. destruct (Nat.leb_spec n (length xs)) as [Ln|Ln].
  - f_equal. apply Agree; [rewrite firstn_length; lia|]. exists w. split; auto. rewrite <- (firstn_skipn n xs), nth_error_app1 in Hx by (rewrite firstn_length; lia). auto.
  - apply Ext. intros ys Ly. apply Agree; [rewrite app_length; lia|]. exists w. split; auto. rewrite nth_error_app1; auto. apply nth_error_Some. congruence.
Qed.
Lemma nth_all_false l i : nth i (map (fun _ : bool => false) l) false = false.
Proof. revert i. induction l as [|b l IH]; intros [|i]; cbn; auto. Qed.

Definition sound_at (v : value) : Prop := bound_clean name v = true -> forall env pend m,
  map_ok m env -> under env -> Forall (fun p => tame (snd p)) pend -> good (traverse name v pend) m ->
  Forall (fun p => good (snd p) m) pend /\ forall xs, args_match env pend xs -> eval W name n F env v xs = eval W name n G env v xs.
Lemma then_args_good a pend m : tame a -> Forall (fun p : value * act => tame (snd p)) pend -> good (run_all (a :: map snd pend)) m -> good a m /\ Forall (fun p => good (snd p) m) pend.
Proof.
  intros Ha Hp (s & s' & <- & E & S). assert (T : Forall tame (a :: map snd pend)) by (constructor; auto; rewrite Forall_map; auto).
  pose proof (run_good _ T _ _ E S) as H. inversion H; subst. split; auto. rewrite Forall_map in H3. auto.
Qed.
Lemma run_all_good l m : Forall tame l -> good (run_all l) m -> Forall (fun a => good a m) l.
Proof. intros T (s & s' & <- & E & S). eapply run_good; eauto. Qed.
Lemma no_args env : args_match env [] [].
Proof. split; auto. intros [|i] j a E; discriminate. Qed.
Lemma under_app env ws : under env -> under (env ++ ws).
Proof. intros [r ->]. exists (r ++ ws). rewrite app_assoc. auto. Qed.
Lemma push_none m env xs j : map_ok m env -> length xs = j -> map_ok (m ++ repeat None j) (env ++ xs).
Proof. intros M L. apply map_ok_push; auto; [rewrite repeat_length; auto|]. intros i x E. apply nth_error_In in E. apply repeat_spec in E. discriminate. Qed.
Lemma alone v : sound_at v -> bound_clean name v = true -> forall env m, map_ok m env -> under env -> good (traverse name v []) m -> eval W name n F env v [] = eval W name n G env v [].
Proof. intros H C env m M U Gd. apply (proj2 (H C env [] m M U (Forall_nil _) Gd) []). apply no_args. Qed.

Lemma eval_agrees v : sound_at v.
Proof.
  induction v as [j|c bound IH|f args IHf IHa|f IH|i b IH|i b IH|i b IH|op l r IHl IHr|v IH|v IH|v IH|b|a b c IHa IHb IHc|s cases IHs IHc] using value_ind';
    intros Cl env pend m M U Tp Gd; cbn [traverse] in Gd; cbn [bound_clean] in Cl; cbn [eval].
  - apply then_args_good in Gd; auto; [|intros s s' E; injection E as <-; auto]. split; [apply Gd|auto].
  - apply andb_true_iff in Cl. destruct Cl as [C1 C2].
    assert (Eb : map (fun a => eval W name n F env a []) bound = map (fun a => eval W name n G env a []) bound).
    { apply map_ext_in. intros a Ha. rewrite forallb_forall in C2. apply eval_unmentioned. apply negb_true_iff. auto. }
    destruct (Nat.eqb c name) eqn:Ec.
    + assert (bound = []) by (destruct bound; [auto|discriminate]). subst bound. clear Eb. cbn [map].
      apply then_args_good in Gd; auto.
      2:{ destruct pend; [|apply tame_call]. intros s s' E; injection E as <-. repeat split; cbn; auto; [apply map_length|]. unfold sk. cbn. rewrite nth_all_false. discriminate. }
      destruct Gd as [(s & s' & Es & Ea & S) Gp]. split; auto. intros xs Hx. destruct pend as [|p pend].
      * injection Ea as <-. unfold sk in S. cbn in S. rewrite nth_all_false in S. discriminate.
      * eapply call_agree; eauto.
    + apply then_args_good in Gd; auto; [|intros s s' E; injection E as <-; auto]. split; [apply Gd|]. intros xs _. rewrite Eb. auto.
  - apply andb_true_iff in Cl. destruct Cl as [C1 C2]. rewrite forallb_forall in C2.
    assert (Ta : Forall (fun p : value * act => tame (snd p)) (map (fun a => (a, traverse name a [])) args ++ pend)).
    { apply Forall_app. split; auto. rewrite Forall_map. apply Forall_forall. intros a _. apply tame_traverse. auto. }
    destruct (IHf C1 env _ m M U Ta Gd) as [Ga He]. apply Forall_app in Ga. destruct Ga as [Ga Gp]. split; auto. intros xs [Lx Hx]. rewrite Forall_map in Ga. cbn in Ga.
    assert (Ea : map (fun a => eval W name n F env a []) args = map (fun a => eval W name n G env a []) args).
    { apply map_ext_in. intros a Ha. rewrite Forall_forall in IHa, Ga. apply (alone a (IHa a Ha) (C2 a Ha) env m); auto. }
    rewrite <- Ea. apply He. split; [rewrite !app_length, !map_length; lia|]. intros i j act0 E. destruct (Nat.lt_ge_cases i (length args)) as [Li|Li].
    + rewrite nth_error_app1 in E by (rewrite map_length; auto). rewrite nth_error_map in E. destruct (nth_error args i) as [v|] eqn:Ev; [|discriminate]. cbn in E. injection E as -> <-. rewrite nth_error_app1 by (rewrite map_length; auto). rewrite nth_error_map, Ev. reflexivity.
    + rewrite nth_error_app2 in E by (rewrite map_length; auto). rewrite map_length in E. rewrite nth_error_app2 by (rewrite map_length; auto). rewrite map_length. eauto.
  - destruct (as_name f) as [c|] eqn:En.
    + destruct pend as [|p pend].
      * apply then_args_good in Gd; auto; [|apply tame_traverse; auto]. destruct Gd as [G1 _]. split; auto. intros xs [Lx _]. destruct xs; [|discriminate]. rewrite (alone f IH Cl env m M U G1). auto.
      * destruct (Nat.eqb c name) eqn:Ec.
        -- apply then_args_good in Gd; auto; [|apply tame_call]. destruct Gd as [G1 G2]. split; auto. intros xs Hx. destruct G1 as (s & s' & Es & Ea & S).
           assert (Ef : forall H : list D -> D, eval W name n H env f xs = call W n H [] xs).
           { intros H. clear - En Ec Cl. induction f; try discriminate En; cbn [as_name eval bound_clean] in *.
             - injection En as ->. rewrite Ec in *. cbn in Cl. destruct bound; [reflexivity|discriminate].
             - rewrite En, Ec. auto. }
           rewrite !Ef. eapply call_agree; eauto.
        -- apply then_args_good in Gd; auto; [|apply tame_traverse; auto]. destruct Gd as [G1 G2]. split; auto. intros xs _. rewrite (alone f IH Cl env m M U G1). auto.
    + assert (Gd' : good (run_all (traverse name f [] :: map snd pend)) m) by (destruct pend; exact Gd).
      apply then_args_good in Gd'; auto; [|apply tame_traverse; auto]. destruct Gd' as [G1 G2]. split; auto. intros xs _. rewrite (alone f IH Cl env m M U G1). auto.
  - apply then_args_good in Gd; auto; [|apply tame_scoped; constructor; auto; apply tame_traverse; auto]. destruct Gd as [G1 G2]. split; auto. intros xs _. apply good_scoped in G1; [|constructor; auto; apply tame_traverse; auto]. inversion G1; subst.
    f_equal. apply Ext. intros ys Ly. eapply alone; eauto; [apply push_none; auto|apply under_app; auto].
  - apply then_args_good in Gd; auto; [|apply tame_scoped; constructor; auto; apply tame_traverse; auto]. destruct Gd as [G1 G2]. split; auto. intros xs _. apply good_scoped in G1; [|constructor; auto; apply tame_traverse; auto]. inversion G1; subst.
    f_equal. apply Ext. intros ys Ly. eapply alone; eauto; [apply push_none; auto|apply under_app; auto].
  - apply then_args_good in Gd; auto; [|apply tame_scoped; constructor; auto; apply tame_traverse; auto]. destruct Gd as [G1 G2]. split; auto. intros xs _. apply good_scoped in G1; [|constructor; auto; apply tame_traverse; auto]. inversion G1; subst.
    f_equal. apply Ext. intros ys Ly. eapply alone; eauto; [apply push_none; auto|apply under_app; auto].
  - apply andb_true_iff in Cl. destruct Cl as [C1 C2]. assert (T2 : Forall tame [traverse name l []; traverse name r []]) by (auto using tame1).
    apply then_args_good in Gd; auto; [|apply tame_run; auto]. destruct Gd as [G1 G2]. split; auto. intros xs _. apply run_all_good in G1; auto. inversion G1 as [|? ? G3 G4]; subst. inversion G4 as [|? ? G5 _]; subst. rewrite (alone l IHl C1 env m M U G3), (alone r IHr C2 env m M U G5). auto.
  - apply then_args_good in Gd; auto; [|apply tame_traverse; auto]. destruct Gd as [G1 G2]. split; auto. intros xs _. rewrite (alone v IH Cl env m M U G1). auto.
  - apply then_args_good in Gd; auto; [|apply tame_traverse; auto]. destruct Gd as [G1 G2]. split; auto. intros xs _. rewrite (alone v IH Cl env m M U G1). auto.
  - apply then_args_good in Gd; auto; [|apply tame_traverse; auto]. destruct Gd as [G1 G2]. split; auto. intros xs _. rewrite (alone v IH Cl env m M U G1). auto.
  - apply then_args_good in Gd; auto; [|intros s s' E; injection E as <-; auto]. split; [apply Gd|auto].
  - apply andb_true_iff in Cl. destruct Cl as [C1 C3]. apply andb_true_iff in C1. destruct C1 as [C1 C2]. assert (T2 : Forall tame [traverse name a []; traverse name b []; traverse name c []]) by (auto using tame1).
    apply then_args_good in Gd; auto; [|apply tame_run; auto]. destruct Gd as [G1 G2]. split; auto. intros xs _. apply run_all_good in G1; auto. inversion G1 as [|? ? G3 G4]; subst. inversion G4 as [|? ? G5 G6]; subst. inversion G6 as [|? ? G7 _]; subst.
    rewrite (alone a IHa C1 env m M U G3), (alone b IHb C2 env m M U G5), (alone c IHc C3 env m M U G7). auto.
  - apply andb_true_iff in Cl. destruct Cl as [C1 C2]. set (sup := match s with Var i => Some i | _ => None end) in *.
    assert (T2 : Forall tame (traverse name s [] :: map (fun c => match c with (i, _, p, r) => scoped (repeat sup i) [traverse name p []; traverse name r []] end) cases)).
    { constructor; [apply tame_traverse; auto|]. rewrite Forall_map. apply Forall_forall. intros [[[i ci] p] r] _. apply tame_scoped. auto using tame1. }
    apply then_args_good in Gd; auto; [|apply (tame_run (_ :: _)); auto]. destruct Gd as [G1 G2]. split; auto. intros xs _. apply (run_all_good (_ :: _)) in G1; auto. inversion G1 as [|? ? G3 G4]; subst. rewrite Forall_map in G4.
    pose proof (alone s IHs C1 env m M U G3) as Es. f_equal. rewrite Es.
    assert (Sup : forall c ws, w_parts W c (eval W name n G env s []) = Some ws -> forall x i0, nth_error (repeat sup (length ws)) x = Some (Some i0) -> exists w, nth_error ws x = Some w /\ part W w (nth i0 env (w_default W))).
    { intros c ws Hw x i0 E. assert (Lx : x < length ws) by (rewrite <- (repeat_length sup); apply nth_error_Some; congruence). apply nth_error_In in E. apply repeat_spec in E. unfold sup in E. destruct s as [j| | | | | | | | | | | | |]; try discriminate. injection E as ->.
      destruct (nth_error ws x) as [w|] eqn:Ew; [|apply nth_error_None in Ew; lia]. cbn in Hw. exists w. split; auto. exists c, ws. split; auto. eapply nth_error_In; eauto. }
    clear IHs Es G1 G3 T2 C1. revert Sup. generalize (eval W name n G env s []) as d. intros d Sup. clearbody sup. induction cases as [|[[[i ci] p] r] cases IH]; auto. cbn [map find_case]. cbn [forallb] in C2. apply andb_true_iff in C2. destruct C2 as [C2 C3]. apply andb_true_iff in C2. destruct C2 as [_ C2].
    inversion IHc as [|? ? [_ Hr] Hc]; subst. inversion G4 as [|? ? G5 G6]; subst. cbn in Hr. rewrite IH by auto. destruct (w_parts W ci d) as [ws|] eqn:Ew; auto. destruct (Nat.eqb_spec (length ws) i) as [Li|]; auto.
    apply good_scoped in G5; [|auto using tame1]. inversion G5 as [|? ? _ G7]; subst. inversion G7 as [|? ? G8 _]; subst. eapply alone; eauto; [|apply under_app; auto]. apply map_ok_push; auto; [apply repeat_length|]. eapply Sup; eauto.
Qed.
End Proofs.

(** ** Accepted definitions *)
Lemma start_ok {D} (W : @world D) n args : length args = n -> map_ok W n (map Some (seq 0 n)) args.
Proof.
  intros L. unfold map_ok. rewrite map_length, seq_length. repeat split; auto; try lia.
  - intros j Hj. rewrite nth_error_map. rewrite (nth_error_nth' _ 0) by (rewrite seq_length; auto). rewrite seq_nth by auto. reflexivity.
  - intros j i Hj _ E. assert (j < length (map Some (seq 0 n))) by (apply nth_error_Some; congruence). rewrite map_length, seq_length in H. lia.
Qed.
(** If the checker accepts, there is one argument position such that the value of the body, for all arguments and in every world, depends
    on the function only at argument lists whose entry at this position is a part of the given one. *)
Theorem accepted_calls_decrease : forall name n body, check name n body = Some true -> bound_clean name body = true ->
  exists k, k < n /\ forall (D : Type) (W : @world D), extensional W -> forall F G args, length args = n ->
    (forall l, length l = n -> (exists w, nth_error l k = Some w /\ part W w (nth k args (w_default W))) -> F l = G l) ->
    eval W name n F args body [] = eval W name n G args body [].
Proof.
  intros name n body C B. unfold check in C. destruct (traverse name body [] _) as [s'|] eqn:E; [|discriminate]. injection C as C. apply existsb_exists in C. destruct C as (b & Hb & ->). apply (In_nth _ _ false) in Hb. destruct Hb as (k & Hk & Ek).
  assert (Lk : length (strict s') = n).
  { destruct (tame_traverse name k body [] ltac:(auto) _ _ E) as (_ & L & _). rewrite L. cbn. apply repeat_length. }
  exists k. split; [lia|]. intros D W Ext F G args La Ag. apply (alone W name n k F G args body) with (m := map Some (seq 0 n)); auto.
  - apply eval_agrees; auto; lia.
  - apply start_ok; auto.
  - exists []. rewrite app_nil_r. auto.
  - exists (State (map Some (seq 0 n)) (repeat true n)), s'. repeat split; auto.
Qed.
Print Assumptions accepted_calls_decrease.
(** So the definition has at most one solution wherever values are built up from parts *)
Theorem accepted_definition_unique : forall name n body, check name n body = Some true -> bound_clean name body = true ->
  forall {D} (W : @world D), extensional W -> well_founded (part W) -> forall F G, solves W name 0 n body F -> solves W name 0 n body G ->
  forall args, length args = n -> F args = G args.
Proof.
  intros name n body C B D W Ext Wf F G SF SG. destruct (accepted_calls_decrease name n body C B) as (k & Kn & Dep).
  assert (H : forall d args, length args = n -> nth k args (w_default W) = d -> F args = G args).
  { intros d. induction (Wf d) as [d _ IH]. intros args La Ed. rewrite (SF args), (SG args) by (cbn; auto). apply (Dep D W Ext F G args La). intros l Ll (w & Hw & Pw). apply (IH w); auto; [rewrite <- Ed; auto|]. apply nth_error_nth. auto. }
  intros args La. eapply H; eauto.
Qed.
Print Assumptions accepted_definition_unique.
(** and it has one *)
Theorem accepted_definition_exists : forall name n body, check name n body = Some true -> bound_clean name body = true ->
  forall {D} (W : @world D), extensional W -> well_founded (part W) -> (forall w d, {part W w d} + {~ part W w d}) -> exists F, solves W name 0 n body F.
Proof.
  intros name n body C B D W Ext Wf Dec. destruct (accepted_calls_decrease name n body C B) as (k & Kn & Dep). set (key := fun l : list D => nth k l (w_default W)).
  pose (R := fun a b => part W (key a) (key b)). assert (WR : well_founded R) by (apply (wf_inverse_image _ _ (part W) key); auto).
  pose (Fn := fun (args : list D) (rec : forall l, R l args -> D) =>
    if Nat.eqb (length args) n then eval W name n (fun l => match Dec (key l) (key args) with left p => rec l p | right _ => w_default W end) args body [] else w_default W).
  exists (Fix WR (fun _ => D) Fn). intros args La. cbn in La. rewrite Fix_eq.
  - unfold Fn at 1. rewrite La, Nat.eqb_refl. apply (Dep D W Ext); auto. intros l Ll (w & Hw & Pw). destruct (Dec (key l) (key args)) as [p|N]; auto. destruct N. unfold key. rewrite (nth_error_nth _ _ _ Hw). auto.
  - intros x f g E. unfold Fn. destruct (Nat.eqb_spec (length x) n) as [L|]; auto. apply (Dep D W Ext); auto. intros l _ _. destruct (Dec (key l) (key x)); auto.
Qed.
Print Assumptions accepted_definition_exists.
(** Unfolding the definition [m] times *)
Fixpoint unfold_times {D} (W : @world D) (name n : nat) (body : value) (m : nat) : list D -> D :=
  match m with 0 => fun _ => w_default W | S m => fun args => eval W name n (unfold_times W name n body m) args body [] end.
(** Evaluation terminates: where values are finite, calls nest at most as deep as the value at one fixed position, and further unfolding changes nothing. *)
Theorem accepted_definition_terminates : forall name n body, check name n body = Some true -> bound_clean name body = true ->
  exists k, k < n /\ forall (D : Type) (W : @world D) (height : D -> nat), extensional W -> (forall w d, part W w d -> height w < height d) ->
    forall args m m', length args = n -> height (nth k args (w_default W)) < m -> height (nth k args (w_default W)) < m' -> unfold_times W name n body m args = unfold_times W name n body m' args.
Proof.
  intros name n body C B. destruct (accepted_calls_decrease name n body C B) as (k & Kn & Dep). exists k. split; auto. intros D W height Ext Hh.
  intros args m m'. revert args m'. induction m as [|m IH]; intros args m' La H1 H2; [lia|]. destruct m' as [|m']; [lia|]. cbn [unfold_times]. apply (Dep D W Ext); auto. intros l Ll (w & Hw & Pw). apply Hh in Pw. apply (nth_error_nth _ _ (w_default W)) in Hw. apply IH; auto; rewrite Hw; lia.
Qed.
Print Assumptions accepted_definition_terminates.

(** ** A world of numbers *)
Definition tw : @world nat := World
  (fun c bs => match c with 5 => S (hd 0 bs) | 6 => 0 | _ => 0 end) (fun d _ => d) (fun j f => f (repeat 0 j)) (fun j f => f (repeat 0 j)) (fun j f => f (repeat 0 j))
  (fun _ a b => a + b) (fun d => match d with 0 => 1 | _ => 0 end) (fun d => d) (fun b => if b then 1 else 0) (fun a b c => match a with 0 => c | _ => b end)
  (fun c d => match c, d with 0, 0 => Some [] | 1, S d => Some [d] | _, _ => None end) 0.
Lemma tw_extensional : extensional tw.
Proof. intros k f g H. cbn. rewrite H by apply repeat_length. auto. Qed.
Lemma tw_part w d : part tw w d <-> d = S w.
Proof.
  split.
  - intros ([|[|c]] & ws & E & H); destruct d; cbn in E; try discriminate; injection E as <-; cbn in H; intuition congruence.
  - intros ->. exists 1, [w]. split; [reflexivity|left; auto].
Qed.
(** [plus(a, b)]: match [b] { zero => a; suc(k) => 1 + plus(a, k) }, by way of a curried call *)
Definition t_plus : value := Match (Var 1) [(0, 0, Const 6 [], Var 0); (1, 1, App (Const 5 []) [Var 2], Binary 0 (Bool true) (App (App (Const 9 []) [Var 0]) [Var 2]))].
Example termination_case : check 9 2 t_plus = Some true /\ bound_clean 9 t_plus = true /\ extensional tw /\ well_founded (part tw) /\ (forall w d, part tw w d -> w < d) /\ solves tw 9 0 2 t_plus (fun l => nth 0 l 0 + nth 1 l 0) /\ unfold_times tw 9 2 t_plus 4 [7; 3] = 10.
Proof.
  assert (L : forall w d, part tw w d -> w < d) by (intros w d H; apply tw_part in H; lia).
  split; [reflexivity|]. split; [reflexivity|]. split; [apply tw_extensional|]. split; [|split; [exact L|split; [|reflexivity]]].
  - apply (wf_incl _ _ lt); [exact L|apply lt_wf].
  - intros [|a [|b [|]]] E; try discriminate. destruct b; cbn; lia.
Qed.
(** The infinite loops of the tests are refused *)
Example termination_refuses : check 9 1 (App (Const 9 []) [Var 0]) = Some false /\ check 9 2 (Match (Var 1) [(0, 0, Const 6 [], Var 0); (1, 1, Const 5 [], App (Const 9 []) [Var 2; Var 1])]) = Some false.
Proof. split; reflexivity. Qed.

(** ** Families.  Inside the attributes of a family the parameters come first on the stack, but the checker starts counting at the arguments.
    With a parameter [p] (level 0) and arguments [a], [b] (levels 1 and 2), the definition [bad(a, b)] := match [p] { zero => true; suc(k) => not bad(b, b) } is
    accepted, and no function satisfies it. *)
Definition t_bad : value := Match (Var 0) [(0, 0, Const 6 [], Bool true); (1, 1, App (Const 5 []) [Var 3], Not (App (Const 9 [Var 0]) [Var 2; Var 2]))].
Theorem family_definition_refuted : check 9 2 t_bad = Some true /\ extensional tw /\ well_founded (part tw) /\ ~ exists F, solves tw 9 1 2 t_bad F.
Proof.
  split; [reflexivity|]. split; [apply tw_extensional|]. split; [apply termination_case|]. intros [F H]. specialize (H [1; 0; 0] eq_refl). cbn in H. destruct (F [1; 0; 0]); discriminate.
Qed.
Print Assumptions family_definition_refuted.
(** and the usual recursion [f(x)] := match [x] { zero => 0; suc(k) => f(k) } panics *)
Theorem family_definition_panics : check 9 1 (Match (Var 1) [(0, 0, Const 6 [], Const 6 []); (1, 1, App (Const 5 []) [Var 2], App (Const 9 [Var 0]) [Var 2])]) = None.
Proof. reflexivity. Qed.
Print Assumptions family_definition_panics.
(** Calls inside the family values of a constant are not seen: [f(x)] := c[f(x)] *)
Theorem family_value_refuted : check 9 1 (Const 5 [App (Const 9 []) [Var 0]]) = Some true /\ ~ exists F, solves tw 9 0 1 (Const 5 [App (Const 9 []) [Var 0]]) F.
Proof. split; [reflexivity|]. intros [F H]. specialize (H [0] eq_refl). cbn in H. lia. Qed.
Print Assumptions family_value_refuted.
