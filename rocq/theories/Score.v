(** Model of the scores of proof steps (src/prover/score.rs).  An [f32] is its bit pattern; two numbers that are
    not NaN compare like their sign-magnitude values, which is how IEEE 754 orders them.  [fadd] is float
    addition, the scoring model and the jitter are arbitrary functions of the features. *)
From Coq Require Import List Arith NArith ZArith Bool.
Import ListNotations.

(** ordered-float 4 [OrderedFloat]: [cmp] is [partial_cmp], with NaN equal to itself and above everything else *)
Definition f32 := N.
Definition is_nan (b : f32) : bool :=
  N.eqb (N.land (N.shiftr b 23) 255) 255 && negb (N.eqb (N.land b 8388607) 0).
Definition fvalue (b : f32) : Z :=
  let m := Z.of_N (N.land b 2147483647) in if N.testbit b 31 then Z.opp m else m.
Definition float_cmp (a b : f32) : comparison :=
  if is_nan a then (if is_nan b then Eq else Gt) else if is_nan b then Lt else Z.compare (fvalue a) (fvalue b).

(** kernel/proof_step.rs:75-90 [ShallowStatus], ordered as declared *)
Inductive shallow_status := Deep | Spent | Unspent | Contradiction.
Definition status_rank (s : shallow_status) : nat :=
  match s with Deep => 0 | Spent => 1 | Unspent => 2 | Contradiction => 3 end.
Definition status_cmp (a b : shallow_status) : comparison := Nat.compare (status_rank a) (status_rank b).
(** [bool]: false < true *)
Definition bool_cmp (a b : bool) : comparison :=
  match a, b with true, false => Gt | false, true => Lt | _, _ => Eq end.
(** derived [Ord]: field by field *)
Definition then_cmp (c d : comparison) : comparison := match c with Eq => d | _ => c end.

(** 11-16 [ScoreKey] *)
Record score_key := Key { k_contradiction : bool; k_status : shallow_status; k_score : f32 }.
Definition key_cmp (a b : score_key) : comparison :=
  then_cmp (bool_cmp (k_contradiction a) (k_contradiction b))
    (then_cmp (status_cmp (k_status a) (k_status b)) (float_cmp (k_score a) (k_score b))).
(** 18-22 [Score]; 130-134 [cmp]: [is_shallow] does not count *)
Record score := Score { s_key : score_key; s_shallow : bool }.
Definition score_cmp (a b : score) : comparison := key_cmp (s_key a) (s_key b).

(** prover/scorer.rs:27-77 [ScoringPolicy] *)
Inductive policy := ModelConsistent | Handcrafted | DepthFirst | ModelPolicy | ModelNoShallow
| ModelDfInterleave1 | ModelDfInterleave3 | ModelJitter.
Definition uses_shallow_ordering (p : policy) : bool := match p with ModelNoShallow => false | _ => true end.
Definition df_interleave_period (p : policy) : option nat :=
  match p with ModelDfInterleave1 => Some 2 | ModelDfInterleave3 => Some 4 | _ => None end.
Definition uses_score_jitter (p : policy) : bool := match p with ModelJitter => true | _ => false end.

(** prover/features.rs:44-110 [Features]: the fields that are read here, the rest in [f_other] *)
Record features {other : Type} := Features {
  f_contradiction : bool;
  f_shallow : bool;
  f_status : shallow_status;
  f_other : other
}.
Arguments features : clear implicits.

Section Scoring.
Context {other : Type} (fadd : f32 -> f32 -> f32) (jitter : features other -> f32) (model : features other -> f32).
(** 28-41 [policy_jitter]; 0 is 0.0 *)
Definition policy_jitter (p : policy) (f : features other) : f32 := if uses_score_jitter p then jitter f else 0%N.
(** 43-49 [shallow_order] *)
Definition shallow_order (p : policy) (f : features other) : shallow_status :=
  if uses_shallow_ordering p then f_status f else Unspent.
(** 51-71 [new] *)
Definition score_new (p : policy) (f : features other) : score :=
  if f_contradiction f then Score (Key true (shallow_order p f) 0%N) (f_shallow f)
  else Score (Key false (shallow_order p f) (fadd (model f) (policy_jitter p f))) (f_shallow f).
(** 74-88 [batch]; [floats] is what the model returns for the whole batch *)
Fixpoint score_batch (p : policy) (fs : list (features other)) (floats : list f32) : list score :=
  match fs, floats with
  | f :: fs, s :: floats =>
    Score (Key (f_contradiction f) (shallow_order p f) (fadd s (policy_jitter p f))) (f_shallow f) :: score_batch p fs floats
  | _, _ => []
  end.
End Scoring.
