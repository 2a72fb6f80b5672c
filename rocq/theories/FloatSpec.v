(** What the binary64 theorems (C97-C103) speak about. *)
From Verif Require Import Base Num BOModel.
From Coq Require Import List ZArith Bool String Reals.
From Flocq Require Import Core IEEE754.BinarySingleNaN.
Import ListNotations.
Local Open Scope R_scope.

(** neither an infinity nor NaN *)
Definition finite (x : f64) : Prop := is_finite x = true.
(** finite and of magnitude at most 2^e *)
Definition within (e : Z) (y : f64) : Prop := is_finite y = true /\ Rabs (B2R y) <= bpow radix2 e.
(** counts that binary64 represents exactly *)
Definition few (n : nat) : Prop := (Z.of_nat n < 2 ^ 53)%Z.
(** at least two different values *)
Definition spread (Y : list f64) : Prop := exists y y' : f64, In y Y /\ In y' Y /\ B2R y <> B2R y'.

(** a predicted mean and standard deviation from responses within 2^e *)
Definition pred_ok (e : Z) (p : f64 * f64) : Prop := within e (fst p) /\ within (e + 2) (snd p) /\ 0 <= B2R (snd p).
(** predicted means and standard deviations as handed to an acquisition function *)
Definition preds_ok (mu sd : list f64) : Prop :=
  List.length mu = List.length sd /\ Forall (within 480) mu /\ Forall (fun s => within 482 s /\ 0 <= B2R s) sd.
(** scipy's normal cdf and pdf: finite values between 0 and 1 for finite arguments *)
Definition unit_valued (f : f64 -> f64) : Prop := forall x, finite x -> finite (f x) /\ 0 <= B2R (f x) <= 1.
(** the normal distribution function does not decrease *)
Definition monotone (f : f64 -> f64) : Prop := forall x y, finite x -> finite y -> B2R x <= B2R y -> B2R (f x) <= B2R (f y).
(** np.log on [1, oo) *)
Definition log_like (f : f64 -> f64) : Prop := forall x, finite x -> 1 <= B2R x -> finite (f x) /\ 0 <= B2R (f x) <= B2R x.
(** a noise level for which the division in 'aei' cannot overflow *)
Definition noise_fine (z : f64) : Prop := finite z /\ bpow radix2 (-500) <= B2R z <= bpow radix2 480.

Definition finite_range (r : list (f64 * f64)) : Prop := Forall (fun b => finite (fst b) /\ finite (snd b)) r.
(** int(.) of a float that holds a count *)
Definition int_of_floats (trunc : f64 -> option Z) : Prop := forall n, few n -> trunc (fofZ (Z.of_nat n)) = Some (Z.of_nat n).

Section Runs.
Context (N : Num).
(** the point has one coordinate per range and each is inside, as the comparisons of the numbers say *)
Definition in_rangeN (r : list (N * N)) (x : list N) : Prop := Forall2 (fun b v => nle N (fst b) v = true /\ nle N v (snd b) = true) r x.
(** samplers: at least one point, all inside; as many as asked for, except for the grid *)
Definition proper_samplesN {W} (r : list (N * N)) (get_samples : string -> Z -> option Z -> W -> W * res (list (list N))) : Prop :=
  forall m num seed w, In m ["grid"; "sobol"; "halton"; "uniform"; "gaussian"]%string -> (0 < num)%Z ->
  exists w' l, get_samples m num seed w = (w', Ok l) /\ l <> [] /\ Forall (in_rangeN r) l /\ (m <> "grid"%string -> List.length l = Z.to_nat num).
(** the target returns an admissible response everywhere in the search space *)
Definition returns_inN {W} (r : list (N * N)) (oky : N -> Prop) (f : list N -> W -> W * res N) : Prop :=
  forall x w, in_rangeN r x -> exists w' y, f x w = (w', Ok y) /\ oky y.
End Runs.
Arguments in_rangeN {N}. Arguments proper_samplesN {N W}. Arguments returns_inN {N W}.

(** an (n, n) array that equals its transpose, bit for bit *)
Definition symmetricF (n : nat) (C : list (list f64)) : Prop :=
  List.length C = n /\ (forall r, In r C -> List.length r = n) /\
  forall i j, (i < n)%nat -> (j < n)%nat -> nth j (nth i C []) (fofZ 0) = nth i (nth j C []) (fofZ 0).
(** [sd] is the standard deviation for the variance [v]: NaN only from NaN, never negative, and the correctly rounded root
    of the variance, negative variances counting as zero *)
Definition deviation_of (v sd : f64) : Prop :=
  (is_nan sd = true <-> is_nan v = true) /\ (is_nan v = false -> nle NumF (fofZ 0) sd = true) /\
  (finite v -> finite sd /\ B2R sd = round radix2 (FLT_exp (-1074) 53) ZnearestE (sqrt (Rmax 0 (B2R v)))).
