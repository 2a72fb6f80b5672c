(** Independent specification of covariance functions: the textbook radial profiles on the scaled
    Euclidean distance, positive semidefiniteness, and the set kernel.  Nothing here refers to the
    model of the code. *)
From Verif Require Import Base UtilsSpec.
From Coq Require Import List Reals.
Import ListNotations.
Open Scope R_scope.
Set Implicit Arguments.

(** textbook profiles as functions of the scaled distance *)
Definition se_profile (r : R) : R := exp (- (r * r) / 2).
Definition matern32_profile (r : R) : R := (1 + sqrt 3 * r) * exp (- (sqrt 3 * r)).
Definition matern52_profile (r : R) : R := (1 + sqrt 5 * r + 5 / 3 * (r * r)) * exp (- (sqrt 5 * r)).

(** squared Euclidean distance of two points after dividing coordinate i by [ls i]; [d] coordinates *)
Definition scaled_sq (ls : nat -> R) (d : nat) (x y : list R) : R :=
  Rsum (map (fun i => let e := (nth i x 0 - nth i y 0) / ls i in e * e) (seq 0 d)).
Definition scaled_dist (ls : nat -> R) (d : nat) (x y : list R) : R := sqrt (scaled_sq ls d x y).

(** the quadratic form of a function of two points on finitely many weighted points *)
Definition qform {T : Type} (k : T -> T -> R) (l : list (R * T)) : R :=
  Rsum (map (fun p => Rsum (map (fun q => fst p * fst q * k (snd p) (snd q)) l)) l).
(** positive semidefinite: every quadratic form is nonnegative (repeated points allowed) *)
Definition psd {T : Type} (k : T -> T -> R) : Prop := forall l, 0 <= qform k l.

(** average of a kernel over all pairs of two finite sets (lists) of points *)
Definition set_average {T : Type} (k : T -> T -> R) (xs ys : list T) : R :=
  Rsum (map (fun x => Rsum (map (fun y => k x y) ys)) xs)
  / (INR (List.length xs) * INR (List.length ys)).
