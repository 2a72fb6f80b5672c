(** Vocabulary for further regression properties: linear predictors, changes of units, adding one
    observation, distance from the data.  Only the data types of the model and the kernels of
    [CovSpec] are used. *)
From Verif Require Import Base Num UtilsSpec HypsModel CovModel KernelSpec CovSpec GPModel GPSpec.
From Coq Require Import List Reals String Permutation.
Import ListNotations.
Open Scope R_scope.
Set Implicit Arguments.

(** a predictor that is linear in the deviations of the outputs from the prior mean [m]: the value at
    [z] with weights [w] for the inputs [x 0 .. x (n - 1)] with outputs [y 0 .. y (n - 1)] *)
Definition linear_value (m : elem -> R) (n : nat) (x : nat -> elem) (y : nat -> R) (w : nat -> R) (z : elem) : R :=
  m z + Rsum (map (fun i => w i * (y i - m (x i))) (seq 0 n)).
(** its mean squared error E [(f z - linear_value)^2], when the values of f have mean [m] and covariance
    [K] and each output is the value of f plus independent noise of variance [t]:
    K z z - 2 sum_i w_i K x_i z + sum_ij w_i w_j (K x_i x_j + t [i = j]) *)
Definition squared_error (K : elem -> elem -> R) (t : R) (n : nat) (x : nat -> elem) (w : nat -> R) (z : elem) : R :=
  K z z - 2 * Rsum (map (fun i => w i * K (x i) z) (seq 0 n))
  + Rsum (map (fun i => Rsum (map (fun j => w i * w j * (K (x i) (x j) + (if Nat.eqb i j then t else 0))) (seq 0 n))) (seq 0 n)).

(** ** changes of units: coordinate [i] of the new point is [sc i] times coordinate [p i] of the old one plus [tr i] *)
Definition recoord (d : nat) (p : list nat) (sc tr : nat -> R) (x : list R) : list R :=
  map (fun i => sc i * nth (nth i p 0%nat) x 0 + tr i) (seq 0 d).
Definition recoord_elem (d : nat) (p : list nat) (sc tr : nat -> R) (e : elem) : elem :=
  match e with EPoint x => EPoint (recoord d p sc tr x) | ESet xs => ESet (map (recoord d p sc tr) xs) end.
Definition recoord_arr (d : nat) (p : list nat) (sc tr : nat -> R) (X : arr NumR) : arr NumR :=
  match X with
  | A2 _ x => A2 NumR (mkmat (map (recoord d p sc tr) (mrows x)) (mcols x))
  | A3 _ l s d' => A3 NumR (map (fun x => mkmat (map (recoord d p sc tr) (mrows x)) (mcols x)) l) s d'
  end.
(** the lengthscales follow the coordinates (their sign does not matter) *)
Definition recoord_ls (d : nat) (p : list nat) (sc : nat -> R) (ls ls' : pyval NumR) : Prop :=
  forall i, (i < d)%nat -> Rabs (ls_at ls' i) = Rabs (sc i * ls_at ls (nth i p 0%nat)).

(** ** distance from the data: every point of [e] is further than [D] from every point of [e'] *)
Definition far (ls : pyval NumR) (d : nat) (D : R) (e e' : elem) : Prop :=
  forall x y, In x (points e) -> In y (points e') -> D < scaled_dist (ls_at ls) d x y.

(** minus the logarithm of the density at [y] of a Student-t variable with [nu] degrees of freedom, the given mean
    and the given variance *)
Definition student_nll1 (gamma : R -> R) (mean var nu y : R) : R :=
  ln ((nu - 2) * PI) / 2 + ln var / 2 - ln (gamma ((nu + 1) / 2) / gamma (nu / 2))
  + (nu + 1) / 2 * ln (1 + (y - mean) * (y - mean) / var / (nu - 2)).
