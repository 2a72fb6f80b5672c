(** Likelihoods in exact reals: determinants, the Gaussian formula, and the contracts of the library
    routines used by gp_likelihood.py and tp_likelihood.py. *)
From Verif Require Import Base Num UtilsSpec HypsModel CovModel KernelSpec CovSpec GPModel GPSpec.
From Coq Require Import List Reals String.
Import ListNotations.
Open Scope R_scope.
Set Implicit Arguments.

(** determinant of the leading (n, n) part of an array: expansion along the first row *)
Fixpoint det_fun (n : nat) (a : nat -> nat -> R) : R :=
  match n with
  | O => 1
  | S p => Rsum (map (fun j => a O j * ((-1) ^ j * det_fun p (fun i k => a (S i) (if Nat.ltb k j then k else S k))))
                     (seq 0 n))
  end.
Definition det (n : nat) (c : list (list R)) : R := det_fun n (at_ c).

(** np.linalg.slogdet *)
Definition slogdet_contract (slogdet : list (list R) -> R * R) : Prop :=
  forall n a, is_mx n n a ->
    (0 < det n a -> slogdet a = (1, ln (det n a))) /\
    (det n a < 0 -> slogdet a = (-1, ln (- det n a))) /\
    (det n a = 0 -> fst (slogdet a) = 0).
(** x solves (l l^T) x = b *)
Definition solves (n m : nat) (l b x : list (list R)) : Prop :=
  is_mx n m x /\
  forall i j, (i < n)%nat -> (j < m)%nat ->
    Rsum (map (fun k => Rsum (map (fun q => at_ l i q * at_ l k q) (seq 0 n)) * at_ x k j) (seq 0 n)) = at_ b i j.
(** scipy.linalg.cho_solve((l, True), b), for a lower triangular l with non-zero diagonal *)
Definition cho_solve_contract (cho_solve : list (list R) -> list (list R) -> res (list (list R))) : Prop :=
  forall n m l b, is_mx n n l -> is_mx n m b -> (0 < n)%nat -> (0 < m)%nat ->
    (forall i j, (i < n)%nat -> (j < n)%nat -> (i < j)%nat -> at_ l i j = 0) ->
    (forall i, (i < n)%nat -> at_ l i i <> 0) ->
    exists x, cho_solve l b = Ok x /\ solves n m l b x.

(** what is subtracted from the outputs: the values of the prior mean at the training inputs *)
Definition residual (Y p : mat NumR) (i : nat) : R := out Y i - out p i.

(** minus the logarithm of the density of the normal distribution with mean 0 and covariance C at r,
    divided by n; B is the inverse of C *)
Definition gauss_nll (n : nat) (C B : list (list R)) (r : nat -> R) : R :=
  (quad n B r / 2 + ln (det n C) / 2 + INR n / 2 * ln (2 * PI)) / INR n.

(** minus the logarithm of the density of a normal variable *)
Definition normal_nll (mean var y : R) : R :=
  ln var / 2 + (y - mean) * (y - mean) / (2 * var) + ln (2 * PI) / 2.
(** the indices 0 .. n - 1 except i *)
Definition others (n i : nat) : list nat := (seq 0 i ++ seq (S i) (n - S i))%list.
(** the array made of row i only *)
Definition only (X : arr NumR) (i : nat) : arr NumR := take_rows X [i].
