(** Vocabulary for properties of predictions near measured inputs and for small moves of the input:
    the distance that a kernel puts on inputs, repeated measurements, the size of the responses.
    Only the data types of the model and the kernels of [CovSpec] are used. *)
From Verif Require Import Base Num UtilsSpec HypsModel CovModel KernelSpec CovSpec GPModel GPSpec.
From Coq Require Import List Reals String.
Import ListNotations.
Open Scope R_scope.
Local Open Scope string_scope.
Set Implicit Arguments.

(** the variance of f e - f z when the values of f have covariance [K] *)
Definition kernel_gap (K : elem -> elem -> R) (e z : elem) : R := K e e - 2 * K e z + K z z.
(** the input [e] occurs at [k] different positions of [X] *)
Definition measured (X : arr NumR) (e : elem) (k : nat) : Prop :=
  exists I, NoDup I /\ List.length I = k /\ forall i, In i I -> (i < alen X)%nat /\ elem_nth X i = e.
(** sum of the squared deviations of the responses from the prior mean [m] *)
Definition deviation_sq (m : elem -> R) (X : arr NumR) (Y : mat NumR) : R :=
  Rsum (map (fun i => (out Y i - m (elem_nth X i)) * (out Y i - m (elem_nth X i))) (seq 0 (alen X))).

(** minus the second derivative at zero of the profile of each kernel *)
Definition curvature (name : string) : R :=
  if name =? "matern32" then 3 else if name =? "matern52" then 5 / 3 else 1.
