(** Specification for property C132: sizes of changes of the responses. *)
From Verif Require Import Base Num UtilsSpec UtilsModel HypsModel CovModel KernelSpec CovSpec GPSpec.
From Coq Require Import List Reals.
Import ListNotations.
Open Scope R_scope.

(** Euclidean length of the difference of the first [n] outputs of two response arrays *)
Definition response_change (n : nat) (Y Y' : mat NumR) : R :=
  sqrt (Rsum (map (fun i => (out Y i - out Y' i) * (out Y i - out Y' i)) (seq 0 n))).
