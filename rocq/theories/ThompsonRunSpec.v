(** Vocabulary for whole runs of Thompson sampling on exact reals: what is asked of the samplers and of scipy's normal distribution. *)
From Verif Require Import Base Num UtilsModel CovSpec BOTotalSpec.
From Coq Require Import List ZArith Bool String Reals.
Import ListNotations.
Local Open Scope string_scope.

(** get_initials: as many points as asked for, all inside *)
Definition proper_initials {W} (r : list (R * R)) (get_initials : string -> Z -> option Z -> W -> W * res (list (list NumR))) : Prop :=
  forall m num seed w, In m ["sobol"; "halton"; "uniform"; "gaussian"] -> (0 < num)%Z ->
  exists w' l, get_initials m num seed w = (w', Ok l) /\ Forall (in_range r) l /\ List.length l = Z.to_nat num.
(** multivariate_normal: accepts a mean and a symmetric positive definite covariance matrix of its size, and can then be drawn from *)
Definition proper_normal {W G} (mvn : list NumR -> list (list NumR) -> W -> W * res G) (rvs : G -> W -> W * res (list NumR)) : Prop :=
  forall mu S w, is_mx (List.length mu) (List.length mu) S -> symmetric (List.length mu) S -> definite (List.length mu) S ->
  exists w' g, mvn mu S w = (w', Ok g) /\ forall w2, exists w3 v, rvs g w2 = (w3, Ok v) /\ List.length v = List.length mu.
