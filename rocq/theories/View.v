(** Helpers for the examples. *)
From Verif Require Import Base Num.
From Coq Require Import ZArith Floats.SpecFloat.
From Flocq Require Import IEEE754.BinarySingleNaN.

(** doubles for examples: m * 2^e *)
Definition fme (m e : Z) : f64 := binary_normalize prec64 emax64 prec64_gt_0 prec64_lt_emax mode_NE m e false.

(** a double without its validity proof, for comparing computed results *)
Definition fview (x : NumF) : SpecFloat.spec_float := B2SF (x : f64).


(** the exception, if any *)
Definition err {A} (r : res A) : option exn := match r with Ok _ => None | Raise e => Some e end.
