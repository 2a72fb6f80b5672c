(** What the samplers promise, in terms of float64 comparisons only. *)
From Verif Require Import Base Num SamplingModel.
From Coq Require Import List ZArith Bool Reals.
From Flocq Require Import Core IEEE754.BinarySingleNaN.
Local Open Scope R_scope.

(** [lo <= x <= hi] as Python evaluates it (false if NaN is involved) *)
Definition inside1 (r : f64 * f64) (x : f64) : Prop := Bleb (fst r) x = true /\ Bleb x (snd r) = true.
(** the point has one coordinate per range and each is inside *)
Definition in_box (range_X : list (f64 * f64)) (row : list f64) : Prop := Forall2 inside1 range_X row.

(** a finite range whose width does not overflow *)
Definition good_range (r : f64 * f64) : Prop :=
  is_finite (fst r) = true /\ is_finite (snd r) = true /\ Bleb (fst r) (snd r) = true /\ is_finite (fsub (snd r) (fst r)) = true.
(** ... and whose midpoint does not overflow either *)
Definition sum_finite (r : f64 * f64) : Prop := is_finite (fadd (snd r) (fst r)) = true.

(** contracts of numpy and scipy: unit draws are doubles in [0, 1), Gaussian draws are finite doubles, a quasi-random
    sample is a num x d array with entries in [0, 1) *)
Definition is_unit (u : f64) : Prop := is_finite u = true /\ 0 <= B2R u < 1.
Definition unit_contract {G} (d : G -> G * f64) : Prop := forall g, is_unit (snd (d g)).
Definition gauss_contract {G} (d : G -> G * f64) : Prop := forall g, is_finite (snd (d g)) = true.
Definition qmc_contract {W} (q : qmc_kind -> nat -> option Z -> Z -> W -> W * res (list (list f64))) : Prop :=
  forall k d seed num w w' s, q k d seed num w = (w', Ok s) ->
    List.length s = Z.to_nat num /\ Forall (fun r => List.length r = d /\ Forall is_unit r) s.
