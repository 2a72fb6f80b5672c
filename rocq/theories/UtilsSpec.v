(** Independent specifications for the utilities (no reference to the model's helpers). *)
From Verif Require Import Base Num.
From Coq Require Import List ZArith Bool Reals.
Set Implicit Arguments.

Section Spec.
Context (N : Num).

(** [v] is the best value among [seen] as an array element: the smallest value that is not NaN,
    or the array's infinity if nothing below infinity was seen. *)
Definition best_entry (seen : list N) (v : N) : Prop :=
  (In v seen /\ nltinf N v = true /\ forall y, In y seen -> nisnan N y = false -> nle N v y = true)
  \/ (ninf N = Some v /\ forall y, In y seen -> nltinf N y = false).

(** position [i] of [l] holds the first strict minimum among the values below infinity *)
Definition first_best (l : list N) (i : nat) : Prop :=
  exists v, nth_error l i = Some v /\ nltinf N v = true /\
    (forall j w, nth_error l j = Some w -> nisnan N w = false -> nle N v w = true) /\
    (forall j w, (j < i)%nat -> nth_error l j = Some w -> nle N w v = false).
End Spec.

(** sums of reals, right to left (independent of the model's left fold) *)
Fixpoint Rsum (l : list R) : R := match l with [] => 0%R | x :: r => (x + Rsum r)%R end.

(** a multi-index for a grid with [m] points in each of [d] dimensions *)
Definition grid_index (d m : nat) (t : list nat) : Prop :=
  List.length t = d /\ Forall (fun i => (i < m)%nat) t.

(** the i-th of m >= 2 equally spaced values from a to b *)
Definition spaced (a b : R) (m i : nat) : R := (a + (b - a) * (INR i / INR (m - 1)))%R.

(** a box and membership *)
Definition in_box (box : list (R * R)) (x : list R) : Prop :=
  Forall2 (fun r v => (fst r <= v <= snd r)%R) box x.
Definition corner (box : list (R * R)) (x : list R) : Prop :=
  Forall2 (fun r v => v = fst r \/ v = snd r) box x.
