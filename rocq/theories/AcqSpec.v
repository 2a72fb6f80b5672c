(** Acquisition functions as formulas over the reals. *)
From Verif Require Import Gauss.
From Coq Require Import Reals List String.
From Coquelicot Require Import Coquelicot.
Local Open Scope R_scope.

Definition is_best (Y : list R) (best : R) : Prop := In best Y /\ forall y, In y Y -> best <= y.

Definition pi_formula (jitter best m s : R) : R := Phi ((best - m) / (s + jitter)).
Definition ei_formula (jitter best m s : R) : R :=
  (best - m) * Phi ((best - m) / (s + jitter)) + s * phi ((best - m) / (s + jitter)).
Definition ucb_formula (kappa m s : R) : R := - m + kappa * s.
Definition aei_formula (jitter noise best m s : R) : R :=
  ei_formula jitter best m s * (1 - noise / sqrt (s ^ 2 + noise ^ 2)).

(** the list v holds f(mean_i, std_i) at every position i *)
Definition pointwise {A} (f : A -> A -> A) (mean std v : list A) : Prop :=
  List.length v = List.length mean /\
  forall i m s, nth_error mean i = Some m -> nth_error std i = Some s -> nth_error v i = Some (f m s).

(** E[max(best - f, 0)] for f normal with mean m and deviation s *)
Definition improvement_density (best m s t : R) : R := Rmax (best - (m + s * t)) 0 * phi t.
Definition expected_improvement (best m s v : R) : Prop :=
  is_RInt_gen (improvement_density best m s) (Rbar_locally m_infty) (Rbar_locally p_infty) v.
