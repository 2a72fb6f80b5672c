(** Derivatives of the negative log likelihoods: vocabulary. *)
From Verif Require Import Base Num UtilsSpec HypsModel CovModel KernelSpec CovSpec GPModel GPSpec LikSpec.
From Coq Require Import List Reals String.
Import ListNotations.
Open Scope R_scope.
Set Implicit Arguments.

(** the value of a likelihood when component [p] of the vector [th] is [t] *)
Definition value_at (f : list R -> res (R * option (list R))) (th : list R) (p : nat) (t : R) : R :=
  match f (lset th p t) with Ok (v, _) => v | Raise _ => 0 end.
(** B r *)
Definition apply_mx (n : nat) (B : list (list R)) (r : nat -> R) (i : nat) : R := Rsum (map (fun k => at_ B i k * r k) (seq 0 n)).

(** minus the logarithm of the density of the multivariate Student-t distribution with [nu] degrees of
    freedom, mean 0 and covariance C at r, divided by n *)
Definition student_nll (gamma : R -> R) (n : nat) (C B : list (list R)) (r : nat -> R) (nu : R) : R :=
  (INR n / 2 * ln ((nu - 2) * PI) + ln (det n C) / 2 - ln (gamma ((nu + INR n) / 2) / gamma (nu / 2))
   + (nu + INR n) / 2 * ln (1 + quad n B r / (nu - 2))) / INR n.
(** scipy.special.gamma and scipy.special.digamma for positive arguments *)
Definition gamma_contract (gamma digamma : R -> R) : Prop :=
  forall x, 0 < x -> 0 < gamma x /\ gamma (x + 1) = x * gamma x /\ derivable_pt_lim gamma x (gamma x * digamma x).

(** positions of the signal and of the degrees of freedom in the vector of hyperparameters *)
Definition gp_signal (fix_noise : bool) : nat := if fix_noise then 0%nat else 1%nat.
Definition tp_signal (fix_noise : bool) : nat := if fix_noise then 1%nat else 2%nat.
Definition tp_dof (fix_noise : bool) : nat := if fix_noise then 0%nat else 1%nat.
