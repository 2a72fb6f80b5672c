(** Vocabulary for error bounds of predictions and for sequences of proposals: functions of a kernel's space, search
    spaces, histories, and loops that evaluate the best point of an acquisition function. *)
From Verif Require Import Base Num UtilsSpec HypsModel CovModel KernelSpec CovSpec GPModel GPSpec BOAcqModel.
From Coq Require Import List Reals String ZArith.
Import ListNotations.
Open Scope R_scope.
Local Open Scope string_scope.
Set Implicit Arguments.

(** [f] less [m] is in the reproducing kernel Hilbert space of [K], with norm at most [B]: every linear combination of
    its values is at most [B] times the deviation of that combination under [K] *)
Definition in_ball (K : elem -> elem -> R) (m : elem -> R) (B : R) (f : elem -> R) : Prop :=
  forall l : list (R * elem), let v := Rsum (map (fun p => fst p * (f (snd p) - m (snd p))) l) in v * v <= B * B * qform K l.
(** sum of squared measurement errors *)
Definition errors_sq (f : elem -> R) (X : arr NumR) (Y : mat NumR) : R :=
  Rsum (map (fun i => (out Y i - f (elem_nth X i)) * (out Y i - f (elem_nth X i))) (seq 0 (alen X))).

(** the search space *)
Definition in_box (range : list (R * R)) (x : list R) : Prop := Forall2 (fun b v => fst b <= v <= snd b) range x.
(** the first [n] points of a sequence and the values of [f] there *)
Definition points_of (d : nat) (x : nat -> list R) (n : nat) : mat NumR := mkmat (map x (seq 0 n)) d.
Definition values_of (f : list R -> R) (x : nat -> list R) (n : nat) : list R := map (fun i => f (x i)) (seq 0 n).

(** BOwGP.compute_acquisitions at the points [pts] for the data [X], [Y] and the given hyperparameters, with the matrices of
    covariance.get_kernel_inverse (bo_w_gp.py:253-316, 376-379) *)
Definition acquisition_values (cdf pdf : R -> R) (inv : list (list R) -> res (list (list R))) (d : nat) (name : string) (h : dict NumR) (pm : prior NumR) (str_acq : string)
    (X : mat NumR) (Y : list R) (pts : list (list R)) : res (list R) :=
  do k <- @get_kernel_inverse NumR exp inv (A2 NumR X) h name true false;
  let '(C, B, _) := k in @gp_acquisitions NumR exp cdf pdf ln d pm str_acq name X Y C B h pts.

(** from round [n0] on, each point lies in the search space and its acquisition value is, up to [delta], the largest there *)
Definition follows (values : mat NumR -> list R -> list (list R) -> res (list R)) (d : nat) (range : list (R * R)) (f : list R -> R) (n0 : nat) (delta : R) (x : nat -> list R) : Prop :=
  forall n, (n0 <= n)%nat -> in_box range (x n) /\
    forall z a b, in_box range z -> values (points_of d x n) (values_of f x n) [x n; z] = Ok [a; b] -> b <= a + delta.
