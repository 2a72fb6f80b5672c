(** Specification for C134: which arrays fit together, and shapes. *)
From Verif Require Import Base Num HypsModel CovModel GPModel.
From Coq Require Import List String.
Import ListNotations.
Local Open Scope string_scope.

(** an n x m array *)
Definition is_array {A} (n m : nat) (a : list (list A)) : Prop := List.length a = n /\ forall r, In r a -> List.length r = m.
(** inputs of a kernel on points: a two-dimensional array; of a kernel on sets: a three-dimensional one *)
Definition kernel_takes {N : Num} (str_cov : string) (X : arr N) : Prop :=
  match X with
  | A2 _ _ => In str_cov ["eq"; "se"; "matern32"; "matern52"]
  | A3 _ _ _ _ => In str_cov ["set_eq"; "set_se"; "set_matern32"; "set_matern52"]
  end.
(** one response per input *)
Definition training_fits {N : Num} (X : arr N) (Y : mat N) (str_cov : string) : Prop :=
  alen X = nrows Y /\ kernel_takes str_cov X.
(** points of the same dimension *)
Definition same_dimension {N : Num} (X Xs : arr N) : Prop :=
  match X, Xs with
  | A2 _ m, A2 _ ms => mcols m = mcols ms
  | A3 _ _ _ d, A3 _ _ _ ds => d = ds
  | _, _ => False
  end.
(** prior means of training and test inputs: one value per input *)
Definition prior_fits {N : Num} (prior_mu : prior N) (X : arr N) : Prop :=
  match prior_mu with None => True | Some f => exists p, f X = Ok p /\ nrows p = alen X end.
(** a prior mean function that returns arrays *)
Definition prior_returns_arrays {N : Num} (prior_mu : prior N) : Prop :=
  match prior_mu with None => True | Some f => forall X p, f X = Ok p -> mat_wf p end.
Definition data_fits {N : Num} (X : arr N) (Y : mat N) (Xs : arr N) (str_cov : string) (prior_mu : prior N) : Prop :=
  training_fits X Y str_cov /\ same_dimension X Xs /\ prior_fits prior_mu X /\ prior_fits prior_mu Xs.
(** means, deviations and covariances at l inputs *)
Definition predicted {N : Num} (l : nat) (prior_mu : prior N) (mu sd S : list (list N)) : Prop :=
  (prior_returns_arrays prior_mu -> is_array l 1 mu) /\ is_array l 1 sd /\ is_array l l S.
