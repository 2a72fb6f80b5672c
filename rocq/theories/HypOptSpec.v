(** Vocabulary for the choice of hyperparameters. *)
From Verif Require Import Base Num HypsModel CovModel GPModel HypOptModel.
From Coq Require Import List ZArith Bool String.
Set Implicit Arguments.

(** number of optimised hyperparameters *)
Definition num_hyps (use_gp use_ard fix_noise : bool) (dim : nat) : nat :=
  ((if fix_noise then 0 else 1) + (if use_gp then 0 else 1) + 1 + (if use_ard then dim else 1))%nat.

(** every component lies within its range *)
Definition within {N : Num} (r : list (N * N)) (v : list N) : Prop :=
  Forall2 (fun b x => nlt N (fst b) (snd b) = true /\ nle N (fst b) x = true /\ nle N x (snd b) = true) r v.

(** what the optimiser is given besides the objective: the default hyperparameters as a start, and the ranges *)
Definition good_call {N : Num} (use_gp use_ard fix_noise bounded : bool) (name : string) (dim : nat)
    (start : list N) (bounds : option (list (N * N))) : Prop :=
  exists r, get_range_hyps N name (Z.of_nat dim) use_gp use_ard fix_noise = Ok r /\ List.length r = List.length start /\
    List.length start = num_hyps use_gp use_ard fix_noise dim /\ within r start /\
    bounds = (if bounded then Some r else None) /\
    exists h0, get_hyps N name (Z.of_nat dim) use_gp use_ard = Ok h0 /\ convert_hyps name h0 use_gp fix_noise = Ok start.

(** an optimiser that evaluates the objective at the start before anything else *)
Definition evaluates_start {N : Num} (minimize : @minimizer N) : Prop :=
  forall f start m b j e, f start = Raise e -> minimize f start m b j = Raise e.
(** an optimiser whose outcome has as many components as the start *)
Definition keeps_length {N : Num} (minimize : @minimizer N) : Prop :=
  forall f start m b j x, minimize f start m b j = Ok x -> List.length x = List.length start.
