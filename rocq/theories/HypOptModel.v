(** Model of bayeso/gp/gp_kernel.py and bayeso/tp/tp_kernel.py (choice of hyperparameters) and of
    predict_with_optimized_hyps (gp.py:163-220, tp.py:192-253).

    scipy.optimize.minimize is a parameter [minimize objective start method bounds jac] that returns the
    field [x] of its result or raises; otherwise the simplifications of [LikModel] apply.  Time measurements
    and debug messages are not modelled. *)
From Verif Require Import Base Num UtilsModel HypsModel CovModel GPModel LikModel.
From Coq Require Import List ZArith Bool String.
Set Implicit Arguments.
Local Open Scope string_scope.

(** constants.py:56-63, 75 *)
Definition ALLOWED_OPTIMIZER_METHOD_GP : list string := ["BFGS"; "L-BFGS-B"; "Nelder-Mead"; "SLSQP"; "SLSQP-Bounded"].
Definition ALLOWED_OPTIMIZER_METHOD_TP : list string := ["L-BFGS-B"; "SLSQP"].
Definition ALLOWED_MODELSELECTION_METHOD : list string := ["ml"; "loocv"].

Section Model.
Context (N : Num).
Notation mx := (list (list N)).
Context (nexp nlog : N -> N) (npi : N).
Context (inv chol : mx -> res mx) (cho_solve : mx -> mx -> res mx) (slogdet : mx -> N * N) (ngamma ndigamma : N -> N).

(** an objective: the value, and the gradient when it is asked for *)
Definition objective : Type := list N -> res (N * option (list N)).
Definition minimizer : Type := objective -> list N -> string -> option (list (N * N)) -> bool -> res (list N).

(** gp_kernel.py:86-91, tp_kernel.py:84-89 *)
Definition num_dim (X : arr N) (str_cov : string) : res nat :=
  match (if str_in str_cov ALLOWED_COV_BASE then nth_error (shape X) 1
         else if str_in str_cov ALLOWED_COV_SET then nth_error (shape X) 2 else None) with
  | Some d => Ok d
  | None => Raise IndexError
  end.

(** gp_kernel.py:93-104 *)
Definition gp_objective (X : arr N) (Y : mat N) (prior_mu_train : mat N) (str_cov modelselection : string)
    (use_ard fix_noise use_gradient : bool) : objective :=
  fun hyps =>
    if modelselection =? "ml" then
      neg_log_ml nexp nlog npi inv chol cho_solve slogdet X Y hyps str_cov prior_mu_train use_ard fix_noise true use_gradient
    else
      do v <- neg_log_pseudo_l_loocv nexp nlog npi inv X Y hyps str_cov prior_mu_train fix_noise; Ok (v, None).

(** gp_kernel.py:24-156 *)
Definition get_optimized_kernel (minimize : minimizer) (X : arr N) (Y : mat N) (prior_mu : prior N) (str_cov : string)
    (optimizer modelselection : string) (use_ard fix_noise : bool) : res (mx * mx * dict N) :=
  do _ <- validate_common_args X Y None;
  do _ <- check_str_cov str_cov (shape X) None;
  assert (str_in optimizer ALLOWED_OPTIMIZER_METHOD_GP);
  assert (str_in modelselection ALLOWED_MODELSELECTION_METHOD);
  do prior_mu_train <- get_prior_mu prior_mu X;
  do dim <- num_dim X str_cov;
  let use_gradient := negb (optimizer =? "Nelder-Mead") && str_in str_cov ALLOWED_COV_BASE
                      && negb (modelselection =? "loocv") in
  let f := gp_objective X Y prior_mu_train str_cov modelselection use_ard fix_noise use_gradient in
  do h0 <- get_hyps N str_cov (Z.of_nat dim) true use_ard;
  do start <- convert_hyps str_cov h0 true fix_noise;
  do x <- (if str_in optimizer ["BFGS"; "SLSQP"] then minimize f start optimizer None use_gradient
           else if str_in optimizer ["L-BFGS-B"; "SLSQP-Bounded"] then
             do bounds <- get_range_hyps N str_cov (Z.of_nat dim) true use_ard fix_noise;
             minimize f start (if optimizer =? "SLSQP-Bounded" then "SLSQP" else optimizer) (Some bounds) use_gradient
           else minimize f start optimizer None false);
  do hyps <- restore_hyps N str_cov x true use_ard fix_noise (GP_NOISE N);
  do hyps <- validate_hyps_dict hyps str_cov (Z.of_nat dim) true;
  do k <- get_kernel_inverse nexp inv X hyps str_cov fix_noise false;
  let '(cov_X_X, inv_cov_X_X, _) := k in
  Ok (cov_X_X, inv_cov_X_X, hyps).

(** tp_kernel.py:24-120 *)
Definition tp_get_optimized_kernel (minimize : minimizer) (X : arr N) (Y : mat N) (prior_mu : prior N) (str_cov : string)
    (optimizer : string) (use_ard fix_noise : bool) : res (mx * mx * dict N) :=
  do _ <- validate_common_args X Y None;
  do _ <- check_str_cov str_cov (shape X) None;
  assert (str_in optimizer ALLOWED_OPTIMIZER_METHOD_TP);
  do prior_mu_train <- get_prior_mu prior_mu X;
  do dim <- num_dim X str_cov;
  let f := fun hyps => tp_neg_log_ml nexp nlog npi inv slogdet ngamma ndigamma X Y hyps str_cov prior_mu_train
                         use_ard fix_noise false in
  do h0 <- get_hyps N str_cov (Z.of_nat dim) false use_ard;
  do start <- convert_hyps str_cov h0 false fix_noise;
  do bounds <- get_range_hyps N str_cov (Z.of_nat dim) false use_ard fix_noise;
  do x <- minimize f start optimizer (Some bounds) false;
  do hyps <- restore_hyps N str_cov x false use_ard fix_noise (GP_NOISE N);
  do hyps <- validate_hyps_dict hyps str_cov (Z.of_nat dim) false;
  do k <- get_kernel_inverse nexp inv X hyps str_cov fix_noise false;
  let '(cov_X_X, inv_cov_X_X, _) := k in
  Ok (cov_X_X, inv_cov_X_X, hyps).

(** gp.py:163-220; use_ard is left at its default True *)
Definition predict_with_optimized_hyps (minimize : minimizer) (X : arr N) (Y : mat N) (Xs : arr N) (str_cov optimizer : string)
    (prior_mu : prior N) (fix_noise : bool) : res (mx * mx * mx) :=
  do _ <- validate_common_args X Y (Some Xs);
  do _ <- check_str_cov str_cov (shape X) (Some (shape Xs));
  assert (str_in optimizer ALLOWED_OPTIMIZER_METHOD_GP);
  do k <- get_optimized_kernel minimize X Y prior_mu str_cov optimizer "ml" true fix_noise;
  let '(cov_X_X, inv_cov_X_X, hyps) := k in
  predict_with_cov nexp X Y Xs cov_X_X inv_cov_X_X hyps str_cov prior_mu.

(** tp.py:192-253: the optimiser is checked against the list of the Gaussian process *)
Definition tp_predict_with_optimized_hyps (minimize : minimizer) (X : arr N) (Y : mat N) (Xs : arr N)
    (str_cov optimizer : string) (prior_mu : prior N) (fix_noise : bool) : res (N * mx * mx * mx) :=
  do _ <- validate_common_args X Y (Some Xs);
  do _ <- check_str_cov str_cov (shape X) (Some (shape Xs));
  assert (str_in optimizer ALLOWED_OPTIMIZER_METHOD_GP);
  do k <- tp_get_optimized_kernel minimize X Y prior_mu str_cov optimizer true fix_noise;
  let '(cov_X_X, inv_cov_X_X, hyps) := k in
  tp_predict_with_cov nexp X Y Xs cov_X_X inv_cov_X_X hyps str_cov prior_mu.
End Model.
