(** The classes BOwGP, BOwTP and BOwTrees with their own surrogates: [BOModel] instantiated with the models of
    gp_kernel.get_optimized_kernel, tp_kernel.get_optimized_kernel, gp_likelihood.neg_log_ml, covariance.get_kernel_inverse,
    trees_random_forest.get_random_forest and compute_acquisitions.

    What is left as parameters are numpy and scipy: exp, log, norm.cdf, norm.pdf, pi, gamma, digamma, linalg.inv,
    linalg.slogdet, cholesky, cho_solve, random draws, samplers, time.time, and the optimisers.  scipy.optimize.minimize may behave
    differently at every call ([minimize w]) and change the world ([after]).
    Simplification: in the mode 'combined' the prior mean of the training inputs is computed once before the loop
    (bo_w_gp.py:395), here at each evaluation of the likelihood; it is the same array, because a prior mean is a function.  If it
    raises, the exception comes here from the first fit. *)
From Verif Require Import Base Num UtilsModel HypsModel CovModel GPModel LikModel HypOptModel AcqModel TreesModel SamplingModel
  Monad WrapperModel BOModel BOAcqModel.
From Coq Require Import List ZArith Bool String.
Set Implicit Arguments.
Local Open Scope string_scope.

Section Full.
Context (N : Num) (nexp nlog cdf pdf : N -> N) (npi : N).
Notation mx := (list (list N)).
Context (inv chol : mx -> res mx) (cho_solve : mx -> mx -> res mx) (slogdet : mx -> N * N) (ngamma ndigamma : N -> N).
Context (W : Type).
Context (get_samples : string -> Z -> option Z -> W -> W * res (list (list N))).
Context (lbfgsb : (list N -> res N) -> list N -> list (N * N) -> W -> W * res (list N)).
Context (direct : (list N -> res N) -> list (N * N) -> W -> W * res (list N)).
Context (cma : (list N -> res N) -> list N -> list (N * N) -> W -> W * res (list N)).
Context (time_ : W -> W * N).
Context (minimize : W -> minimizer N) (after : mat N -> list N -> string -> W -> W).
(** self.prior_mu *)
Context (prior_mu : prior N).

(** bo_w_gp.py:382-389, 399-406, 425-432; fix_noise is left at its default constants.FIX_GP_NOISE = True *)
Definition gp_fit_full (X : mat N) (Y : list N) (cov meth msel : string) (ard : bool) (w : W) : W * res (mx * mx * dict N) :=
  (after X Y meth w,
   get_optimized_kernel nexp nlog npi inv chol cho_solve slogdet (minimize w) (A2 N X) (column_of N Y) prior_mu cov meth msel ard true).
(** bo_w_gp.py:440-441 *)
Definition gp_kernel_full (X : mat N) (h : dict N) (cov : string) : res (mx * mx) :=
  do k <- get_kernel_inverse nexp inv (A2 N X) h cov true false; Ok (fst (fst k), snd (fst k)).
(** bo_w_gp.py:395, 407-412 *)
Definition gp_nlml_full (X : mat N) (Y : list N) (v : list N) (cov : string) (ard : bool) : res N :=
  do p <- get_prior_mu prior_mu (A2 N X);
  do r <- neg_log_ml nexp nlog npi inv chol cho_solve slogdet (A2 N X) (column_of N Y) v cov p ard true true false;
  Ok (fst r).
Definition gp_acq_full (num_dim : nat) (str_acq str_cov : string) : mat N -> list N -> mx -> mx -> dict N -> list (list N) -> res (list N) :=
  gp_acquisitions nexp cdf pdf nlog num_dim prior_mu str_acq str_cov.
(** BOwGP.optimize, bo_w_gp.py:321-490 *)
Definition gp_optimize_full (o : gp_obj N) :=
  gp_optimize N W mx get_samples lbfgsb direct cma time_ gp_fit_full gp_kernel_full gp_nlml_full
    (gp_acq_full (List.length (go_range N o))) o.

(** bo_w_tp.py:358-366 *)
Definition tp_fit_full (X : mat N) (Y : list N) (cov meth : string) (ard : bool) (w : W) : W * res (mx * mx * dict N) :=
  (after X Y meth w,
   tp_get_optimized_kernel nexp nlog npi inv slogdet ngamma ndigamma (minimize w) (A2 N X) (column_of N Y) prior_mu cov meth ard true).
Definition tp_acq_full (num_dim : nat) (str_acq str_cov : string) : mat N -> list N -> mx -> mx -> dict N -> list (list N) -> res (list N) :=
  tp_acquisitions nexp cdf pdf nlog num_dim prior_mu str_acq str_cov.
(** BOwTP.optimize, bo_w_tp.py:311-412 *)
Definition tp_optimize_full (o : tp_obj N) :=
  tp_optimize N W mx get_samples lbfgsb direct cma time_ tp_fit_full (tp_acq_full (List.length (to_range N o))) o.

(** np.random.choice and np.random.uniform; int(.); completion order of a worker pool with k tasks *)
Context (choice : nat -> nat -> bool -> W -> W * res (list nat)) (uniform : N -> N -> W -> W * res N) (trunc : N -> option Z)
  (schedule : nat -> list nat).
(** bo_w_trees.py:69-115 *)
Definition rf_trees_full (num_dim : nat) (X : mat N) (Y : list N) (w : W) : W * res (list (tree N)) :=
  match bo_get_trees N W choice uniform trunc X Y num_dim w with (w', _, r) => (w', rmap (map snd) r) end.
(** BOwTrees.optimize, bo_w_trees.py:197-283 *)
Definition rf_optimize_full (o : rf_obj N) :=
  rf_optimize N W get_samples time_ (list (tree N)) (rf_trees_full (List.length (ro_range N o)))
    (fun str_acq => rf_acquisitions cdf pdf nlog (List.length (ro_range N o)) str_acq schedule) o.
End Full.
