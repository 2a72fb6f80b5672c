(** BayesianOptimization as an object: its attributes and its three public methods (wrappers_bo_class.py:70-168, 280-446, 490-541).

    The attributes that change are those of model_bo: historical_hyps and is_optimize_hyps.  Everything else is in [bo_args] and in the
    objects of BOModel.v, which no method assigns.  Simplifications are those of WrapperModel.v and BOFullModel.v. *)
From Verif Require Import Base Num UtilsModel HypsModel CovModel GPModel LikModel HypOptModel AcqModel TreesModel SamplingModel
  Monad WrapperModel BOModel BOAcqModel BOFullModel BOProgram.
From Coq Require Import List ZArith Bool String.
Import ListNotations.
Local Open Scope string_scope.

Section Object.
Context (N : Num).

Inductive bo_object : Type :=
| GPObject (a : bo_args N) (o : gp_obj N) (s : gp_state N)
| TPObject (a : bo_args N) (o : tp_obj N) (s : list (dict N))
| RFObject (a : bo_args N) (o : rf_obj N).

Definition ob_args (ob : bo_object) : bo_args N := match ob with GPObject a _ _ => a | TPObject a _ _ => a | RFObject a _ => a end.

(** __init__ (wrappers_bo_class.py:70-168): a fresh model_bo has no stored hyperparameters and selects hyperparameters *)
Definition new_object (da ca : bool) (a : bo_args N) : res bo_object :=
  do m <- bo_init N da ca a;
  Ok (match m with MGP _ o => GPObject a o (mkgps N [] true) | MTP _ o => TPObject a o [] | MRF _ o => RFObject a o end).

(** assignment to the attribute num_iter *)
Definition with_num_iter (k : Z) (a : bo_args N) : bo_args N :=
  mkargs N (a_range N a) k (a_surrogate N a) (a_cov N a) (a_acq N a) (a_norm N a) (a_ard N a) (a_init N a) (a_samp N a)
    (a_opt_gp N a) (a_opt_tp N a) (a_opt_bo N a) (a_mlm N a) (a_msel N a) (a_num_samples N a).
Definition set_num_iter (k : Z) (ob : bo_object) : bo_object :=
  match ob with
  | GPObject a o s => GPObject (with_num_iter k a) o s
  | TPObject a o s => TPObject (with_num_iter k a) o s
  | RFObject a o => RFObject (with_num_iter k a) o
  end.

Section Methods.
Context (nexp nlog cdf pdf : N -> N) (npi : N).
Notation mx := (list (list N)).
Context (inv chol : mx -> res mx) (cho_solve : mx -> mx -> res mx) (slogdet : mx -> N * N) (ngamma ndigamma : N -> N).
Context (W : Type).
Context (get_samples : string -> Z -> option Z -> W -> W * res (list (list N))).
Context (lbfgsb : (list N -> res N) -> list N -> list (N * N) -> W -> W * res (list N)).
Context (direct : (list N -> res N) -> list (N * N) -> W -> W * res (list N)).
Context (cma : (list N -> res N) -> list N -> list (N * N) -> W -> W * res (list N)).
Context (time_ : W -> W * N).
Context (minimize : W -> minimizer N) (after : mat N -> list N -> string -> W -> W).
Context (prior_mu : prior N).
Context (choice : nat -> nat -> bool -> W -> W * res (list nat)) (uniform : N -> N -> W -> W * res N) (trunc : N -> option Z)
  (schedule : nat -> list nat).
Context (fun_target : list N -> W -> W * res N).

(** optimize_single_iteration, wrappers_bo_class.py:280-314 *)
Definition object_single (X : mat N) (Y : list N) (obw : bo_object * W) : (bo_object * W) * res (list N * info N) :=
  match obw with
  | (GPObject a o s, w) =>
      match gp_single N nexp nlog cdf pdf npi inv chol cho_solve slogdet W get_samples lbfgsb direct cma time_ minimize after prior_mu o
              (a_samp N a) (a_num_samples N a) (a_mlm N a) X Y (s, w) with ((s', w'), r) => ((GPObject a o s', w'), r) end
  | (TPObject a o s, w) =>
      match tp_single N nexp nlog cdf pdf npi inv slogdet ngamma ndigamma W get_samples lbfgsb direct cma time_ minimize after prior_mu o
              (a_samp N a) (a_num_samples N a) X Y (s, w) with ((s', w'), r) => ((TPObject a o s', w'), r) end
  | (RFObject a o, w) =>
      match rf_single N nlog cdf pdf W get_samples time_ choice uniform trunc schedule o
              (a_samp N a) (a_num_samples N a) X Y (tt, w) with ((_, w'), r) => ((RFObject a o, w'), r) end
  end.

Notation Mo := (M (bo_object * W) (event N)).
(** optimize_with_all_initial_information, wrappers_bo_class.py:316-400 *)
Definition object_all_initial (X : mat N) (Y : list N) : Mo (run_out N) := fun obw =>
  class_all_initial N (bo_object * W) (fun x => onsnd W (fun_target x)) (onsnd W time_) object_single (a_num_iter N (ob_args (fst obw))) X Y obw.
(** optimize_with_initial_inputs, wrappers_bo_class.py:402-446 *)
Definition object_initial_inputs (X : mat N) : Mo (run_out N) := fun obw =>
  class_initial_inputs N (bo_object * W) (fun x => onsnd W (fun_target x)) (onsnd W time_) object_single (a_num_iter N (ob_args (fst obw))) X obw.
(** optimize, wrappers_bo_class.py:490-541 *)
Definition object_optimize (num_init : Z) (seed : option Z) : Mo (run_out N) := fun obw =>
  run_class N W get_samples time_ fun_target object_single (a_init N (ob_args (fst obw))) (a_num_iter N (ob_args (fst obw))) num_init seed obw.
End Methods.
End Object.
Arguments GPObject {N}. Arguments TPObject {N}. Arguments RFObject {N}.
