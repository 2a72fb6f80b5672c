(** The whole program: BayesianOptimization(...) followed by .optimize(num_init, seed), for the three surrogates
    (wrappers_bo_class.py:70-168 and 490-541 over bo_w_gp.py, bo_w_tp.py and bo_w_trees.py). *)
From Verif Require Import Base Num UtilsModel HypsModel CovModel GPModel LikModel HypOptModel AcqModel TreesModel SamplingModel
  Monad WrapperModel BOModel BOAcqModel BOFullModel.
From Coq Require Import List ZArith Bool String.
Import ListNotations.
Local Open Scope string_scope.

Section Program.
Context (N : Num) (nexp nlog cdf pdf : N -> N) (npi : N).
Notation mx := (list (list N)).
Context (inv chol : mx -> res mx) (cho_solve : mx -> mx -> res mx) (slogdet : mx -> N * N) (ngamma ndigamma : N -> N).
Context (W : Type).
Context (get_samples : string -> Z -> option Z -> W -> W * res (list (list N))).
Context (lbfgsb : (list N -> res N) -> list N -> list (N * N) -> W -> W * res (list N)).
Context (direct : (list N -> res N) -> list (N * N) -> W -> W * res (list N)).
Context (cma : (list N -> res N) -> list N -> list (N * N) -> W -> W * res (list N)).
Context (time_ : W -> W * N).
Context (minimize : W -> minimizer N) (after : mat N -> list N -> string -> W -> W).
Context (prior_mu : prior N).
Context (choice : nat -> nat -> bool -> W -> W * res (list nat)) (uniform : N -> N -> W -> W * res N) (trunc : N -> option Z)
  (schedule : nat -> list nat).
Context (fun_target : list N -> W -> W * res N).

(** optimize (wrappers_bo_class.py:490-541) around any optimize_single_iteration; [St]: the attributes of model_bo that change *)
Definition run_class {St} (single : mat N -> list N -> St * W -> (St * W) * res (list N * info N))
    (meth : string) (num_iter num_init : Z) (seed : option Z) : M (St * W) (event N) (run_out N) :=
  class_optimize N (St * W) (fun x => onsnd W (fun_target x)) (onsnd W time_) single
    (fun m n s => onsnd W (get_initials N W get_samples m n s)) meth num_iter num_init seed.

(** optimize_single_iteration for each class, wrappers_bo_class.py:280-314 *)
Definition gp_single (o : gp_obj N) (samp : string) (num : Z) (mlm : string) (X : mat N) (Y : list N) :=
  untraced N W (gp_to_info N mx)
    (gp_optimize_full nexp nlog cdf pdf npi inv chol cho_solve slogdet get_samples lbfgsb direct cma time_ minimize after prior_mu o X Y samp num mlm None).
Definition tp_single (o : tp_obj N) (samp : string) (num : Z) (X : mat N) (Y : list N) :=
  untraced N W (gp_to_info N mx)
    (tp_optimize_full nexp nlog cdf pdf npi inv slogdet ngamma ndigamma get_samples lbfgsb direct cma time_ minimize after prior_mu o X Y samp num None).
Definition rf_single (o : rf_obj N) (samp : string) (num : Z) (X : mat N) (Y : list N) :=
  untraced N W (@rf_to_info N (list (tree N)))
    (rf_optimize_full nlog cdf pdf get_samples time_ choice uniform trunc schedule o X Y samp num None).

Definition forget {St E A} (m : M (St * W) E A) (s : St) (w : W) : W * list E * res A := match m (s, w) with (sw, t, r) => (snd sw, t, r) end.
(** a fresh object: no stored hyperparameters, selection on *)
Definition bo_program (da ca : bool) (a : bo_args N) (num_init : Z) (seed : option Z) (w : W) : W * list (event N) * res (run_out N) :=
  match bo_init N da ca a with
  | Raise e => (w, [], Raise e)
  | Ok (MGP _ o) => forget (run_class (gp_single o (a_samp N a) (a_num_samples N a) (a_mlm N a)) (a_init N a) (a_num_iter N a) num_init seed) (mkgps N [] true) w
  | Ok (MTP _ o) => forget (run_class (tp_single o (a_samp N a) (a_num_samples N a)) (a_init N a) (a_num_iter N a) num_init seed) [] w
  | Ok (MRF _ o) => forget (run_class (rf_single o (a_samp N a) (a_num_samples N a)) (a_init N a) (a_num_iter N a) num_init seed) tt w
  end.
End Program.
