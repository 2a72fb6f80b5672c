(** Specification vocabulary for the BO classes. *)
From Verif Require Import Base Num HypsModel HypsSpec BOModel.
From Coq Require Import List ZArith Bool String.
Local Open Scope string_scope.

Section Construct.
Context (N : Num).

(** the acquisition optimisers each surrogate accepts *)
Definition fits_surrogate (surrogate opt_bo : string) : Prop :=
  (surrogate = "rf" /\ opt_bo = "random_search") \/
  ((surrogate = "gp" \/ surrogate = "tp") /\ In opt_bo ["L-BFGS-B"; "DIRECT"; "CMA-ES"]).

(** everything else about the arguments is valid *)
Definition otherwise_valid (a : bo_args N) : Prop :=
  Forall (fun b => nle N (fst b) (snd b) = true) (a_range N a) /\ (0 < a_num_iter N a)%Z /\ (0 < a_num_samples N a)%Z /\
  In (a_surrogate N a) ["gp"; "tp"; "rf"] /\
  In (a_cov N a) cov_names /\
  In (a_acq N a) ["pi"; "ei"; "ucb"; "aei"; "pure_exploit"; "pure_explore"] /\
  In (a_init N a) ["sobol"; "halton"; "uniform"; "gaussian"] /\
  In (a_samp N a) ["grid"; "sobol"; "halton"; "uniform"; "gaussian"] /\
  In (a_opt_gp N a) ["BFGS"; "L-BFGS-B"; "SLSQP"; "SLSQP-Bounded"; "Nelder-Mead"] /\
  In (a_opt_tp N a) ["L-BFGS-B"; "SLSQP"] /\
  In (a_opt_bo N a) ["L-BFGS-B"; "DIRECT"; "CMA-ES"; "random_search"] /\
  In (a_mlm N a) ["regular"; "combined"; "converged"] /\
  In (a_msel N a) ["ml"; "loocv"].
End Construct.

Section Values.
Context (N : Num).
(** the negative acquisition, as an independent formula: -1 * (10 * value) *)
Definition negacq (a : list N) : list N := map (fun v => nmul N (nofZ N (-1)) (nmul N v (nofZ N 10))) a.
(** every fit is made on the data given *)
Definition fits_on (X : mat N) (Y : list N) (t : list (fitev N)) : Prop := Forall (fun e => snd (fst e) = X /\ snd e = Y) t.

End Values.
