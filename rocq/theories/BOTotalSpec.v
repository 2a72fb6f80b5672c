(** Vocabulary for "a run completes": what is asked of the libraries, and what valid arguments are (exact reals). *)
From Verif Require Import Base Num UtilsModel HypsModel CovModel CovSpec HypOptModel BOModel.
From Coq Require Import List ZArith Bool String Reals.
Import ListNotations.
Local Open Scope R_scope.
Local Open Scope string_scope.

(** the point has one coordinate per range and each is inside *)
Definition in_range (r : list (R * R)) (x : list R) : Prop := Forall2 (fun b v => fst b <= v <= snd b) r x.

(** no lower bound exceeds its upper bound: what BaseBO.__init__ asserts *)
Definition sound_range (r : list (R * R)) : Prop := Forall (fun b => fst b <= snd b) r.

(** scipy.optimize.minimize: if the objective returns (with a gradient, when one is used) at every vector of the right length
    without zeros, a vector of that length is returned *)
Definition proper_minimizer (minimize : minimizer NumR) : Prop :=
  forall f start m b (j : bool),
  (forall v : list R, List.length v = List.length start -> ~ In 0 v ->
     exists y g, f v = Ok (y, g) /\ (j = true -> exists g', g = Some g' /\ List.length g' = List.length v)) ->
  exists x, minimize f start m b j = Ok x /\ List.length x = List.length start.
(** bounded optimisers of the acquisition function: if the objective returns at every point of the dimension of the
    search space, a point of the search space is returned *)
Definition proper_from {W} (opt : (list NumR -> res NumR) -> list NumR -> list (NumR * NumR) -> W -> W * res (list NumR)) : Prop :=
  forall f x0 (r : list (R * R)) w, sound_range r -> List.length x0 = List.length r ->
  (forall x : list R, List.length x = List.length r -> exists v, f x = Ok v) -> exists w' x, opt f x0 r w = (w', Ok x) /\ in_range r x.
Definition proper_direct {W} (opt : (list NumR -> res NumR) -> list (NumR * NumR) -> W -> W * res (list NumR)) : Prop :=
  forall f (r : list (R * R)) w, sound_range r ->
  (forall x : list R, List.length x = List.length r -> exists v, f x = Ok v) -> exists w' x, opt f r w = (w', Ok x) /\ in_range r x.
(** samplers (C56): at least one point, all inside; as many as asked for, except for the grid *)
Definition proper_samples {W} (r : list (R * R)) (get_samples : string -> Z -> option Z -> W -> W * res (list (list NumR))) : Prop :=
  forall m num seed w, In m ["grid"; "sobol"; "halton"; "uniform"; "gaussian"] -> (0 < num)%Z ->
  exists w' l, get_samples m num seed w = (w', Ok l) /\ l <> [] /\ Forall (in_range r) l /\ (m <> "grid" -> List.length l = Z.to_nat num).
(** int(.) of an integer *)
Definition int_of_integers (trunc : R -> option Z) : Prop := forall z, trunc (IZR z) = Some z.
(** the target returns everywhere in the search space *)
Definition returns_in {W} (r : list (R * R)) (f : list NumR -> W -> W * res NumR) : Prop :=
  forall x w, in_range r x -> exists w' y, f x w = (w', Ok y).

(** n >= 1 observations of dimension d *)
Definition data (d : nat) (X : mat NumR) (Y : list NumR) : Prop :=
  (forall x, In x (mrows X) -> List.length x = d) /\ mcols X = d /\ nrows X = List.length Y /\ Y <> [].

Definition base_kernels : list string := ["eq"; "se"; "matern32"; "matern52"].
Definition acquisitions_ : list string := ["pi"; "ei"; "ucb"; "aei"; "pure_exploit"; "pure_explore"].
(** what the constructors accept, without the set kernels, and without leave-one-out selection for a single lengthscale in several dimensions (C39) *)
Definition gp_valid (o : gp_obj NumR) : Prop :=
  sound_range (go_range NumR o) /\
  In (go_cov NumR o) base_kernels /\ In (go_acq NumR o) acquisitions_ /\
  In (go_opt_gp NumR o) ["BFGS"; "L-BFGS-B"; "SLSQP"; "SLSQP-Bounded"; "Nelder-Mead"] /\
  In (go_opt_bo NumR o) ["L-BFGS-B"; "DIRECT"; "CMA-ES"] /\
  (go_msel NumR o = "ml" \/ go_msel NumR o = "loocv" /\ (go_ard NumR o = true \/ List.length (go_range NumR o) = 1%nat)).
Definition tp_valid (o : tp_obj NumR) : Prop :=
  sound_range (to_range NumR o) /\
  In (to_cov NumR o) base_kernels /\ In (to_acq NumR o) acquisitions_ /\ In (to_opt_tp NumR o) ["L-BFGS-B"; "SLSQP"] /\
  In (to_opt_bo NumR o) ["L-BFGS-B"; "DIRECT"; "CMA-ES"].
Definition rf_valid (o : rf_obj NumR) : Prop := In (ro_acq NumR o) acquisitions_ /\ ro_range NumR o <> [] /\ sound_range (ro_range NumR o).

(** options a run completes with: not a set kernel, and leave-one-out selection only with one lengthscale per dimension (C39) *)
Definition usable_options (a : bo_args NumR) : Prop :=
  a_range NumR a <> [] /\ (a_surrogate NumR a = "rf" \/ In (a_cov NumR a) base_kernels) /\
  (a_surrogate NumR a = "gp" -> a_msel NumR a = "loocv" -> a_ard NumR a = true \/ List.length (a_range NumR a) = 1%nat).
(** the result of a run that asked for n evaluations: n inputs of the search space and n responses *)
Definition complete_run (r : list (R * R)) (n : nat) (X : mat NumR) (Y : list NumR) : Prop :=
  nrows X = n /\ List.length Y = n /\ Forall (in_range r) (mrows X).
