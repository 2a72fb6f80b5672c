(** Bayesian optimisation with another origin for each coordinate of the inputs: prior means and optimisers. *)
From Verif Require Import Base Num HypsModel CovModel GPModel TreesModel TreesUnitsSpec BOModel MoveSpec.
From Coq Require Import List ZArith Bool Reals String.
Import ListNotations.
Local Open Scope R_scope.

(** the same prior mean, reading the new units *)
Definition same_prior (ax : axes) (p p' : prior NumR) : Prop :=
  match p, p' with
  | None, None => True
  | Some f, Some f' => forall X, (forall x, In x (mrows X) -> List.length x = List.length ax) -> f' (A2 NumR (conv_mat ax X)) = f (A2 NumR X)
  | _, _ => False
  end.

(** the same objective in the new units *)
Definition same_objective (ax : axes) (f f' : list NumR -> res NumR) : Prop :=
  forall x, List.length x = List.length ax -> f' (conv_in ax x) = f x.
(** a bounded optimiser with a starting point (L-BFGS-B, CMA-ES) that only moves relatively to the bounds and the starting point: for the same
    objective in the new units it returns the same point in the new units *)
Definition moves_along {W} (ax : axes) (opt : (list NumR -> res NumR) -> list NumR -> list (NumR * NumR) -> W -> W * res (list NumR)) : Prop :=
  forall f f' x0 b w, same_objective ax f f' -> List.length x0 = List.length ax -> List.length b = List.length ax ->
  opt f' (conv_in ax x0) (conv_range ax b) w = (let (w', r) := opt f x0 b w in (w', rmap (conv_in ax) r)) /\
  (forall w' x, opt f x0 b w = (w', Ok x) -> List.length x = List.length ax).
(** the same without a starting point (DIRECT) *)
Definition moves_with {W} (ax : axes) (opt : (list NumR -> res NumR) -> list (NumR * NumR) -> W -> W * res (list NumR)) : Prop :=
  forall f f' b w, same_objective ax f f' -> List.length b = List.length ax ->
  opt f' (conv_range ax b) w = (let (w', r) := opt f b w in (w', rmap (conv_in ax) r)) /\
  (forall w' x, opt f b w = (w', Ok x) -> List.length x = List.length ax).
(** what fitting the hyperparameters changes outside (random state, clock) does not depend on the origin *)
Definition same_after {W} (ax : axes) (aft : mat NumR -> list NumR -> string -> W -> W) : Prop :=
  forall X Y m w, (forall x, In x (mrows X) -> List.length x = List.length ax) -> aft (conv_mat ax X) Y m w = aft X Y m w.

(** what BOwGP.optimize and BOwTP.optimize report besides the next point: only the candidates are converted; covariance matrix, inverse,
    hyperparameters, responses, acquisition values and times are the same *)
Definition conv_gp_info {K} (ax : axes) (g : gp_info NumR K) : gp_info NumR K :=
  mkgpi NumR K (conv_mat ax (gi_points NumR K g)) (gi_acqs NumR K g) (gi_Yorig NumR K g) (gi_Ynorm NumR K g) (gi_cov NumR K g) (gi_inv NumR K g) (gi_hyps NumR K g)
    (gi_tsur NumR K g) (gi_tacq NumR K g) (gi_tall NumR K g).
