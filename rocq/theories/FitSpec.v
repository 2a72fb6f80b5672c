(** Vocabulary for "the chosen hyperparameters fit at least as well as the defaults" (exact reals). *)
From Verif Require Import Base Num HypsModel CovModel GPModel LikModel HypOptModel HypOptSpec.
From Coq Require Import List ZArith Bool String Reals.
Set Implicit Arguments.
Local Open Scope R_scope.

(** an optimiser that never returns a vector with a larger value than the start (if there is a value at the start) *)
Definition descends (minimize : minimizer NumR) : Prop :=
  forall f start m b j x v0 g0, minimize f start m b j = Ok x -> f start = Ok (v0, g0) -> exists v g, f x = Ok (v, g) /\ v <= v0.
(** an optimiser that stays within the bounds it is given, when the start does *)
Definition respects_bounds (minimize : minimizer NumR) : Prop :=
  forall f start m r j x, minimize f start m (Some r) j = Ok x -> within r start -> within r x.
(** an optimiser that returns when the objective has a value at the start *)
Definition answers (minimize : minimizer NumR) : Prop :=
  forall f start m b j v0, f start = Ok v0 -> exists x, minimize f start m b j = Ok x.

Section At.
Context (inv chol : list (list R) -> res (list (list R))) (cho_solve : list (list R) -> list (list R) -> res (list (list R)))
  (slogdet : list (list R) -> R * R) (gamma digamma : R -> R).
Context (X : arr NumR) (Y p : mat NumR) (name : string) (ard fx : bool).
(** the negative log marginal likelihood (neg_log_ml), the leave-one-out one (neg_log_pseudo_l_loocv) and that of the
    Student-t process at a dictionary of hyperparameters *)
Definition ml_at (h : dict NumR) : res R :=
  do th <- convert_hyps name h true fx;
  do r <- @neg_log_ml NumR exp ln PI inv chol cho_solve slogdet X Y th name p ard fx true false; Ok (fst r).
Definition loo_at (h : dict NumR) : res R :=
  do th <- convert_hyps name h true fx; @neg_log_pseudo_l_loocv NumR exp ln PI inv X Y th name p fx.
Definition tml_at (h : dict NumR) : res R :=
  do th <- convert_hyps name h false fx;
  do r <- @tp_neg_log_ml NumR exp ln PI inv slogdet gamma digamma X Y th name p ard fx false; Ok (fst r).
End At.
