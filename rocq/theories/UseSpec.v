(** Programs that construct a BayesianOptimization object and then call its methods any number of times, in any order. *)
From Verif Require Import Base Num Monad UtilsModel HypsModel CovModel GPModel HypOptModel WrapperModel BOModel BOObject BOTotalSpec.
From Coq Require Import List ZArith Bool String Reals.
Import ListNotations.

(** one call of a public method, with its arguments *)
Inductive use (N : Num) : Type :=
| WithAll (X : mat N) (Y : list N)               (** optimize_with_all_initial_information(X, Y) *)
| WithInputs (X : mat N)                         (** optimize_with_initial_inputs(X) *)
| FromScratch (num_init : Z) (seed : option Z).  (** optimize(num_init, seed) *)
Arguments WithAll {N}. Arguments WithInputs {N}. Arguments FromScratch {N}.

(** meaning of a call, given the three methods *)
Definition call_of {N : Num} {M : Type} (all_initial : mat N -> list N -> M) (initial_inputs : mat N -> M) (optimize : Z -> option Z -> M) (u : use N) : M :=
  match u with WithAll X Y => all_initial X Y | WithInputs X => initial_inputs X | FromScratch n s => optimize n s end.

(** arguments that make sense: at least one point, all points in the search space, a response for each *)
Definition sensible (r : list (R * R)) (u : use NumR) : Prop :=
  match u with
  | WithAll X Y => mrows X <> [] /\ mcols X = List.length r /\ Forall (in_range r) (mrows X) /\ List.length Y = nrows X
  | WithInputs X => mrows X <> [] /\ mcols X = List.length r /\ Forall (in_range r) (mrows X)
  | FromScratch n _ => (0 < n)%Z
  end.
(** the number of evaluations a call starts with *)
Definition given (u : use NumR) : nat := match u with WithAll X _ | WithInputs X => nrows X | FromScratch n _ => Z.to_nat n end.
