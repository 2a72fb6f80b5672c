(** The functions of wrappers_bo_function.py applied to a BOwGP object, any number of times, each time with arguments of its own. *)
From Verif Require Import Base Num Monad UtilsModel HypsModel CovModel GPModel HypOptModel WrapperModel BOModel BOFullModel BOProgram BOTotalSpec.
From Coq Require Import List ZArith Bool String Reals.
Import ListNotations.
Local Open Scope string_scope.

(** the keyword arguments common to the three functions *)
Record fun_kw : Type := mkkw { kw_samp : string; kw_num : Z; kw_mlm : string; kw_iter : Z }.
(** one call of one of the functions, with its arguments *)
Inductive fun_use (N : Num) : Type :=
| FunAll (k : fun_kw) (X : mat N) (Y : list N)                                (** run_single_round_with_all_initial_information *)
| FunInputs (k : fun_kw) (X : mat N)                                          (** run_single_round_with_initial_inputs *)
| FunRound (k : fun_kw) (meth : string) (num_init : Z) (seed : option Z).     (** run_single_round *)
Arguments FunAll {N}. Arguments FunInputs {N}. Arguments FunRound {N}.

(** meaning of a call, given the three functions *)
Definition fun_call {N : Num} {M : Type} (all_initial : string -> Z -> string -> Z -> mat N -> list N -> M) (inputs : string -> Z -> string -> Z -> mat N -> M)
    (round : string -> string -> Z -> string -> Z -> Z -> option Z -> M) (u : fun_use N) : M :=
  match u with
  | FunAll k X Y => all_initial (kw_samp k) (kw_num k) (kw_mlm k) (kw_iter k) X Y
  | FunInputs k X => inputs (kw_samp k) (kw_num k) (kw_mlm k) (kw_iter k) X
  | FunRound k meth n s => round meth (kw_samp k) (kw_num k) (kw_mlm k) n (kw_iter k) s
  end.

Definition kw_ok (k : fun_kw) : Prop :=
  In (kw_samp k) ["grid"; "sobol"; "halton"; "uniform"; "gaussian"] /\ (0 < kw_num k)%Z /\ In (kw_mlm k) ["regular"; "combined"; "converged"].
(** arguments that make sense: known names, at least one point, all points in the search space, a response for each *)
Definition fun_sensible (r : list (R * R)) (u : fun_use NumR) : Prop :=
  match u with
  | FunAll k X Y => kw_ok k /\ mrows X <> [] /\ mcols X = List.length r /\ Forall (in_range r) (mrows X) /\ List.length Y = nrows X
  | FunInputs k X => kw_ok k /\ mrows X <> [] /\ mcols X = List.length r /\ Forall (in_range r) (mrows X)
  | FunRound k meth n _ => kw_ok k /\ In meth ["sobol"; "halton"; "uniform"; "gaussian"] /\ (0 < n)%Z
  end.
(** the number of evaluations the result of a call holds *)
Definition fun_total (u : fun_use NumR) : nat :=
  match u with
  | FunAll k X _ | FunInputs k X => nrows X + Z.to_nat (kw_iter k)
  | FunRound k _ n _ => Z.to_nat n + Z.to_nat (kw_iter k)
  end.
