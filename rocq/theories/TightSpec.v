(** Vocabulary for C117, C118: attempts in turn; shapes the plotting functions ask for. *)
From Verif Require Import Base Num HypsModel CovModel.
From Coq Require Import List ZArith Bool Reals.
Import ListNotations.
Set Implicit Arguments.

(** all attempts [js] fail one after the other with an exception that is retried; [w] is the state before, [w'] after *)
Inductive all_failed {J W E A : Type} (attempt : J -> W -> W * list E * res A) (retried : exn -> Prop) : list J -> W -> W -> Prop :=
| failed_none w : all_failed attempt retried [] w w
| failed_more j js w w1 w' t e : attempt j w = (w1, t, Raise e) -> retried e -> all_failed attempt retried js w1 w' ->
    all_failed attempt retried (j :: js) w w'.

(** Sigma + j I *)
Definition plus_diagonal (S : list (list R)) (j : R) : list (list R) :=
  map (fun p => map (fun q => (snd q + (if Nat.eqb (fst p) (fst q) then j else 0))%R) (combine (seq 0 (List.length (snd p))) (snd p)))
      (combine (seq 0 (List.length S)) S).

Section Shapes.
Context {N : Num}.
(** a column of [n] entries *)
Definition column (n : nat) (m : mat N) : Prop := nrows m = n /\ mcols m = 1%nat.
Definition opt_column (n : nat) (m : option (mat N)) : Prop := match m with Some m => column n m | None => True end.
Definition step_shapes (X_train Y_train X_test Y_test mean_test std_test : mat N) (acq_test : option (mat N)) (num_init : option Z) : Prop :=
  mcols X_train = 1%nat /\ column (nrows X_train) Y_train /\
  mcols X_test = 1%nat /\ column (nrows X_test) Y_test /\ column (nrows X_test) mean_test /\ column (nrows X_test) std_test /\ opt_column (nrows X_test) acq_test /\
  match num_init with Some k => (k <= Z.of_nat (nrows X_train))%Z | None => True end.
Definition gp_shapes (X_train Y_train X_test mean_test std_test : mat N) (Y_test : option (mat N)) : Prop :=
  mcols X_train = 1%nat /\ column (nrows X_train) Y_train /\
  mcols X_test = 1%nat /\ column (nrows X_test) mean_test /\ column (nrows X_test) std_test /\ opt_column (nrows X_test) Y_test.
End Shapes.
