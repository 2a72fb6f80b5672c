(** Vocabulary for targets that overwrite their argument or reuse their result. *)
From Verif Require Import Base Num Monad WrapperModel MutModel.
From Coq Require Import List.

Section Spec.
Context (N : Num) (W : Type) (cell : W -> nat -> N) (target : list N -> W -> W * list N * res (val N)) (time_ : W -> W * N).
(** the argument is as before when the target returns *)
Definition leaves_argument : Prop := forall x w w' x' v, target x w = (w', x', Ok v) -> x' = x.
(** what the target returned does not change later: there is an order of the worlds, respected by the target and the clock, along which returned arrays keep their content *)
Definition results_stay : Prop := exists later : W -> W -> Prop,
  (forall w, later w w) /\ (forall a b c, later a b -> later b c -> later a c) /\
  (forall x w, later w (fst (fst (target x w)))) /\ (forall w, later w (fst (time_ w))) /\
  (forall x w w' x' v w'', target x w = (w', x', Ok v) -> later w' w'' -> deref N W cell w'' v = deref N W cell w' v).
(** a call that returned: argument, world before and after, argument afterwards, result *)
Record call : Type := mkcall { c_arg : list N; c_from : W; c_to : W; c_left : list N; c_val : val N }.
Definition returned (c : call) : Prop := target (c_arg c) (c_from c) = (c_to c, c_left c, Ok (c_val c)).
(** argument and value of a call *)
Definition pair_of (c : call) : list N * N := (c_arg c, deref N W cell (c_to c) (c_val c)).
End Spec.
