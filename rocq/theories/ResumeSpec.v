(** Vocabulary for runs that are stopped and resumed, and for objects that are used again. *)
From Verif Require Import Base Num HypsModel WrapperModel WrapperSpec HypOptModel BOModel BOObject.
From Coq Require Import List ZArith Bool String.
Local Open Scope string_scope.

(** the operation treats worlds related by [same] alike: same result, and the worlds stay related *)
Definition unaware {W A} (same : W -> W -> Prop) (f : W -> W * A) : Prop :=
  forall w1 w2, same w1 w2 -> same (fst (f w1)) (fst (f w2)) /\ snd (f w1) = snd (f w2).

(** nothing but the clock depends on how often the clock was read: [same] relates worlds that differ only in that *)
Record clock_is_private (N : Num) (W : Type) (same : W -> W -> Prop)
    (get_samples : string -> Z -> option Z -> W -> W * res (list (list N)))
    (lbfgsb : (list N -> res N) -> list N -> list (N * N) -> W -> W * res (list N))
    (direct : (list N -> res N) -> list (N * N) -> W -> W * res (list N))
    (cma : (list N -> res N) -> list N -> list (N * N) -> W -> W * res (list N))
    (time_ : W -> W * N) (minimize : W -> minimizer N) (after : mat N -> list N -> string -> W -> W)
    (choice : nat -> nat -> bool -> W -> W * res (list nat)) (uniform : N -> N -> W -> W * res N)
    (fun_target : list N -> W -> W * res N) : Prop := {
  cp_refl : forall w, same w w;
  cp_sym : forall v w, same v w -> same w v;
  cp_trans : forall u v w, same u v -> same v w -> same u w;
  cp_time : forall w, same w (fst (time_ w));
  cp_samples : forall m n s, unaware same (get_samples m n s);
  cp_lbfgsb : forall f x r, unaware same (lbfgsb f x r);
  cp_direct : forall f r, unaware same (direct f r);
  cp_cma : forall f x r, unaware same (cma f x r);
  cp_minimize : forall w1 w2, same w1 w2 -> minimize w1 = minimize w2;
  cp_after : forall X Y m w1 w2, same w1 w2 -> same (after X Y m w1) (after X Y m w2);
  cp_choice : forall n k b, unaware same (choice n k b);
  cp_uniform : forall a b, unaware same (uniform a b);
  cp_target : forall x, unaware same (fun_target x) }.

(** equal inputs and responses, or the same exception; the measured times may differ *)
Definition same_history {N : Num} (r1 r2 : res (run_out N)) : Prop :=
  match r1, r2 with
  | Ok a, Ok b => ro_X a = ro_X b /\ ro_Y a = ro_Y b
  | Raise e, Raise e' => e = e'
  | _, _ => False
  end.

(** what the second part of a resumed run, started in a situation related to where the first part stopped, has to do with the
    uninterrupted run: together the two parts make the same calls of the target and end with the same inputs and responses.
    If the first part fails, so does the uninterrupted run, at the same call *)
Definition resumes {N : Num} {W : Type} (same : W -> W -> Prop) (first : W * list (event N) * res (run_out N))
    (second : mat N -> list N -> W -> W * list (event N) * res (run_out N)) (whole : W * list (event N) * res (run_out N)) : Prop :=
  match first, whole with
  | (w1, t1, Ok r1), (w3, t3, r3) => forall v, same w1 v ->
      match second (ro_X r1) (ro_Y r1) v with
      | (w2, t2, r2) => same w2 w3 /\ calls_of N (t1 ++ t2)%list = calls_of N t3 /\ same_history r2 r3
      end
  | (w1, t1, Raise e), (w3, t3, r3) => same w1 w3 /\ calls_of N t1 = calls_of N t3 /\ r3 = Raise e
  end.

(** two objects constructed with the same arguments, whatever hyperparameters they have stored since *)
Definition same_settings {N : Num} (ob1 ob2 : bo_object N) : Prop :=
  match ob1, ob2 with
  | GPObject a o _, GPObject a' o' _ => a = a' /\ o = o'
  | TPObject a o _, TPObject a' o' _ => a = a' /\ o = o'
  | RFObject a o, RFObject a' o' => a = a' /\ o = o'
  | _, _ => False
  end.
(** the mode that keeps hyperparameters from one proposal to the next is not used *)
Definition memoryless {N : Num} (ob : bo_object N) : Prop :=
  match ob with GPObject a _ _ => a_mlm N a <> "converged" | _ => True end.

(** the same object (up to its attribute num_iter) in a world that differs only in the readings of the clock *)
Definition same_object {N : Num} {W : Type} (same : W -> W -> Prop) (x y : bo_object N * W) : Prop :=
  set_num_iter N 0 (fst x) = set_num_iter N 0 (fst y) /\ same (snd x) (snd y).
(** another object with the same settings (up to num_iter), whatever it has stored; not in the mode that reads what is stored *)
Definition equal_object {N : Num} {W : Type} (same : W -> W -> Prop) (x y : bo_object N * W) : Prop :=
  same_settings (set_num_iter N 0 (fst x)) (set_num_iter N 0 (fst y)) /\ memoryless (fst x) /\ same (snd x) (snd y).
(** two uses that cannot be told apart: worlds, events (with all times) and results are equal *)
Definition same_use {N : Num} {W A : Type} (x y : (bo_object N * W) * list (event N) * res A) : Prop :=
  match x, y with
  | ((ob1, w1), t1, r1), ((ob2, w2), t2, r2) => w1 = w2 /\ t1 = t2 /\ r1 = r2 /\ same_settings (set_num_iter N 0 ob1) (set_num_iter N 0 ob2)
  end.
