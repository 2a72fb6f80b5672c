(** Vocabulary for reported times: a clock that is not turned back, and lists of durations. *)
From Verif Require Import Base Num UtilsSpec WrapperModel.
From Coq Require Import List Reals.
Import ListNotations.
Open Scope R_scope.
Set Implicit Arguments.

(** [now w] is the true time in the world [w].  An operation takes time: *)
Definition passes {W A} (now : W -> R) (f : W -> W * A) : Prop := forall w, now w <= now (fst (f w)).
(** ... at least [d] *)
Definition takes {W A} (now : W -> R) (d : R) (f : W -> W * A) : Prop := forall w, now w + d <= now (fst (f w)).
(** time.time() returns the true time of some moment of the call *)
Definition reads_clock {W} (now : W -> R) (time_ : W -> W * R) : Prop := forall w, now w <= snd (time_ w) <= now (fst (time_ w)).

(** per round: the whole round, the surrogate, the acquisition function; [ds], [da] and [dt] are the least times of surrogate,
    acquisition function and target *)
Inductive rounds_ok (ds da dt : R) : list R -> list R -> list R -> Prop :=
| rounds_nil : rounds_ok ds da dt [] [] []
| rounds_cons t s a ts ss qs : ds <= s -> da <= a -> s + a + dt <= t -> rounds_ok ds da dt ts ss qs -> rounds_ok ds da dt (t :: ts) (s :: ss) (a :: qs).
(** a run of [n] rounds after initial evaluations that took [total]: the parts take at least their least times, surrogate, acquisition
    function and target together no more than their round, and initial evaluations and rounds together no more than the run *)
Definition times_ok (ds da dt : R) (n : nat) (total : R) (r : run_out NumR) : Prop :=
  exists initial rounds, ro_tall r = (initial ++ rounds)%list /\ length rounds = n /\ Forall (fun t => dt <= t) initial /\ rounds_ok ds da dt rounds (ro_tsur r) (ro_tacq r) /\
    Rsum (ro_tall r) <= total.
