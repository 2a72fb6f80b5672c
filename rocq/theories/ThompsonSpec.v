(** Vocabulary for Thompson sampling: what the trace of a run shows. *)
From Verif Require Import Base Num ThompsonModel.
From Coq Require Import List ZArith Bool.
Set Implicit Arguments.

Section Spec.
Context {N : Num}.

(** calls of the target, sets of initial points, sets of candidates, sampled functions *)
Definition ts_calls (t : list (tsev N)) : list (list N * res N) :=
  flat_map (fun ev => match ev with TsTarget x r => [(x, r)] | _ => [] end) t.
Definition inits_of (t : list (tsev N)) : list (list (list N)) :=
  flat_map (fun ev => match ev with TsInit p => [p] | _ => [] end) t.
Definition cands_of (t : list (tsev N)) : list (list (list N)) :=
  flat_map (fun ev => match ev with TsCands p => [p] | _ => [] end) t.
Definition drawn (t : list (tsev N)) : list (list N) :=
  flat_map (fun ev => match ev with TsDraw v => [v] | _ => [] end) t.

(** calls that end well *)
Definition ts_evaluated (l : list (list N * N)) : list (list N * res N) := map (fun p => (fst p, Ok (snd p))) l.
(** calls that end well, then possibly one that fails with the exception of the run *)
Definition calls_until (t : list (tsev N)) (e : exn) : Prop :=
  exists l tl, ts_calls t = (ts_evaluated l ++ tl)%list /\ (tl = [] \/ exists x, tl = [(x, Raise e)]).

(** the value at position [i] is smallest *)
Definition smallest_at (v : list N) (i : nat) : Prop :=
  exists a, nth_error v i = Some a /\ forall b, In b v -> nle N a b = true.
(** [p] is a candidate at which the sampled function is smallest *)
Definition minimises (pts : list (list N)) (v : list N) (p : list N) : Prop :=
  exists i, nth_error pts i = Some p /\ smallest_at v i.

Definition shape_of (a : nd N) : list nat :=
  match a with V1 l => [List.length l] | V2 m => [nrows m; mcols m] end.

(** scipy: a draw has one coordinate per coordinate of the mean *)
Definition draw_contract {W G} (mvn : list N -> list (list N) -> W -> W * res G) (rvs : G -> W -> W * res (list N)) : Prop :=
  forall mu S w w1 g, mvn mu S w = (w1, Ok g) -> forall w2 w3 v, rvs g w2 = (w3, Ok v) -> List.length v = List.length mu.
(** numpy: as many draws as asked for *)
Definition chi_contract {W} (chisquare : N -> Z -> W -> W * res (list N)) : Prop :=
  forall nu num w w1 x, chisquare nu num w = (w1, Ok x) -> Z.of_nat (List.length x) = num.
End Spec.
