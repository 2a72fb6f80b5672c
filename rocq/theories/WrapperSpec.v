(** Specification vocabulary for runs of Bayesian optimisation. *)
From Verif Require Import Base Num UtilsModel UtilsSpec UtilsProofs WrapperModel.
From Coq Require Import List ZArith Bool.

Section Spec.
Context (N : Num).

(** calls of the target in a trace: argument and outcome, in order *)
Definition calls_of (t : list (event N)) : list (list N * res N) :=
  flat_map (fun ev => match ev with EvTarget x r => [(x, r)] | EvModel _ _ _ => [] end) t.

(** successful evaluations *)
Definition evaluated (l : list (list N * N)) : list (list N * res N) :=
  map (fun p => (fst p, Ok (snd p))) l.

(** an event that ends well, and one that fails with [e] *)
Definition ev_ok (ev : event N) : Prop :=
  match ev with EvModel _ _ (Ok _) | EvTarget _ (Ok _) => True | _ => False end.
Definition ev_fails (ev : event N) (e : exn) : Prop :=
  match ev with EvModel _ _ (Raise e') | EvTarget _ (Raise e') => e' = e | _ => False end.

(** [p] is within 1e-8 of [q] in the Euclidean norm *)
Definition close (p q : list N) : Prop := nlt N (nnorm N (vsub N p q)) (nlit N 1 100000000) = true.
(** [x] is new with respect to [rows] *)
Definition fresh_from (rows : list (list N)) (x : list N) : Prop := forall q, In q rows -> ~ close x q.

(** the query [x] made when [rows] had been evaluated, the surrogate proposed [next] and offered [cands] *)
Definition good_query (rows : list (list N)) (next : list N) (cands : list (list N)) (x : list N) : Prop :=
  (x = next /\ fresh_from rows next) \/
  (~ fresh_from rows next /\ In x cands /\ fresh_from rows x) \/
  (~ fresh_from rows next /\ (forall q, In q cands -> ~ fresh_from rows q) /\ exists pre, rows = (pre ++ [x])%list).

(** inside the box *)
Definition inside (bounds : list (N * N)) (x : list N) : Prop :=
  Forall2 (fun b v => nle N (fst b) v = true /\ nle N v (snd b) = true) bounds x.
(** outcome of a run against its events *)
Definition propagates (t : list (event N)) {A} (r : res A) : Prop :=
  match r with
  | Ok _ => Forall ev_ok t
  | Raise e => exists t0 tl, t = (t0 ++ tl)%list /\ Forall ev_ok t0 /\ (tl = [] \/ exists ev, tl = [ev] /\ ev_fails ev e)
  end.
End Spec.
