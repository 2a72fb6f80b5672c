(** Vocabulary for the acquisition values of the BO classes. *)
From Verif Require Import Base Num HypsModel CovModel GPModel.
From Coq Require Import List Permutation.
Import ListNotations.
Set Implicit Arguments.

Section Any.
Context (N : Num).
(** the prior mean of an array of points is the list of the prior means of its points *)
Definition row_by_row (pm : prior N) : Prop :=
  match pm with
  | None => True
  | Some f => exists g : list N -> N, forall m, f (A2 N m) = Ok (mkmat (map (fun x => [g x]) (mrows m)) 1)
  end.
(** a function on batches of points that is computed point by point: either it raises for every batch, or there is a
    function of one point such that the value of every non-empty batch of points of dimension [d] is the list of the
    values of its points (and every other batch raises) *)
Definition by_point (d : nat) (g : list (list N) -> res (list N)) : Prop :=
  (forall pts, exists e, g pts = Raise e) \/
  (exists G : list N -> N,
     (forall pts, pts <> [] -> Forall (fun p => List.length p = d) pts -> g pts = Ok (map G pts)) /\
     (forall pts, ~ (pts <> [] /\ Forall (fun p => List.length p = d) pts) -> exists e, g pts = Raise e)).
(** the same when some points may have no value: a batch has values exactly if each of its points has one alone, and then
    they are these *)
Definition each_point (d : nat) (g : list (list N) -> res (list N)) : Prop :=
  forall pts l, g pts = Ok l <->
    pts <> [] /\ Forall (fun p => List.length p = d) pts /\ Forall2 (fun p v => g [p] = Ok [v]) pts l.
(** a pool completes each of its tasks once, in any order *)
Definition completes (schedule : nat -> list nat) : Prop := forall k, Permutation (schedule k) (seq 0 k).
End Any.
