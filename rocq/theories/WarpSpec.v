(** Replacing each input coordinate by a strictly increasing function of it (logarithms, ranks, other scales):
    what must stay the same in a tree. *)
From Verif Require Import Base Num Monad TreesModel.
From Coq Require Import List ZArith Bool Reals.
Import ListNotations.
Local Open Scope R_scope.

(** one strictly increasing function for each coordinate *)
Definition warps : Type := list (R -> R).
Definition rising (g : R -> R) : Prop := forall u v, u < v -> g u < g v.
Definition sound_warps (gs : warps) : Prop := Forall rising gs.
Fixpoint warp (gs : warps) (x : list NumR) : list NumR :=
  match gs, x with g :: gs, v :: x => (g v : NumR) :: warp gs x | _, _ => [] end.
Definition warp_row (gs : warps) (r : row NumR) : row NumR := (warp gs (fst r), snd r).
Definition warp_mat (gs : warps) (X : mat NumR) : mat NumR := mkmat (map (warp gs) (mrows X)) (mcols X).

(** the same tests on the same coordinates, with other thresholds, and the same rows in the leaves *)
Fixpoint same_tree (gs : warps) (t t' : tree NumR) : Prop :=
  match t, t' with
  | TLeaf l, TLeaf l' => l' = map (warp_row gs) l
  | TNode i _ a b, TNode i' _ a' b' => i' = i /\ same_tree gs a a' /\ same_tree gs b b'
  | _, _ => False
  end.
(** a tree with its bootstrap sample, in both scales: the same rows, the same tree, and every row of the sample gets the same prediction *)
Definition grown_alike (gs : warps) (p p' : list (row NumR) * tree NumR) : Prop :=
  fst p' = map (warp_row gs) (fst p) /\ same_tree gs (snd p) (snd p') /\
  forall r, In r (fst p) -> predict_by_tree NumR (warp gs (fst r)) (snd p') = predict_by_tree NumR (fst r) (snd p).

(** the same final state and trace, and related results or the same exception *)
Definition outcomes {W E A B} (RA : A -> B -> Prop) (a : W * list E * res A) (b : W * list E * res B) : Prop :=
  fst (fst b) = fst (fst a) /\ snd (fst b) = snd (fst a) /\
  match snd a, snd b with Ok x, Ok y => RA x y | Raise e, Raise e' => e' = e | _, _ => False end.
