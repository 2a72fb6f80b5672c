(** Changes of units: one increasing affine map for each input coordinate and one for the responses. *)
From Verif Require Import Base Num Monad TreesModel.
From Coq Require Import List ZArith Bool Reals.
Import ListNotations.
Local Open Scope R_scope.

(** slope and offset for each coordinate *)
Definition axes : Type := list (R * R).
Definition sound_axes (ax : axes) : Prop := Forall (fun ac => 0 < fst ac) ax.
Definition on_axis (ac : R * R) (v : R) : R := fst ac * v + snd ac.
Fixpoint conv_in (ax : axes) (x : list NumR) : list NumR :=
  match ax, x with ac :: ax, v :: x => on_axis ac v :: conv_in ax x | _, _ => [] end.
(** slope and offset for the responses *)
Definition conv_out (be : R * R) (y : NumR) : NumR := fst be * y + snd be.
Definition conv_row (ax : axes) (be : R * R) (r : row NumR) : row NumR := (conv_in ax (fst r), conv_out be (snd r)).
(** a tree in the new units: the same tests, on converted values; the same leaves, converted *)
Fixpoint conv_tree (ax : axes) (be : R * R) (t : tree NumR) : tree NumR :=
  match t with
  | TLeaf l => TLeaf (map (conv_row ax be) l)
  | TNode i v a b => @TNode NumR i (on_axis (nth i ax (1, 0)) v) (conv_tree ax be a) (conv_tree ax be b)
  end.
(** a mean and a deviation in the new units *)
Definition conv_pred (be : R * R) (p : NumR * NumR) : NumR * NumR := (conv_out be (fst p), fst be * snd p).
Definition conv_mat (ax : axes) (X : mat NumR) : mat NumR := mkmat (map (conv_in ax) (mrows X)) (mcols X).

(** the same world and trace, the result converted *)
Definition after {W E A B} (f : A -> B) (m : W * list E * res A) : W * list E * res B := let '(w, t, r) := m in (w, t, rmap f r).

(** np.random.uniform(low, high) draws low + (high - low) u *)
Definition uniform_affine {W} (uniform : NumR -> NumR -> W -> W * res NumR) : Prop :=
  forall a c lo hi w, 0 < a -> uniform (a * lo + c) (a * hi + c) w = let (w', r) := uniform lo hi w in (w', rmap (fun v : R => a * v + c : NumR) r).
(** the responses differ by at most [r] *)
Definition span (r : R) (Y : list NumR) : Prop := exists lo : R, Forall (fun y : R => lo <= y <= lo + r) Y.
