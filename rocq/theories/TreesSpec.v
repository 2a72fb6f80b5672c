(** Specifications for the tree code, independent of how trees are grown. *)
From Verif Require Import Base Num NumFin Monad UtilsSpec TreesModel.
From Coq Require Import List ZArith Bool Arith Permutation Reals.
From Flocq Require Import Core.Raux.

Section Spec.
Context (N : Num).
Notation row := (row N). Notation tree := (tree N).

(** what numpy promises about its random choices *)
Definition choice_contract {W} (choice : nat -> nat -> bool -> W -> W * res (list nat)) : Prop :=
  forall n k rep w w' idx, choice n k rep w = (w', Ok idx) ->
    List.length idx = k /\ Forall (fun i => (i < n)%nat) idx /\ (rep = false -> NoDup idx).
(** ... and when it succeeds *)
Definition choice_total {W} (choice : nat -> nat -> bool -> W -> W * res (list nat)) : Prop :=
  forall n k (rep : bool) w, (0 < n)%nat -> rep = true \/ (k <= n)%nat -> exists w' idx, choice n k rep w = (w', Ok idx).
Definition uniform_contract {W} (uniform : N -> N -> W -> W * res N) : Prop :=
  forall lo hi w w' v, uniform lo hi w = (w', Ok v) -> nisnan N v = false.
Definition uniform_total {W} (uniform : N -> N -> W -> W * res N) : Prop :=
  forall lo hi w, exists w' v, uniform lo hi w = (w', Ok v).

Definition goes_left (i : nat) (v : N) (r : row) : Prop := exists c, nth_error (fst r) i = Some c /\ nlt N c v = true.
Definition goes_right (i : nat) (v : N) (r : row) : Prop := exists c, nth_error (fst r) i = Some c /\ nle N v c = true.

(** [Holds t s]: the leaves of t hold exactly the rows s, each once, on the side its coordinate asks for; at a
    node whose test separates nothing both children are the same leaf holding all the rows.  No leaf is empty. *)
Inductive Holds : tree -> list row -> Prop :=
| H_leaf l : l <> [] -> Holds (TLeaf l) l
| H_node i v a b s1 s2 s :
    Holds a s1 -> Holds b s2 -> Forall (goes_left i v) s1 -> Forall (goes_right i v) s2 ->
    Permutation s (s1 ++ s2) -> Holds (TNode i v a b) s
| H_same i v l s :
    l <> [] -> Forall (goes_left i v) l \/ Forall (goes_right i v) l -> Permutation s l ->
    Holds (TNode i v (TLeaf l) (TLeaf l)) s.

Fixpoint leaves (t : tree) : list (list row) :=
  match t with TLeaf l => [l] | TNode _ _ a b => leaves a ++ leaves b end.

Fixpoint subtrees (t : tree) : list tree :=
  t :: match t with TLeaf _ => [] | TNode _ _ a b => subtrees a ++ subtrees b end.

(** the rows are pairs of the data *)
Definition drawn_from (X : mat N) (Y : list N) (boot : list row) : Prop :=
  forall r, In r boot -> exists i, nth_error (mrows X) i = Some (fst r) /\ nth_error Y i = Some (snd r).

(** decision nodes on the longest path *)
Fixpoint depth (t : tree) : nat :=
  match t with TLeaf _ => 0 | TNode _ _ a b => S (Nat.max (depth a) (depth b)) end.

(** the leaf reached by a query *)
Fixpoint route (bx : list N) (t : tree) : option (list row) :=
  match t with
  | TLeaf l => Some l
  | TNode i v a b =>
      match nth_error bx i with
      | None => None
      | Some x => if nlt N x v then route bx a else route bx b
      end
  end.

(** rows of a sample whose coordinates are finite *)
Definition rows_finite (F : NumFin N) (s : list row) : Prop := forall r, In r s -> Forall (fin F) (fst r).

(** every decision node below the root holds more than [m] rows *)
Fixpoint below_root (m : Z) (t : tree) : Prop :=
  match t with
  | TLeaf _ => True
  | TNode _ _ a b =>
      (forall s, Holds a s -> match a with TLeaf _ => True | _ => (m < Z.of_nat (List.length s))%Z end) /\
      (forall s, Holds b s -> match b with TLeaf _ => True | _ => (m < Z.of_nat (List.length s))%Z end) /\
      below_root m a /\ below_root m b
  end.

(** a node some descendant leaf of which is smaller than [m] although the node splits more than [m] rows *)
Fixpoint node_splits_small (m : Z) (t : tree) : Prop :=
  match t with
  | TLeaf _ => False
  | TNode _ _ a b =>
      (exists s, Holds t s /\ (m < Z.of_nat (List.length s))%Z /\
         exists l, (a = TLeaf l \/ b = TLeaf l) /\ (Z.of_nat (List.length l) < m)%Z)
      \/ node_splits_small m a \/ node_splits_small m b
  end.
End Spec.

(** average of f over a list *)
Definition Ravg {A} (f : A -> R) (l : list A) : R := (Rsum (map f l) / INR (List.length l))%R.

(** the predictive deviation of a forest: mean of the squared deviations, clipped below at m, plus the variance of the means *)
Definition mixture_sigma (mus sigmas : list R) (m : R) : R :=
  sqrt (Ravg (fun s => (Rmax s m)²) sigmas + Ravg (fun mu => (mu - Ravg (fun u => u) mus)²) mus)%R.

(** spread of the responses around their mean; an empty side counts 1e8 *)
Definition impurity (l : list (row NumR)) : R :=
  match l with [] => 100000000%R | _ => Ravg (fun y : R => (y - Ravg (fun u => u) (map snd l))²)%R (map snd l) end.
(** total spread of the two sides of the test "coordinate d < v" *)
Definition split_cost (s : list (row NumR)) (d : nat) (v : R) : R :=
  (impurity (filter (fun r => Rlt_bool (nth d (fst r) 0%R) v) s) + impurity (filter (fun r => Rle_bool v (nth d (fst r) 0%R)) s))%R.
