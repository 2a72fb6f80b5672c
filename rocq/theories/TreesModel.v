(** Model of bayeso/trees: trees_common.py, trees_generic_trees.py, trees_random_forest.py.

    numpy's random choices are oracles of an arbitrary world: [choice n k replace] stands for
    np.random.choice(n, k, replace=...) and [uniform lo hi] for np.random.uniform(low, high).
    [trunc] is int(...) of a float (None: inf or NaN, which raise).
    Not modelled: isinstance assertions, arrays of more than two dimensions.
    np.mean of an empty array is NaN with a warning; here it is [OutsideModel], which the theorems show is never
    reached by trees built by this code. *)
From Verif Require Import Base Num Monad.
From Coq Require Import List ZArith Bool Arith.

Section Model.
Context (N : Num) (W : Type).
Context (choice : nat -> nat -> bool -> W -> W * res (list nat)).
Context (uniform : N -> N -> W -> W * res N).
Context (trunc : N -> option Z).
Notation Mo := (M W unit).

(** one training pair; Y is stored as a (n, 1) array, so y is a scalar here *)
Definition row : Type := (list N * N)%type.

(** A node dict with 'index', 'value', 'left', 'right', or a leaf (a list of pairs). *)
Inductive tree : Type :=
| TLeaf (l : list row)
| TNode (index : nat) (value : N) (left right : tree).

(** trees_common.py:16-53 *)
Definition get_inputs_from_leaf (l : list row) : list (list N) := map fst l.
Definition get_outputs_from_leaf (l : list row) : list N := map snd l.

(** trees_common.py:56-80 *)
Definition mse_ (Y : list N) : N :=
  match Y with
  | [] => nofZ N 100000000
  | _ => nmean N (map (fun y => nsq N (nsub N y (nmean N Y))) Y)
  end.

(** trees_common.py:83-107 *)
Definition mse (lr : list row * list row) : N :=
  nadd N (mse_ (get_outputs_from_leaf (fst lr))) (mse_ (get_outputs_from_leaf (snd lr))).

(** X[indices]: IndexError for an index outside *)
Definition take_rows {A} (l : list A) (idx : list nat) : res (list A) :=
  mapM (fun i => match nth_error l i with Some x => Ok x | None => Raise IndexError end) idx.

(** trees_common.py:110-156 *)
Definition subsample (X : mat N) (Y : list N) (ratio : N) (replace : bool) : Mo (list row) :=
  massert (Nat.eqb (nrows X) (List.length Y));
  massert (if replace then nlt N (nofZ N 0) ratio else nlt N (nofZ N 0) ratio && nle N ratio (nofZ N 1));
  match trunc (nmul N (nofnat N (nrows X)) ratio) with
  | None => raise ValueError
  | Some k =>
      if (k <? 0)%Z then raise ValueError else
      mlet indices <- ext (choice (nrows X) (Z.to_nat k) replace);
      mlet X_ <- lift (take_rows (mrows X) indices);
      mlet Y_ <- lift (take_rows Y indices);
      ret (combine X_ Y_)
  end.

(** X[:, d] *)
Definition column (S : list row) (d : nat) : res (list N) :=
  mapM (fun r => match nth_error (fst r) d with Some v => Ok v | None => Raise IndexError end) S.
Definition coord (d : nat) (r : row) : N := nth d (fst r) (nofZ N 0).

(** trees_common.py:159-198.  [column] has been taken successfully before. *)
Definition split_left_right (S : list row) (d : nat) (v : N) : list row * list row :=
  (filter (fun r => nlt N (coord d r) v) S, filter (fun r => nle N v (coord d r)) S).

(** np.unique: sorted without repetitions; NaN last and once *)
Fixpoint insert_unique (x : N) (l : list N) : list N :=
  match l with
  | [] => [x]
  | y :: r =>
      if nisnan N x then (if nisnan N y then l else y :: insert_unique x r)
      else if nisnan N y then x :: l
      else if nlt N x y then x :: l
      else if neqb N x y then l
      else y :: insert_unique x r
  end.
Definition np_unique (l : list N) : list N := fold_left (fun acc x => insert_unique x acc) l [].

(** a candidate split: index, value, score, left and right *)
Definition cand : Type := (nat * N * N * (list row * list row))%type.
Definition c_score (c : cand) : N := snd (fst c).

(** [score < cur_score] with cur_score initially np.inf *)
Definition keep_better (cur : option cand) (c : cand) : option cand :=
  match cur with
  | None => if nltinf N (c_score c) then Some c else None
  | Some b => if nlt N (c_score c) (c_score b) then Some c else cur
  end.

(** value of one candidate location, trees_common.py:217-220 *)
Definition split_value (cands col : list N) (i : nat) : res N :=
  if Nat.ltb 1 (List.length cands) then
    match skipn i cands with
    | a :: b :: _ => Ok (nmean N [a; b])
    | _ => Raise OutsideModel
    end
  else match col with x :: _ => Ok x | [] => Raise IndexError end.

Definition split_at (S : list row) (d : nat) (v : N) : cand :=
  let lr := split_left_right S d v in (d, v, mse lr, lr).

(** trees_common.py:201-231 *)
Definition split_deterministic (S : list row) (d : nat) : Mo (option cand) :=
  mlet col <- lift (column S d);
  let cands := np_unique col in
  let num_evaluations := if Nat.ltb 1 (List.length cands) then (List.length cands - 1)%nat else 1%nat in
  mlet indices <- ext (choice num_evaluations (Nat.min 20 num_evaluations) false);
  mlet vals <- lift (mapM (split_value cands col) indices);
  ret (fold_left (fun cur v => keep_better cur (split_at S d v)) vals None).

(** trees_common.py:234-249 *)
Definition split_random (S : list row) (d : nat) : Mo (option cand) :=
  mlet col <- lift (column S d);
  mlet v <- (if Nat.ltb 1 (List.length (np_unique col)) then
               mlet lo <- lift (npmin N col);
               mlet hi <- lift (npmax N col);
               ext (uniform lo hi)
             else lift (match col with x :: _ => Ok x | [] => Raise IndexError end));
  ret (Some (split_at S d v)).

(** trees_common.py:294-308: the scores of the features are compared again *)
Definition better_feature (cur c : option cand) : option cand :=
  match c with None => cur | Some c => keep_better cur c end.

Fixpoint split_features (S : list row) (random_location : bool) (features : list nat) (cur : option cand) : Mo (option cand) :=
  match features with
  | [] => ret cur
  | d :: ds =>
      mlet c <- (if random_location then split_random S d else split_deterministic S d);
      split_features S random_location ds (better_feature cur c)
  end.

(** trees_common.py:252-314; num_dim is X.shape[1] *)
Definition split_node (num_dim : nat) (S : list row) (num_features : nat) (random_location : bool) : Mo (option cand) :=
  massert (Nat.ltb 0 (List.length S));
  mlet features <- ext (choice num_dim num_features false);
  split_features S random_location features None.

(** trees_common.py:317-388.  [rem] is depth_max - cur_depth (0 when cur_depth >= depth_max).  A missing
    candidate leaves 'left_right' at None, whose unpacking raises TypeError. *)
Section Grow.
Context (num_dim num_features : nat) (random_location : bool) (size_min_leaf : Z).
Fixpoint grow_split (rem : nat) (c : option cand) : Mo tree :=
  match c with
  | None => raise TypeError
  | Some (index, value, _, (lft, rgt)) =>
      match lft, rgt with
      | [], _ | _, [] => ret (TNode index value (TLeaf (lft ++ rgt)) (TLeaf (lft ++ rgt)))
      | _, _ =>
          match rem with
          | O => ret (TNode index value (TLeaf lft) (TLeaf rgt))
          | S rem =>
              mlet l <- (if (Z.of_nat (List.length lft) <=? size_min_leaf)%Z then ret (TLeaf lft)
                         else mlet c <- split_node num_dim lft num_features random_location; grow_split rem c);
              mlet r <- (if (Z.of_nat (List.length rgt) <=? size_min_leaf)%Z then ret (TLeaf rgt)
                         else mlet c <- split_node num_dim rgt num_features random_location; grow_split rem c);
              ret (TNode index value l r)
          end
      end
  end.
End Grow.

(** one tree: body of the loops trees_generic_trees.py:75-80, trees_random_forest.py:63-68; cur_depth starts at 1 *)
Definition grow_tree (X : mat N) (Y : list N) (depth_max size_min_leaf : Z) (ratio : N) (replace : bool)
    (num_features : nat) (random_location : bool) : Mo (list row * tree) :=
  mlet boot <- subsample X Y ratio replace;
  mlet c <- split_node (mcols X) boot num_features random_location;
  mlet t <- grow_split (mcols X) num_features random_location size_min_leaf (Z.to_nat (depth_max - 1)) c;
  ret (boot, t).

(** trees_generic_trees.py:14-82 (the bootstrap samples are returned too, for the statements) *)
Definition get_generic_trees (X : mat N) (Y : list N) (num_trees depth_max size_min_leaf : Z) (ratio : N) (replace : bool)
    (num_features : nat) (random_location : bool) : Mo (list (list row * tree)) :=
  massert (Nat.eqb (nrows X) (List.length Y));
  massert (if replace then nlt N (nofZ N 0) ratio else nlt N (nofZ N 0) ratio && nle N ratio (nofZ N 1));
  mmapM (fun _ => grow_tree X Y depth_max size_min_leaf ratio replace num_features random_location) (seq 0 (Z.to_nat num_trees)).

(** trees_random_forest.py:14-70 *)
Definition get_random_forest (X : mat N) (Y : list N) (num_trees depth_max size_min_leaf : Z) (num_features : nat)
  : Mo (list (list row * tree)) :=
  massert (Nat.eqb (nrows X) (List.length Y));
  mmapM (fun _ => grow_tree X Y depth_max size_min_leaf (nofZ N 1) true num_features false) (seq 0 (Z.to_nat num_trees)).

(** bo_w_trees.py:69-115; isqrt is int(np.sqrt(num_dim)) *)
Definition bo_get_trees (X : mat N) (Y : list N) (num_dim : nat) : Mo (list (list row * tree)) :=
  massert (Nat.eqb (nrows X) (List.length Y));
  get_random_forest X Y 100 5 1 (Nat.sqrt num_dim).

(** trees_common.py:391-423 *)
Fixpoint predict_by_tree (bx : list N) (t : tree) : res (N * N) :=
  match t with
  | TLeaf [] => Raise OutsideModel
  | TLeaf l => let Y := get_outputs_from_leaf l in Ok (nmean N Y, nstd N 0 Y)
  | TNode i v l r =>
      match nth_error bx i with
      | None => Raise IndexError
      | Some x => if nlt N x v then predict_by_tree bx l else predict_by_tree bx r
      end
  end.

(** trees_common.py:539-577 *)
Definition compute_sigma (mus sigmas : list N) (min_sigma : N) : res N :=
  assert (Nat.eqb (List.length mus) (List.length sigmas));
  match mus with
  | [] => Raise OutsideModel
  | _ =>
      let sigmas_ := map (fun s => npmax2 N s (nadd N (nofZ N 0) min_sigma)) sigmas in
      let sigma := nmean N (map (fun p => nadd N (nsq N (fst p)) (nsq N (snd p))) (combine mus sigmas_)) in
      let sigma := nsub N sigma (nsq N (nmean N mus)) in
      let sigma := if nlt N sigma (nofZ N 0) then nofZ N 0 else sigma in
      Ok (nsqrt N sigma)
  end.

(** trees_common.py:426-459 *)
Definition predict_by_trees_one (bx : list N) (trees : list tree) : res (N * N) :=
  do ps <- mapM (predict_by_tree bx) trees;
  match ps with
  | [] => Raise OutsideModel
  | _ =>
      do sigma <- compute_sigma (map fst ps) (map snd ps) (nofZ N 0);
      Ok (nmean N (map fst ps), sigma)
  end.

(** trees_common.py:462-494 *)
Definition unit_predict_by_trees (X : list (list N)) (trees : list tree) : res (list (N * N)) :=
  mapM (fun bx => predict_by_trees_one bx trees) X.
End Model.
Arguments TLeaf {N}. Arguments TNode {N}.

(** np.array_split(X, k): the first [n mod k] parts have one row more *)
Fixpoint take_parts {A} (sizes : list nat) (l : list A) : list (list A) :=
  match sizes with
  | [] => []
  | s :: r => firstn s l :: take_parts r (skipn s l)
  end.
Definition array_split {A} (l : list A) (k : nat) : list (list A) :=
  let n := List.length l in
  take_parts (repeat (S (n / k)) (n mod k) ++ repeat (n / k)%nat (k - n mod k)) l.

(** multiprocessing.Pool.starmap: the tasks are completed in the order of [schedule]; every result is stored at the
    index of its task; the call returns when all are there.  A failing task makes the call raise. *)
Fixpoint run_tasks {A B} (f : A -> res B) (tasks : list A) (schedule : list nat) (done : list (option B)) : res (list (option B)) :=
  match schedule with
  | [] => Ok done
  | i :: s =>
      match nth_error tasks i with
      | None => Raise OutsideModel
      | Some a =>
          do b <- f a;
          run_tasks f tasks s (firstn i done ++ Some b :: skipn (S i) done)
      end
  end.
Definition starmap {A B} (f : A -> res B) (tasks : list A) (schedule : list nat) : res (list B) :=
  do done <- run_tasks f tasks schedule (repeat None (List.length tasks));
  mapM (fun o => match o with Some b => Ok b | None => Raise OutsideModel end) done.

(** trees_common.py:497-536; NUM_DATA_PER_SPLIT_TREES = 100, constants.py:54 *)
Definition predict_by_trees (N : Num) (X : list (list N)) (trees : list (tree N)) (schedule : list nat) : res (list (N * N)) :=
  let n := List.length X in
  if Nat.leb n 100 then unit_predict_by_trees N X trees
  else
    let parts := array_split X ((n + 99) / 100) in
    do results <- starmap (fun X => unit_predict_by_trees N X trees) parts schedule;
    Ok (concat results).
