(** Model of bayeso/utils/utils_common.py and of the array loops of bayeso/utils/utils_bo.py. *)
From Verif Require Import Base Num.
From Coq Require Import List ZArith Bool String.
Set Implicit Arguments.

Section Model.
Context (N : Num).

(** ** utils_common.py *)

(** np.linspace(a, b, num) (numpy; called at utils_common.py:62): [arange(0, num) * step + a], where
    the element [num-1] is overwritten by [b] when [num > 1]; the step-is-zero and the
    single-element branches of numpy are kept. Negative [num] raises ValueError. *)
Definition linspace_elt (a b : N) (num i : nat) : N :=
  let delta := nsub N b a in
  match num with
  | O => a (* not called: the array is empty *)
  | S O => nadd N (nmul N (nofnat N i) delta) a
  | S div =>
      if Nat.eqb i div then b
      else let step := ndiv N delta (nofnat N div) in
           if neqb N step (nofZ N 0)
           then nadd N (nmul N (ndiv N (nofnat N i) (nofnat N div)) delta) a
           else nadd N (nmul N (nofnat N i) step) a
  end.
Definition linspace (a b : N) (num : Z) : res (list N) :=
  if (num <? 0)%Z then Raise ValueError
  else Ok (map (linspace_elt a b (Z.to_nat num)) (seq 0 (Z.to_nat num))).

(** np.meshgrid default indexing 'xy': the first two axes are exchanged. *)
Definition swap01 {A} (l : list A) : list A :=
  match l with x :: y :: r => y :: x :: r | _ => l end.
(** multi-indices (here: tuples of values) in C order, last axis fastest *)
Fixpoint cprod {A} (ls : list (list A)) : list (list A) :=
  match ls with
  | [] => [[]]
  | l :: r => flat_map (fun x => map (cons x) (cprod r)) l
  end.

(** utils_common.py:38-69.  [ranges] has shape (d, 2): list of pairs.  [meshgrid], [flatten(order='C')],
    [vstack] and [.T] are composed: row number k is the k-th multi-index in C order of the exchanged
    axes, with the exchange undone.  d = 0: vstack of an empty tuple raises ValueError. *)
Definition get_grids (ranges : list (N * N)) (num_grids : Z) : res (list (list N)) :=
  assert (forallb (fun r => nle N (fst r) (snd r)) ranges);
  do ls <- mapM (fun r => linspace (fst r) (snd r) num_grids) ranges;
  match ls with
  | [] => Raise ValueError
  | _ => Ok (map swap01 (cprod (swap01 ls)))
  end.

(** Python [min(best, y)] where [best] starts at np.inf ([None]); utils_common.py:107, 110 *)
Definition pymin (best : option N) (y : N) : option N :=
  match best with
  | None => if nltinf N y then Some y else None
  | Some b => if nlt N y b then Some y else Some b
  end.

(** scan of lines 109-111 *)
Fixpoint minima_scan (best : option N) (l : list N) : list (option N) :=
  match l with
  | [] => []
  | y :: r => let b := pymin best y in b :: minima_scan b r
  end.

(** one round, lines 104-112 *)
Definition round_minima (num_init : Z) (by_ : list N) : list (option N) :=
  let best := fold_left pymin (slice_to by_ num_init) None in
  best :: minima_scan best (slice_from by_ num_init).

(** storing np.inf in the array: possible only if the carrier has an infinity *)
Definition ext_elt (o : option N) : res N :=
  match o with
  | Some x => Ok x
  | None => match ninf N with Some i => Ok i | None => Raise OutsideModel end
  end.

(** column j of a list of rows; used for axis=0 reductions *)
Definition column (j : nat) (rows : list (list N)) : list N :=
  flat_map (fun r => match nth_error r j with Some x => [x] | None => [] end) rows.

Record minima_out : Type := mkminima {
  mo_minima : list (list N); mo_mean : list N; mo_std : list N; mo_sem : list N }.

(** utils_common.py:72-126. With zero rounds numpy produces nan scalars: outside the model. *)
Definition get_minimum (Y_all : mat N) (num_init : Z) : res minima_out :=
  assert (num_init <? Z.of_nat (mcols Y_all))%Z;
  do minima <- mapM (fun by_ => mapM ext_elt (round_minima num_init by_)) (mrows Y_all);
  match minima with
  | [] => Raise OutsideModel
  | m0 :: _ =>
      let cols := map (fun j => column j minima) (seq 0 (List.length m0)) in
      let mean := map (nmean N) cols in
      let std := if (1 <? nrows Y_all)%nat then map (nstd N 1) cols else map (fun _ => nofZ N 0) mean in
      Ok (mkminima minima mean std
            (map (fun s => ndiv N s (nsqrt N (nofnat N (nrows Y_all)))) std))
  end.

(** one round of get_time, lines 164-169; np.cumsum starts from the first element *)
Definition np_cumsum (l : list N) : list N :=
  match l with [] => [] | x :: r => x :: cumsum_from (nadd N) x r end.
Definition round_time (num_init : Z) (include_init : bool) (t : list N) : list N :=
  nofZ N 0 :: np_cumsum (if include_init then slice_from t num_init else t).

(** utils_common.py:129-172 *)
Definition get_time (time_all : mat N) (num_init : Z) (include_init : bool) : res (list N) :=
  assert (if include_init then (num_init <? Z.of_nat (mcols time_all))%Z else true);
  let times := map (round_time num_init include_init) (mrows time_all) in
  match times with
  | [] => Raise OutsideModel
  | t0 :: _ => Ok (map (fun j => nmean N (column j times)) (seq 0 (List.length t0)))
  end.

(** ** utils_bo.py *)

(** utils_bo.py:27-47 on an array flattened to a list; MULTIPLIER_RESPONSE = 10.0 (constants.py:38) *)
Definition normalize_min_max (Y : list N) : res (list N) :=
  do mx <- npmax N Y;
  do mn <- npmin N Y;
  if negb (neqb N mx mn)
  then Ok (map (fun y => nmul N (ndiv N (nsub N y mn) (nsub N mx mn)) (nofZ N 10)) Y)
  else Ok Y.

(** loop of utils_bo.py:73-79 (and, with values given, of lines 149-156): strict improvement over
    a best value that starts at np.inf; objects carried along *)
Definition better (y : N) (best : option N) : bool :=
  match best with None => nltinf N y | Some b => nlt N y b end.

Fixpoint eval_loop {A} (f : A -> res N) (l : list A) (best : option (A * N)) : res (option (A * N)) :=
  match l with
  | [] => Ok best
  | x :: r => do v <- f x;
              eval_loop f r (if better v (option_map snd best) then Some (x, v) else best)
  end.

(** utils_bo.py:50-81; [None[np.newaxis, ...]] raises TypeError *)
Definition get_best_acquisition_by_evaluation (initials : list (list N)) (f : list N -> res N)
  : res (list N) :=
  do b <- eval_loop f initials None;
  match b with None => Raise TypeError | Some (x, _) => Ok x end.

(** utils_bo.py:84-112 *)
Definition get_best_acquisition_by_history (X : mat N) (Y : list N) : res (list N * N) :=
  assert (Nat.eqb (nrows X) (List.length Y));
  do i <- npargmin N Y;
  match nth_error (mrows X) i, nth_error Y i with
  | Some x, Some y => Ok (x, y)
  | _, _ => Raise IndexError
  end.

(** TOLERANCE_DUPLICATED_ACQ = 1e-8, constants.py:17 *)
Definition tol_dup : N := nlit N 1 100000000.

(** utils_bo.py:145-146: row [p] is a duplicate of [c] *)
Definition is_dup (c p : list N) : bool := nlt N (nnorm N (vsub N p c)) tol_dup.

(** utils_bo.py:144-148; points and acquisitions are deleted at the same indices, so pairs are kept *)
Definition drop_dups (cands : list (list N * N)) (evaluated : list (list N)) : list (list N * N) :=
  fold_left (fun cs c => filter (fun pa => negb (is_dup c (fst pa))) cs) evaluated cands.

(** lines 153-156 *)
Definition pick_best (cands : list (list N * N)) : option (list N * N) :=
  fold_left (fun b pa => if better (snd pa) (option_map snd b) then Some pa else b) cands None.

(** utils_bo.py:115-159; result [None] is Python's None *)
Definition get_next_best_acquisition (points : mat N) (acqs : list N) (evaluated : mat N)
  : res (option (list N)) :=
  assert (Nat.eqb (nrows points) (List.length acqs));
  assert (Nat.eqb (mcols points) (mcols evaluated));
  match drop_dups (combine (mrows points) acqs) (mrows evaluated) with
  | [] => match rev (mrows evaluated) with
          | [] => Raise IndexError
          | p :: _ => Ok (Some p)
          end
  | cands => Ok (option_map fst (pick_best cands))
  end.

(** utils_bo.py:291-318; [bounds] of shape (d, 2) as pairs *)
Definition check_points_in_bounds (points : mat N) (bounds : list (N * N)) : res (mat N) :=
  assert (Nat.eqb (mcols points) (List.length bounds));
  assert (forallb (fun p => forallb (fun bx => nle N (fst (fst bx)) (snd bx)) (combine bounds p)) (mrows points));
  assert (forallb (fun p => forallb (fun bx => nle N (snd bx) (snd (fst bx))) (combine bounds p)) (mrows points));
  Ok points.
End Model.

(** ** String dispatch of utils_bo.py *)
Local Open Scope string_scope.
Definition str_in (s : string) (l : list string) : bool := existsb (String.eqb s) l.

(** constants.py:56-77 *)
Definition ALLOWED_OPTIMIZER_METHOD_GP := ["BFGS"; "L-BFGS-B"; "Nelder-Mead"; "SLSQP"; "SLSQP-Bounded"].
Definition ALLOWED_OPTIMIZER_METHOD_TP := ["L-BFGS-B"; "SLSQP"].
Definition ALLOWED_OPTIMIZER_METHOD_BO := ["L-BFGS-B"; "DIRECT"; "CMA-ES"].
Definition ALLOWED_OPTIMIZER_METHOD_BO_TREES := ["random_search"].
Definition ALLOWED_COV_BASE := ["eq"; "se"; "matern32"; "matern52"].
Definition ALLOWED_COV_SET := map (fun s => "set_" ++ s) ALLOWED_COV_BASE.
Definition ALLOWED_COV := (ALLOWED_COV_BASE ++ ALLOWED_COV_SET)%list.
Definition ALLOWED_BO_ACQ := ["pi"; "ei"; "ucb"; "aei"; "pure_exploit"; "pure_explore"].
Definition ALLOWED_INITIALIZING_METHOD_BO := ["uniform"; "gaussian"; "sobol"; "halton"].
Definition ALLOWED_SAMPLING_METHOD := (ALLOWED_INITIALIZING_METHOD_BO ++ ["grid"])%list.
Definition ALLOWED_MLM_METHOD := ["regular"; "combined"; "converged"].
Definition ALLOWED_MODELSELECTION_METHOD := ["ml"; "loocv"].
Definition ALLOWED_SURROGATE := ["gp"; "tp"].
Definition ALLOWED_SURROGATE_TREES := ["rf"].

(** utils_bo.py:162-200; [direct_available], [cma_available]: whether the optional imports of
    lines 11-19 succeeded (logging omitted) *)
Definition check_optimizer_method_bo (direct_available cma_available : bool)
    (m : string) (dim : Z) : res string :=
  assert (str_in m (ALLOWED_OPTIMIZER_METHOD_BO ++ ALLOWED_OPTIMIZER_METHOD_BO_TREES)%list);
  if (m =? "DIRECT") && negb direct_available then Ok "L-BFGS-B"
  else if (m =? "CMA-ES") && negb cma_available then Ok "L-BFGS-B"
  else if (m =? "CMA-ES") && (dim =? 1)%Z then Ok "L-BFGS-B"
  else Ok m.
