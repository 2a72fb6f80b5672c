(** Model of compute_posteriors and compute_acquisitions of bayeso/bo/bo_w_gp.py, bo_w_tp.py and bo_w_trees.py, and of
    the three classes with their own surrogates (BOModel.v leaves surrogate and acquisition abstract).

    Training inputs are (n, d) arrays and Y is the list of the n entries of the (n, 1) array.  The points are a list of
    rows: a single 1-d point is the list of that one row (np.atleast_2d), the empty array np.array([]) has shape (0, ),
    becomes (1, 0) and fails the assertion on the dimension.
    The multiplication by MULTIPLIER_ACQ (last step of compute_acquisitions) is [scaled] of BOModel.v.
    isinstance assertions hold by typing, except the one of choose_fun_acquisition on hyps['noise']. *)
From Verif Require Import Base Num UtilsModel HypsModel CovModel GPModel LikModel HypOptModel AcqModel TreesModel SamplingModel
  Monad WrapperModel BOModel.
From Coq Require Import List ZArith Bool String.
Set Implicit Arguments.
Local Open Scope string_scope.

Section Acq.
Context (N : Num) (nexp cdf pdf lg : N -> N).
Notation mx := (list (list N)).
(** self.num_dim, self.prior_mu, self.str_cov, self.str_acq *)
Context (num_dim : nat) (prior_mu : prior N) (str_acq str_cov : string).

Definition batch (pts : list (list N)) : res (mat N) :=
  match pts with [] => Raise AssertionError | _ => np_array_rows pts end.
(** (n, 1) array of the responses *)
Definition column_of (Y : list N) : mat N := mkmat (map (fun y => [y]) Y) 1.
(** np.squeeze(a, axis=1) *)
Definition squeeze1 (a : mx) : res (list N) :=
  mapM (fun r => match r with [x] => Ok x | _ => Raise ValueError end) a.
(** hyps.get('noise', None) and the isinstance assertion of choose_fun_acquisition (utils_bo.py:224) *)
Definition noise_of (hyps : dict N) : res (option N) :=
  match dget hyps "noise" with None => Ok None | Some (PFloat _ x) => Ok (Some x) | Some _ => Raise AssertionError end.

(** bo_w_gp.py:228-240 = bo_w_gp.py:288-305 = bo_w_tp.py, same lines *)
Definition shapes_ok (X : mat N) (Y : list N) (Xs : mat N) (cov inv : mx) : bool :=
  Nat.eqb (nrows X) (List.length Y) && (Nat.eqb (mcols Xs) (mcols X) && Nat.eqb (mcols X) num_dim) &&
  has_shape N (nrows X) (nrows X) cov && has_shape N (nrows X) (nrows X) inv.

(** bo_w_gp.py:193-251 *)
Definition gp_posteriors (X : mat N) (Y : list N) (Xs : mat N) (cov inv : mx) (hyps : dict N) : res (list N * list N) :=
  assert (shapes_ok X Y Xs cov inv);
  do p <- predict_with_cov nexp (A2 N X) (column_of Y) (A2 N Xs) cov inv hyps str_cov prior_mu;
  let '(mu, sd, _) := p in
  do mu <- squeeze1 mu;
  do sd <- squeeze1 sd;
  Ok (mu, sd).
(** bo_w_tp.py:184-241 *)
Definition tp_posteriors (X : mat N) (Y : list N) (Xs : mat N) (cov inv : mx) (hyps : dict N) : res (list N * list N) :=
  assert (shapes_ok X Y Xs cov inv);
  do p <- tp_predict_with_cov nexp (A2 N X) (column_of Y) (A2 N Xs) cov inv hyps str_cov prior_mu;
  let '(_, mu, sd, _) := p in
  do mu <- squeeze1 mu;
  do sd <- squeeze1 sd;
  Ok (mu, sd).

(** bo_w_gp.py:253-316, bo_w_tp.py:243-306: the same text but for the method compute_posteriors *)
Definition acquisitions (posteriors : mat N -> list N -> mat N -> mx -> mx -> dict N -> res (list N * list N))
    (X : mat N) (Y : list N) (cov inv : mx) (hyps : dict N) (pts : list (list N)) : res (list N) :=
  do Xs <- batch pts;
  assert (shapes_ok X Y Xs cov inv);
  do noise <- noise_of hyps;
  do f <- choose_fun_acquisition N cdf pdf lg str_acq noise;
  do p <- posteriors X Y Xs cov inv hyps;
  let (mu, sd) := p in
  f mu sd Y.
Definition gp_acquisitions := acquisitions gp_posteriors.
Definition tp_acquisitions := acquisitions tp_posteriors.

(** bo_w_trees.py:117-146; [schedule k] is the order in which a pool with k tasks completes them *)
Definition rf_posteriors (schedule : nat -> list nat) (Xs : mat N) (trees : list (tree N)) : res (list N * list N) :=
  assert (Nat.eqb (mcols Xs) num_dim);
  do p <- predict_by_trees N (mrows Xs) trees (schedule ((nrows Xs + 99) / 100)%nat);
  Ok (map fst p, map snd p).
(** bo_w_trees.py:148-192; the noise is constants.GP_NOISE *)
Definition rf_acquisitions (schedule : nat -> list nat) (X : mat N) (Y : list N) (trees : list (tree N)) (pts : list (list N)) : res (list N) :=
  do Xs <- batch pts;
  assert (Nat.eqb (nrows X) (List.length Y));
  assert (Nat.eqb (mcols Xs) (mcols X) && Nat.eqb (mcols X) num_dim);
  do f <- choose_fun_acquisition N cdf pdf lg str_acq (Some (GP_NOISE N));
  do p <- rf_posteriors schedule Xs trees;
  let (mu, sd) := p in
  f mu sd Y.
End Acq.
