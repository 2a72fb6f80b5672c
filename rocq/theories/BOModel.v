(** Model of the optimize methods of bayeso/bo/bo_w_gp.py, bo_w_tp.py, bo_w_trees.py and of the
    constructors of the BO classes and of BayesianOptimization.

    Oracles (arbitrary, may fail, may depend on and change an arbitrary world [W]): surrogate fits
    (get_optimized_kernel, get_random_forest), samplers, scipy / DIRECT / CMA-ES minimisers, the clock.
    Pure but arbitrary: kernel inverse, marginal likelihood, acquisition values.
    Not modelled: log messages, isinstance assertions, set-valued inputs (rejected by the code anyway). *)
From Verif Require Import Base Num UtilsModel HypsModel Monad WrapperModel.
From Coq Require Import List ZArith Bool String.
Local Open Scope string_scope.

(** np.array(list of 1-D arrays): ragged lists raise ValueError *)
Definition np_array_rows {A} (l : list (list A)) : res (mat A) :=
  match l with
  | [] => Ok (mkmat [] 0)
  | x :: _ => if forallb (fun y => Nat.eqb (List.length y) (List.length x)) l
              then Ok (mkmat l (List.length x)) else Raise ValueError
  end.

Section Model.
Context (N : Num) (W K : Type).
(** samplers (BaseBO.get_samples): method, number, seed *)
Context (get_samples : string -> Z -> option Z -> W -> W * res (list (list N))).
(** scipy.optimize.minimize(...).x : objective, start, bounds *)
Context (lbfgsb : (list N -> res N) -> list N -> list (N * N) -> W -> W * res (list N)).
Context (direct : (list N -> res N) -> list (N * N) -> W -> W * res (list N)).
Context (cma : (list N -> res N) -> list N -> list (N * N) -> W -> W * res (list N)).
Context (time_ : W -> W * N).

(** a hyperparameter optimisation: method, X_train, Y_train *)
Definition fitev : Type := (string * mat N * list N)%type.

Section WithState.
Context (S : Type).
Notation Ms := (M (S * W) fitev).
Definition onW {A} (f : W -> W * res A) : Ms A := ext (fun sw => let (w', r) := f (snd sw) in ((fst sw, w'), r)).
Definition tick : Ms N := onW (fun w => let (w', t) := time_ w in (w', Ok t)).
Definition getS : Ms S := fun sw => (sw, [], Ok (fst sw)).
Definition putS (s : S) : Ms unit := fun sw => ((s, snd sw), [], Ok tt).
(** record that the hyperparameters are being optimised *)
Definition note (e : fitev) : Ms unit := fun sw => (sw, [e], Ok tt).

(** bo_w_gp.py:113-191 and bo_w_tp.py:104-182 (same text).  [fneg] is the batch negative acquisition;
    at a single point it is the one element of the batch of one *)
Definition at_point (fneg : list (list N) -> res (list N)) (x : list N) : res N :=
  do l <- fneg [x];
  match l with [v] => Ok v | _ => Raise OutsideModel end.

Definition optimize_acq (opt_bo : string) (range_X : list (N * N)) (fneg : list (list N) -> res (list N))
    (samp : string) (num : Z) (seed : option Z) : Ms (list N * mat N) :=
  mlet pts <-
    (if opt_bo =? "L-BFGS-B" then
       mlet initials <- onW (get_samples samp num seed);
       mmapM (fun x0 => onW (lbfgsb (at_point fneg) x0 range_X)) initials
     else if opt_bo =? "DIRECT" then
       mlet x <- onW (direct (at_point fneg) range_X); ret [x]
     else if opt_bo =? "CMA-ES" then
       mlet initials <- onW (get_samples samp 1 seed);
       match initials with
       | [] => raise IndexError
       | x0 :: _ => mlet x <- onW (cma (at_point fneg) x0 range_X); ret [x]
       end
     else ret []);
  mlet next_points <- lift (np_array_rows pts);
  mlet next_point <- lift (get_best_acquisition_by_evaluation N (mrows next_points) (at_point fneg));
  ret (next_point, next_points).

(** check_points_in_bounds(next_point[np.newaxis, ...], bounds)[0] *)
Definition check_point (range_X : list (N * N)) (p : list N) : res (list N) :=
  do _ <- check_points_in_bounds N (mkmat [p] (List.length p)) range_X; Ok p.

Definition neg (l : list N) : list N := map (fun a => nmul N (nofZ N (-1)) a) l.
(** MULTIPLIER_ACQ = 10.0, constants.py:37 *)
Definition scaled (l : list N) : list N := map (fun a => nmul N a (nofZ N 10)) l.
End WithState.

(** dict_info of the GP and TP classes *)
Record gp_info : Type := mkgpi {
  gi_points : mat N; gi_acqs : list N; gi_Yorig : list N; gi_Ynorm : list N;
  gi_cov : K; gi_inv : K; gi_hyps : dict N; gi_tsur : N; gi_tacq : N; gi_tall : N }.

(** ** BOwGP *)
Record gp_obj : Type := mkgpo {
  go_range : list (N * N); go_cov : string; go_acq : string; go_norm : bool; go_ard : bool;
  go_opt_gp : string; go_opt_bo : string; go_msel : string }.
(** attributes that change: historical_hyps (an entry is None if the combined mode kept nothing), is_optimize_hyps *)
Record gp_state : Type := mkgps { gs_hist : list (option (dict N)); gs_opt : bool }.

Section GP.
(** gp_kernel.get_optimized_kernel: X, Y, cov, method, model selection, use_ard *)
Context (fit : mat N -> list N -> string -> string -> string -> bool -> W -> W * res (K * K * dict N)).
(** covariance.get_kernel_inverse(X, hyps, cov, fix_noise=True): cov and inverse *)
Context (kernel_inverse : mat N -> dict N -> string -> res (K * K)).
(** gp_likelihood.neg_log_ml(X, Y, vector, cov, ..., use_gradient=False) *)
Context (neg_log_ml : mat N -> list N -> list N -> string -> bool -> res N).
(** acquisition values before the factor 10: str_acq, cov, X, Y, cov matrix, inverse, hyps, test points
    (compute_acquisitions, bo_w_gp.py:253-319, up to line 314; the dimension assertion included) *)
Context (acq : string -> string -> mat N -> list N -> K -> K -> dict N -> list (list N) -> res (list N)).

Notation Mg := (M (gp_state * W) fitev).
Notation tick := (tick gp_state).
Notation onW := (onW gp_state).
Notation getS := (getS gp_state).
Notation putS := (putS gp_state).
Notation note := (note gp_state).

Definition gp_fit (o : gp_obj) (meth : string) (X : mat N) (Y : list N) : Mg (K * K * dict N) :=
  mlet _ <- note (meth, X, Y);
  onW (fit X Y (go_cov o) meth (go_msel o) (go_ard o)).

(** loop of bo_w_gp.py:400-421; best value starts at np.inf *)
Definition combined_step (o : gp_obj) (X : mat N) (Y : list N) (meth : string)
    (best : option (K * K * dict N * N)) : Mg (option (K * K * dict N * N)) :=
  mlet f <- gp_fit o meth X Y;
  mlet vec <- lift (convert_hyps (go_cov o) (snd f) true true);
  mlet v <- lift (neg_log_ml X Y vec (go_cov o) (go_ard o));
  ret (if better N v (option_map snd best) then Some (f, v) else best).

(** check_hyps_convergence on a history that may contain None (utils_bo.py:248-288; converting None fails its isinstance assertion) *)
Definition check_convergence (hist : list (option (dict N))) (h : dict N) (cov : string) : res bool :=
  match rev hist with
  | [] => Ok false
  | None :: _ => do _ <- convert_hyps cov h true true; Raise AssertionError
  | Some l :: _ => check_hyps_convergence [l] h cov true (nlit N 5 100)
  end.

(** bo_w_gp.py:375-447 *)
Definition gp_surrogate (o : gp_obj) (mlm : string) (X : mat N) (Y : list N) : Mg (option (K * K * dict N)) :=
  if mlm =? "regular" then
    mlet f <- gp_fit o (go_opt_gp o) X Y; ret (Some f)
  else if mlm =? "combined" then
    mlet b1 <- combined_step o X Y "BFGS" None;
    mlet b2 <- combined_step o X Y "Nelder-Mead" b1;
    ret (option_map fst b2)
  else if mlm =? "converged" then
    mlet s <- getS;
    if gs_opt s then
      mlet f <- gp_fit o (go_opt_gp o) X Y;
      mlet s' <- getS;
      mlet c <- lift (check_convergence (gs_hist s') (snd f) (go_cov o));
      mlet _ <- putS (mkgps (gs_hist s') (negb c));
      ret (Some f)
    else
      match rev (gs_hist s) with
      | [] => raise IndexError
      | None :: _ => raise AssertionError
      | Some h :: _ =>
          mlet ci <- lift (kernel_inverse X h (go_cov o));
          ret (Some (fst ci, snd ci, h))
      end
  else raise ValueError.

(** bo_w_gp.py:321-490.  If the combined mode kept nothing, None is appended to the history and the
    isinstance assertions of compute_acquisitions fail at the first evaluation, which [_optimize] makes
    at the latest after the sampler ran. *)
Definition gp_optimize (o : gp_obj) (X : mat N) (Y : list N) (samp : string) (num : Z) (mlm : string) (seed : option Z)
  : Mg (list N * gp_info) :=
  massert (Nat.eqb (nrows X) (List.length Y));
  massert (Nat.eqb (mcols X) (List.length (go_range o)));
  massert (0 <? num)%Z;
  massert (str_in samp ALLOWED_SAMPLING_METHOD);
  massert (str_in mlm ALLOWED_MLM_METHOD);
  mlet t0 <- tick;
  mlet Yn <- lift (if go_norm o && negb (mlm =? "converged") then normalize_min_max N Y else Ok Y);
  mlet ts0 <- tick;
  mlet f <- gp_surrogate o mlm X Yn;
  mlet s <- getS;
  mlet _ <- putS (mkgps (gs_hist s ++ [option_map snd f])%list (gs_opt s));
  mlet ts1 <- tick;
  mlet ta0 <- tick;
  let fneg pts := match f with
                  | None => Raise AssertionError
                  | Some (c, i, h) => do a <- acq (go_acq o) (go_cov o) X Yn c i h pts; Ok (neg (scaled a))
                  end in
  mlet r <- optimize_acq gp_state (go_opt_bo o) (go_range o) fneg samp num seed;
  let (next_point, next_points) := r in
  mlet next_point <- lift (check_point (go_range o) next_point);
  mlet next_points <- lift (check_points_in_bounds N next_points (go_range o));
  mlet ta1 <- tick;
  mlet acqs <- lift (fneg (mrows next_points));
  mlet t1 <- tick;
  match f with
  | None => raise AssertionError
  | Some (c, i, h) =>
      ret (next_point, mkgpi next_points acqs Y Yn c i h (nsub N ts1 ts0) (nsub N ta1 ta0) (nsub N t1 t0))
  end.
End GP.

(** ** BOwTP *)
Record tp_obj : Type := mktpo {
  to_range : list (N * N); to_cov : string; to_acq : string; to_norm : bool; to_ard : bool;
  to_opt_tp : string; to_opt_bo : string }.

Section TP.
(** tp_kernel.get_optimized_kernel: X, Y, cov, method, use_ard *)
Context (fit : mat N -> list N -> string -> string -> bool -> W -> W * res (K * K * dict N)).
Context (acq : string -> string -> mat N -> list N -> K -> K -> dict N -> list (list N) -> res (list N)).

(** bo_w_tp.py:311-412; state: historical_hyps *)
Definition tp_optimize (o : tp_obj) (X : mat N) (Y : list N) (samp : string) (num : Z) (seed : option Z)
  : M (list (dict N) * W) fitev (list N * gp_info) :=
  massert (Nat.eqb (nrows X) (List.length Y));
  massert (Nat.eqb (mcols X) (List.length (to_range o)));
  massert (0 <? num)%Z;
  massert (str_in samp ALLOWED_SAMPLING_METHOD);
  mlet t0 <- tick _;
  mlet Yn <- lift (if to_norm o then normalize_min_max N Y else Ok Y);
  mlet ts0 <- tick _;
  mlet _ <- note _ (to_opt_tp o, X, Yn);
  mlet f <- onW _ (fit X Yn (to_cov o) (to_opt_tp o) (to_ard o));
  let '(c, i, h) := f in
  mlet s <- getS _;
  mlet _ <- putS _ (s ++ [h])%list;
  mlet ts1 <- tick _;
  mlet ta0 <- tick _;
  let fneg pts := do a <- acq (to_acq o) (to_cov o) X Yn c i h pts; Ok (neg (scaled a)) in
  mlet r <- optimize_acq _ (to_opt_bo o) (to_range o) fneg samp num seed;
  let (next_point, next_points) := r in
  mlet next_point <- lift (check_point (to_range o) next_point);
  mlet next_points <- lift (check_points_in_bounds N next_points (to_range o));
  mlet ta1 <- tick _;
  mlet acqs <- lift (fneg (mrows next_points));
  mlet t1 <- tick _;
  ret (next_point, mkgpi next_points acqs Y Yn c i h (nsub N ts1 ts0) (nsub N ta1 ta0) (nsub N t1 t0)).
End TP.

(** ** BOwTrees *)
Record rf_obj : Type := mkrfo { ro_range : list (N * N); ro_acq : string; ro_norm : bool }.
Record rf_info (T : Type) : Type := mkrfi {
  ri_points : mat N; ri_acqs : list N; ri_Yorig : list N; ri_Ynorm : list N; ri_trees : T;
  ri_tsur : N; ri_tacq : N; ri_tall : N }.
Arguments mkrfi {T}. Arguments ri_points {T}. Arguments ri_acqs {T}. Arguments ri_Yorig {T}. Arguments ri_Ynorm {T}.
Arguments ri_trees {T}. Arguments ri_tsur {T}. Arguments ri_tacq {T}. Arguments ri_tall {T}.

Section Trees.
Context (T : Type).
Context (get_trees : mat N -> list N -> W -> W * res T).
Context (acq : string -> mat N -> list N -> T -> list (list N) -> res (list N)).

(** bo_w_trees.py:197-283 *)
Definition rf_optimize (o : rf_obj) (X : mat N) (Y : list N) (samp : string) (num : Z) (seed : option Z)
  : M (unit * W) fitev (list N * rf_info T) :=
  massert (Nat.eqb (nrows X) (List.length Y));
  massert (Nat.eqb (mcols X) (List.length (ro_range o)));
  massert (0 <? num)%Z;
  massert (str_in samp ALLOWED_SAMPLING_METHOD);
  mlet t0 <- tick _;
  mlet Yn <- lift (if ro_norm o then normalize_min_max N Y else Ok Y);
  mlet ts0 <- tick _;
  mlet _ <- note _ ("rf", X, Yn);
  mlet trees <- onW _ (get_trees X Yn);
  mlet ts1 <- tick _;
  mlet ta0 <- tick _;
  mlet pts <- onW _ (get_samples samp num seed);
  mlet next_points <- lift (np_array_rows pts);
  mlet next_points <- lift (check_points_in_bounds N next_points (ro_range o));
  mlet acqs <- lift (do a <- acq (ro_acq o) X Yn trees (mrows next_points); Ok (neg (scaled a)));
  mlet ind <- lift (npargmin N acqs);
  mlet next_point <- lift (match nth_error (mrows next_points) ind with Some p => Ok p | None => Raise IndexError end);
  mlet ta1 <- tick _;
  mlet t1 <- tick _;
  ret (next_point, mkrfi next_points acqs Y Yn trees (nsub N ts1 ts0) (nsub N ta1 ta0) (nsub N t1 t0)).
End Trees.
End Model.

(** ** Constructors *)
Section Construct.
Context (N : Num).

(** arguments of BayesianOptimization (wrappers_bo_class.py:70-90), types taken for granted *)
Record bo_args : Type := mkargs {
  a_range : list (N * N); a_num_iter : Z; a_surrogate : string; a_cov : string; a_acq : string;
  a_norm : bool; a_ard : bool; a_init : string; a_samp : string; a_opt_gp : string; a_opt_tp : string;
  a_opt_bo : string; a_mlm : string; a_msel : string; a_num_samples : Z }.

Definition range_ok (r : list (N * N)) : bool := forallb (fun b => nle N (fst b) (snd b)) r.

(** base_bo.py:39-82: returns the optimizer name that is kept *)
Definition base_init (da ca : bool) (range_X : list (N * N)) (surrogate acq opt_bo : string) : res string :=
  assert (range_ok range_X);
  assert (str_in surrogate (ALLOWED_SURROGATE ++ ALLOWED_SURROGATE_TREES)%list);
  assert (str_in acq ALLOWED_BO_ACQ);
  assert (str_in opt_bo (ALLOWED_OPTIMIZER_METHOD_BO ++ ALLOWED_OPTIMIZER_METHOD_BO_TREES)%list);
  check_optimizer_method_bo da ca opt_bo (Z.of_nat (List.length range_X)).

(** bo_w_gp.py:61-111 *)
Definition gp_init (da ca : bool) (range_X : list (N * N)) (cov acq : string) (norm ard : bool) (opt_gp opt_bo msel : string)
  : res (gp_obj N) :=
  assert (range_ok range_X);
  assert (str_in cov ALLOWED_COV);
  assert (str_in acq ALLOWED_BO_ACQ);
  assert (str_in opt_gp ALLOWED_OPTIMIZER_METHOD_GP);
  assert (str_in opt_bo ALLOWED_OPTIMIZER_METHOD_BO);
  assert (str_in msel ALLOWED_MODELSELECTION_METHOD);
  do ob <- base_init da ca range_X "gp" acq opt_bo;
  Ok (mkgpo N range_X cov acq norm ard opt_gp ob msel).

(** bo_w_tp.py:57-102 *)
Definition tp_init (da ca : bool) (range_X : list (N * N)) (cov acq : string) (norm ard : bool) (opt_tp opt_bo : string)
  : res (tp_obj N) :=
  assert (range_ok range_X);
  assert (str_in cov ALLOWED_COV);
  assert (str_in acq ALLOWED_BO_ACQ);
  assert (str_in opt_tp ALLOWED_OPTIMIZER_METHOD_TP);
  assert (str_in opt_bo ALLOWED_OPTIMIZER_METHOD_BO);
  do ob <- base_init da ca range_X "tp" acq opt_bo;
  Ok (mktpo N range_X cov acq norm ard opt_tp ob).

(** bo_w_trees.py:39-67 *)
Definition rf_init (da ca : bool) (range_X : list (N * N)) (surrogate acq : string) (norm : bool) (opt_bo : string)
  : res (rf_obj N) :=
  assert (range_ok range_X);
  assert (str_in surrogate ALLOWED_SURROGATE_TREES);
  assert (str_in acq ALLOWED_BO_ACQ);
  assert (str_in opt_bo ALLOWED_OPTIMIZER_METHOD_BO_TREES);
  do _ <- base_init da ca range_X surrogate acq opt_bo;
  Ok (mkrfo N range_X acq norm).

Inductive bo_model : Type := MGP (o : gp_obj N) | MTP (o : tp_obj N) | MRF (o : rf_obj N).

(** wrappers_bo_class.py:70-168 with the getters of 170-238 *)
Definition bo_init (da ca : bool) (a : bo_args) : res bo_model :=
  assert (range_ok (a_range a));
  assert (0 <? a_num_iter a)%Z;
  assert (0 <? a_num_samples a)%Z;
  assert (str_in (a_surrogate a) (ALLOWED_SURROGATE ++ ALLOWED_SURROGATE_TREES)%list);
  assert (str_in (a_cov a) ALLOWED_COV);
  assert (str_in (a_acq a) ALLOWED_BO_ACQ);
  assert (str_in (a_init a) ALLOWED_INITIALIZING_METHOD_BO);
  assert (str_in (a_samp a) ALLOWED_SAMPLING_METHOD);
  assert (str_in (a_opt_gp a) ALLOWED_OPTIMIZER_METHOD_GP);
  assert (str_in (a_opt_tp a) ALLOWED_OPTIMIZER_METHOD_TP);
  assert (str_in (a_opt_bo a) (ALLOWED_OPTIMIZER_METHOD_BO ++ ALLOWED_OPTIMIZER_METHOD_BO_TREES)%list);
  assert (str_in (a_mlm a) ALLOWED_MLM_METHOD);
  assert (str_in (a_msel a) ALLOWED_MODELSELECTION_METHOD);
  do ob <- check_optimizer_method_bo da ca (a_opt_bo a) (Z.of_nat (List.length (a_range a)));
  if str_in (a_surrogate a) ALLOWED_SURROGATE_TREES then
    rmap MRF (rf_init da ca (a_range a) (a_surrogate a) (a_acq a) (a_norm a) ob)
  else if a_surrogate a =? "gp" then
    rmap MGP (gp_init da ca (a_range a) (a_cov a) (a_acq a) (a_norm a) (a_ard a) (a_opt_gp a) ob (a_msel a))
  else if a_surrogate a =? "tp" then
    rmap MTP (tp_init da ca (a_range a) (a_cov a) (a_acq a) (a_norm a) (a_ard a) (a_opt_tp a) ob)
  else Raise NotImplementedError.
End Construct.

(** ** optimize_single_iteration (wrappers_bo_class.py:280-314): model_bo.optimize is called without a
    seed, i.e. with seed=None; the wrappers read four entries of dict_info *)
Section SingleIteration.
Context (N : Num) (W K : Type).
Definition gp_to_info (g : gp_info N K) : info N :=
  mkinfo (gi_points N K g) (gi_acqs N K g) (gi_tsur N K g) (gi_tacq N K g).
Definition rf_to_info {T} (g : rf_info N T) : info N :=
  mkinfo (ri_points N T g) (ri_acqs N T g) (ri_tsur N T g) (ri_tacq N T g).
(** forget which hyperparameter optimisations were made *)
Definition untraced {St A B} (f : A -> B) (m : M (St * W) (fitev N) (list N * A)) (sw : St * W) : (St * W) * res (list N * B) :=
  match m sw with (sw', _, r) => (sw', rmap (fun p => (fst p, f (snd p))) r) end.
End SingleIteration.

(** ** BayesianOptimization(...).optimize with the GP surrogate: the whole program
    (wrappers_bo_class.py:490-541 over bo_w_gp.py; get_initials is base_bo.py:314-339) *)
Section Whole.
Context (N : Num) (W K : Type).
Context (get_samples : string -> Z -> option Z -> W -> W * res (list (list N))).
Context (lbfgsb : (list N -> res N) -> list N -> list (N * N) -> W -> W * res (list N)).
Context (direct : (list N -> res N) -> list (N * N) -> W -> W * res (list N)).
Context (cma : (list N -> res N) -> list N -> list (N * N) -> W -> W * res (list N)).
Context (time_ : W -> W * N).
Context (fit : mat N -> list N -> string -> string -> string -> bool -> W -> W * res (K * K * dict N)).
Context (kernel_inverse : mat N -> dict N -> string -> res (K * K)).
Context (neg_log_ml : mat N -> list N -> list N -> string -> bool -> res N).
Context (acq : string -> string -> mat N -> list N -> K -> K -> dict N -> list (list N) -> res (list N)).
Context (fun_target : list N -> W -> W * res N).

(** an effect on the world, beside the state of the model *)
Definition onsnd {St A} (f : W -> W * A) (sw : St * W) : (St * W) * A := let (w', r) := f (snd sw) in ((fst sw, w'), r).
Definition get_initials (m : string) (n : Z) (seed : option Z) (w : W) : W * res (mat N) :=
  let (w', r) := get_samples m n seed w in (w', do l <- r; np_array_rows l).
Definition gp_iteration (o : gp_obj N) (samp : string) (num : Z) (mlm : string) (X : mat N) (Y : list N) :=
  untraced N W (gp_to_info N K)
    (gp_optimize N W K get_samples lbfgsb direct cma time_ fit kernel_inverse neg_log_ml acq o X Y samp num mlm None).
Definition gp_whole (o : gp_obj N) (meth samp : string) (num : Z) (mlm : string) (num_iter num_init : Z) (seed : option Z)
  : M (gp_state N * W) (event N) (run_out N) :=
  class_optimize N (gp_state N * W) (fun x => onsnd (fun_target x)) (onsnd time_)
    (gp_iteration o samp num mlm) (fun m n s => onsnd (get_initials m n s)) meth num_iter num_init seed.
End Whole.
