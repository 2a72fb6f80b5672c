(** What a run writes to the log: the program of BOProgram.v with its log messages.

    Every function below repeats the statements of the function it is named after and adds the calls of the logger, in the order of
    the source: wrappers_bo_class.py (70-168, 240-541, print_info included), base_bo.py (79-82, 292-310), bo_w_gp.py, bo_w_tp.py,
    bo_w_trees.py, gp_kernel.py (78-155), tp_kernel.py (72-119), utils_bo.py (190-199).  The events are the messages.
    Simplifications: the text of one number is an arbitrary function ([num] for an array entry, [f4] for '%.4f', [dec] for '%d');
    fields of scipy's result other than [x], and times inside the selection of hyperparameters, are arbitrary texts that may depend on the
    world; writing a message changes nothing else and takes no time; the progress bar is left out.  An attribute that was never set raises
    [OutsideModel] (Python: AttributeError). *)
From Verif Require Import Base Num UtilsModel HypsModel CovModel GPModel LikModel HypOptModel AcqModel TreesModel SamplingModel
  Monad WrapperModel BOModel BOAcqModel BOFullModel BOProgram LoggerModel.
From Coq Require Import List ZArith Bool Ascii String.
Import ListNotations.
Local Open Scope string_scope.

Inductive level : Type := DEBUG | INFO | WARNING.
(** a record: name of the logger, level, text *)
Record msg : Type := mkmsg { m_logger : string; m_level : level; m_text : string }.

Section Say.
Context {S : Type}.
Definition say (lg : string) (lv : level) (text : string) : M S msg unit := fun s => (s, [mkmsg lg lv text], Ok tt).
(** if b: ... *)
Definition when (b : bool) (m : M S msg unit) : M S msg unit := if b then m else ret tt.
(** a message whose text may fail to be built *)
Definition say_res (lg : string) (lv : level) (pre : string) (r : res string) : M S msg unit :=
  mlet t <- lift r; say lg lv (pre ++ t).
End Say.

Section Logged.
Context (N : Num) (num f4 : N -> string) (dec : Z -> string).
(** result_optimized.fun, result_optimized.message, a time *)
Context (W : Type) (fun_text message_text time_text : W -> string).
Context (debug : bool) (str_exp : option string).

Definition bool_str (b : bool) : string := if b then "True" else "False".
Definition arr1 (l : list N) : string := get_str_array_1d (fun _ => true) num num l.
Definition arr2 (l : list (list N)) : string := get_str_array_2d (fun _ => true) num num l.
Definition range_text (r : list (N * N)) : string := arr2 (map (fun b => [fst b; snd b]) r).
(** utils_logger.get_str_hyps on a dictionary of hyperparameters; other values print as some text *)
Definition hyps_text (h : dict N) : res string :=
  get_str_hyps (fun _ => true) num num (map (fun p => (fst p, match snd p with
    | PFloat _ x => DFloat x | PArr _ l => DArr (T1 l) | POther _ _ => DArr (T1 []) end)) h).

Context (nexp nlog cdf pdf : N -> N) (npi : N).
Notation mx := (list (list N)).
Context (inv chol : mx -> res mx) (cho_solve : mx -> mx -> res mx) (slogdet : mx -> N * N) (ngamma ndigamma : N -> N).
Context (get_samples : string -> Z -> option Z -> W -> W * res (list (list N))).
Context (lbfgsb : (list N -> res N) -> list N -> list (N * N) -> W -> W * res (list N)).
Context (direct : (list N -> res N) -> list (N * N) -> W -> W * res (list N)).
Context (cma : (list N -> res N) -> list N -> list (N * N) -> W -> W * res (list N)).
Context (time_ : W -> W * N).
Context (minimize : W -> minimizer N) (after : mat N -> list N -> string -> W -> W).
Context (prior_mu : prior N).
Context (choice : nat -> nat -> bool -> W -> W * res (list nat)) (uniform : N -> N -> W -> W * res N) (trunc : N -> option Z)
  (schedule : nat -> list nat).
Context (fun_target : list N -> W -> W * res N).

Section WithState.
Context (St : Type).
Notation Ml := (M (St * W) msg).
Definition lon {A} (f : W -> W * res A) : Ml A := ext (fun sw => let (w', r) := f (snd sw) in ((fst sw, w'), r)).
Definition ltick : Ml N := lon (fun w => let (w', t) := time_ w in (w', Ok t)).
Definition lget : Ml St := fun sw => (sw, [], Ok (fst sw)).
Definition lput (s : St) : Ml unit := fun sw => ((s, snd sw), [], Ok tt).
(** a text that depends on the world *)
Definition say_world (lg : string) (lv : level) (pre : string) (f : W -> string) (post : string) : Ml unit :=
  fun sw => (sw, [mkmsg lg lv (pre ++ f (snd sw) ++ post)], Ok tt).

(** base_bo.py:292-312 *)
Definition l_get_samples (lg : string) (m : string) (n : Z) (seed : option Z) : Ml (list (list N)) :=
  mlet _ <- when (debug && (m =? "grid")) (say lg DEBUG "For this option, num_samples is used as num_grids.");
  mlet s <- lon (get_samples m n seed);
  mlet _ <- when debug (say lg DEBUG ("samples:" ++ nl ++ arr2 s));
  ret s.
(** base_bo.py:314-339 *)
Definition l_get_initials (lg : string) (m : string) (n : Z) (seed : option Z) : Ml (mat N) :=
  mlet s <- l_get_samples lg m n seed;
  lift (np_array_rows s).

(** bo_w_gp.py:136-191, bo_w_tp.py:127-182: 'num_samples is ignored.' does not depend on the flag *)
Definition l_optimize_acq (lg opt_bo : string) (range_X : list (N * N)) (fneg : list (list N) -> res (list N))
    (samp : string) (n : Z) (seed : option Z) : Ml (list N * mat N) :=
  mlet pts <-
    (if opt_bo =? "L-BFGS-B" then
       mlet initials <- l_get_samples lg samp n seed;
       mmapM (fun x0 =>
         mlet x <- lon (lbfgsb (at_point N fneg) x0 range_X);
         mlet _ <- when debug (say lg DEBUG ("acquired sample: " ++ arr1 x));
         ret x) initials
     else if opt_bo =? "DIRECT" then
       mlet _ <- say lg DEBUG "num_samples is ignored.";
       mlet x <- lon (direct (at_point N fneg) range_X); ret [x]
     else if opt_bo =? "CMA-ES" then
       mlet _ <- say lg DEBUG "num_samples is ignored.";
       mlet initials <- l_get_samples lg samp 1 seed;
       match initials with
       | [] => raise IndexError
       | x0 :: _ => mlet x <- lon (cma (at_point N fneg) x0 range_X); ret [x]
       end
     else ret []);
  mlet next_points <- lift (np_array_rows pts);
  mlet next_point <- lift (get_best_acquisition_by_evaluation N (mrows next_points) (at_point N fneg));
  ret (next_point, next_points).

(** gp_kernel.py:64-156; [mini] is scipy.optimize.minimize *)
Definition l_gp_kernel (mini : minimizer N) (X : arr N) (Y : mat N) (str_cov optimizer modelselection : string)
    (use_ard fix_noise : bool) : Ml (mx * mx * dict N) :=
  mlet _ <- lift (validate_common_args X Y None);
  mlet _ <- lift (check_str_cov str_cov (shape X) None);
  massert (str_in optimizer ALLOWED_OPTIMIZER_METHOD_GP);
  massert (str_in modelselection ALLOWED_MODELSELECTION_METHOD);
  mlet _ <- when debug (
    mlet _ <- say "gp_kernel" DEBUG ("str_optimizer_method: " ++ optimizer);
    mlet _ <- say "gp_kernel" DEBUG ("str_modelselection_method: " ++ modelselection);
    say "gp_kernel" DEBUG ("use_gradient: " ++ bool_str (negb (optimizer =? "Nelder-Mead"))));
  mlet prior_mu_train <- lift (get_prior_mu prior_mu X);
  mlet dim <- lift (num_dim X str_cov);
  let use_gradient := negb (optimizer =? "Nelder-Mead") && str_in str_cov ALLOWED_COV_BASE && negb (modelselection =? "loocv") in
  let f := gp_objective nexp nlog npi inv chol cho_solve slogdet X Y prior_mu_train str_cov modelselection use_ard fix_noise use_gradient in
  mlet h0 <- lift (get_hyps N str_cov (Z.of_nat dim) true use_ard);
  mlet start <- lift (convert_hyps str_cov h0 true fix_noise);
  mlet x <- lift (if str_in optimizer ["BFGS"; "SLSQP"] then mini f start optimizer None use_gradient
                  else if str_in optimizer ["L-BFGS-B"; "SLSQP-Bounded"] then
                    do bounds <- get_range_hyps N str_cov (Z.of_nat dim) true use_ard fix_noise;
                    mini f start (if optimizer =? "SLSQP-Bounded" then "SLSQP" else optimizer) (Some bounds) use_gradient
                  else mini f start optimizer None false);
  mlet _ <- when debug (
    mlet _ <- say_world "gp_kernel" DEBUG "negative log marginal likelihood: " fun_text "";
    say_world "gp_kernel" DEBUG "scipy message: " message_text "");
  mlet hyps <- lift (restore_hyps N str_cov x true use_ard fix_noise (GP_NOISE N));
  mlet hyps <- lift (validate_hyps_dict hyps str_cov (Z.of_nat dim) true);
  mlet k <- lift (get_kernel_inverse nexp inv X hyps str_cov fix_noise false);
  let '(cov_X_X, inv_cov_X_X, _) := k in
  mlet _ <- when debug (
    mlet _ <- say_res "gp_kernel" DEBUG "hyps optimized: " (hyps_text hyps);
    say_world "gp_kernel" DEBUG "time consumed to construct gpr: " time_text " sec.");
  ret (cov_X_X, inv_cov_X_X, hyps).

(** tp_kernel.py:57-120 *)
Definition l_tp_kernel (mini : minimizer N) (X : arr N) (Y : mat N) (str_cov optimizer : string) (use_ard fix_noise : bool)
  : Ml (mx * mx * dict N) :=
  mlet _ <- lift (validate_common_args X Y None);
  mlet _ <- lift (check_str_cov str_cov (shape X) None);
  massert (str_in optimizer ALLOWED_OPTIMIZER_METHOD_TP);
  mlet _ <- when debug (say "tp_kernel" DEBUG ("str_optimizer_method: " ++ optimizer));
  mlet prior_mu_train <- lift (get_prior_mu prior_mu X);
  mlet dim <- lift (num_dim X str_cov);
  let f := fun hyps => tp_neg_log_ml nexp nlog npi inv slogdet ngamma ndigamma X Y hyps str_cov prior_mu_train use_ard fix_noise false in
  mlet h0 <- lift (get_hyps N str_cov (Z.of_nat dim) false use_ard);
  mlet start <- lift (convert_hyps str_cov h0 false fix_noise);
  mlet bounds <- lift (get_range_hyps N str_cov (Z.of_nat dim) false use_ard fix_noise);
  mlet x <- lift (mini f start optimizer (Some bounds) false);
  mlet _ <- when debug (say_world "tp_kernel" DEBUG "scipy message: " message_text "");
  mlet hyps <- lift (restore_hyps N str_cov x false use_ard fix_noise (GP_NOISE N));
  mlet hyps <- lift (validate_hyps_dict hyps str_cov (Z.of_nat dim) false);
  mlet k <- lift (get_kernel_inverse nexp inv X hyps str_cov fix_noise false);
  let '(cov_X_X, inv_cov_X_X, _) := k in
  mlet _ <- when debug (
    mlet _ <- say_res "tp_kernel" DEBUG "hyps optimized: " (hyps_text hyps);
    say_world "tp_kernel" DEBUG "time consumed to construct tpr: " time_text " sec.");
  ret (cov_X_X, inv_cov_X_X, hyps).

(** the optimiser of this call, and what it leaves behind (BOFullModel.v) *)
Definition l_fit {A} (X : mat N) (Y : list N) (meth : string) (m : minimizer N -> Ml A) : Ml A := fun sw =>
  match m (minimize (snd sw)) sw with (sw', t, r) => ((fst sw', after X Y meth (snd sw')), t, r) end.
End WithState.

(** ** BOwGP.optimize (bo_w_gp.py:321-490) *)
Section GP.
Notation Mg := (M (gp_state N * W) msg).
Let lg : string := bo_logger_name "gp" str_exp.
Definition l_gp_fit (o : gp_obj N) (meth : string) (X : mat N) (Y : list N) : Mg (mx * mx * dict N) :=
  l_fit _ X Y meth (fun mini => l_gp_kernel _ mini (A2 N X) (column_of N Y) (go_cov N o) meth (go_msel N o) (go_ard N o) true).
Definition l_combined_step (o : gp_obj N) (X : mat N) (Y : list N) (meth : string) (best : option (mx * mx * dict N * N))
  : Mg (option (mx * mx * dict N * N)) :=
  mlet f <- l_gp_fit o meth X Y;
  mlet vec <- lift (convert_hyps (go_cov N o) (snd f) true true);
  mlet v <- lift (gp_nlml_full nexp nlog npi inv chol cho_solve slogdet prior_mu X Y vec (go_cov N o) (go_ard N o));
  ret (if better N v (option_map snd best) then Some (f, v) else best).
Definition l_gp_surrogate (o : gp_obj N) (mlm : string) (X : mat N) (Y : list N) : Mg (option (mx * mx * dict N)) :=
  if mlm =? "regular" then
    mlet f <- l_gp_fit o (go_opt_gp N o) X Y; ret (Some f)
  else if mlm =? "combined" then
    mlet b1 <- l_combined_step o X Y "BFGS" None;
    mlet b2 <- l_combined_step o X Y "Nelder-Mead" b1;
    ret (option_map fst b2)
  else if mlm =? "converged" then
    mlet s <- lget _;
    if gs_opt N s then
      mlet f <- l_gp_fit o (go_opt_gp N o) X Y;
      mlet s' <- lget _;
      mlet c <- lift (check_convergence N (gs_hist N s') (snd f) (go_cov N o));
      mlet _ <- lput _ (mkgps N (gs_hist N s') (negb c));
      ret (Some f)
    else
      mlet _ <- when debug (say lg DEBUG "hyps converged.");
      match rev (gs_hist N s) with
      | [] => raise IndexError
      | None :: _ => raise AssertionError
      | Some h :: _ =>
          mlet ci <- lift (gp_kernel_full nexp inv X h (go_cov N o));
          ret (Some (fst ci, snd ci, h))
      end
  else raise ValueError.
Definition l_gp_optimize (o : gp_obj N) (X : mat N) (Y : list N) (samp : string) (n : Z) (mlm : string) (seed : option Z)
  : Mg (list N * gp_info N mx) :=
  massert (Nat.eqb (nrows X) (List.length Y));
  massert (Nat.eqb (mcols X) (List.length (go_range N o)));
  massert (0 <? n)%Z;
  massert (str_in samp ALLOWED_SAMPLING_METHOD);
  massert (str_in mlm ALLOWED_MLM_METHOD);
  mlet t0 <- ltick _;
  mlet _ <- when (go_norm N o && negb (mlm =? "converged") && debug) (say lg DEBUG "Responses are normalized.");
  mlet Yn <- lift (if go_norm N o && negb (mlm =? "converged") then normalize_min_max N Y else Ok Y);
  mlet ts0 <- ltick _;
  mlet f <- l_gp_surrogate o mlm X Yn;
  mlet s <- lget _;
  mlet _ <- lput _ (mkgps N (gs_hist N s ++ [option_map snd f])%list (gs_opt N s));
  mlet ts1 <- ltick _;
  mlet ta0 <- ltick _;
  let fneg pts := match f with
                  | None => Raise AssertionError
                  | Some (c, i, h) => do a <- gp_acq_full nexp nlog cdf pdf prior_mu (List.length (go_range N o)) (go_acq N o) (go_cov N o) X Yn c i h pts; Ok (neg N (scaled N a))
                  end in
  mlet r <- l_optimize_acq _ lg (go_opt_bo N o) (go_range N o) fneg samp n seed;
  let (next_point, next_points) := r in
  mlet next_point <- lift (check_point N (go_range N o) next_point);
  mlet next_points <- lift (check_points_in_bounds N next_points (go_range N o));
  mlet ta1 <- ltick _;
  mlet acqs <- lift (fneg (mrows next_points));
  mlet t1 <- ltick _;
  match f with
  | None => raise AssertionError
  | Some (c, i, h) =>
      mlet _ <- when debug (say lg DEBUG ("overall time consumed to acquire: " ++ f4 (nsub N t1 t0) ++ " sec."));
      ret (next_point, mkgpi N mx next_points acqs Y Yn c i h (nsub N ts1 ts0) (nsub N ta1 ta0) (nsub N t1 t0))
  end.
End GP.

(** ** BOwTP.optimize (bo_w_tp.py:311-412) *)
Definition l_tp_optimize (o : tp_obj N) (X : mat N) (Y : list N) (samp : string) (n : Z) (seed : option Z)
  : M (list (dict N) * W) msg (list N * gp_info N mx) :=
  let lg := bo_logger_name "tp" str_exp in
  massert (Nat.eqb (nrows X) (List.length Y));
  massert (Nat.eqb (mcols X) (List.length (to_range N o)));
  massert (0 <? n)%Z;
  massert (str_in samp ALLOWED_SAMPLING_METHOD);
  mlet t0 <- ltick _;
  mlet _ <- when (to_norm N o && debug) (say lg DEBUG "Responses are normalized.");
  mlet Yn <- lift (if to_norm N o then normalize_min_max N Y else Ok Y);
  mlet ts0 <- ltick _;
  mlet f <- l_fit _ X Yn (to_opt_tp N o) (fun mini => l_tp_kernel _ mini (A2 N X) (column_of N Yn) (to_cov N o) (to_opt_tp N o) (to_ard N o) true);
  let '(c, i, h) := f in
  mlet s <- lget _;
  mlet _ <- lput _ (s ++ [h])%list;
  mlet ts1 <- ltick _;
  mlet ta0 <- ltick _;
  let fneg pts := do a <- tp_acq_full nexp nlog cdf pdf prior_mu (List.length (to_range N o)) (to_acq N o) (to_cov N o) X Yn c i h pts; Ok (neg N (scaled N a)) in
  mlet r <- l_optimize_acq _ lg (to_opt_bo N o) (to_range N o) fneg samp n seed;
  let (next_point, next_points) := r in
  mlet next_point <- lift (check_point N (to_range N o) next_point);
  mlet next_points <- lift (check_points_in_bounds N next_points (to_range N o));
  mlet ta1 <- ltick _;
  mlet acqs <- lift (fneg (mrows next_points));
  mlet t1 <- ltick _;
  mlet _ <- when debug (say lg DEBUG ("overall time consumed to acquire: " ++ f4 (nsub N t1 t0) ++ " sec."));
  ret (next_point, mkgpi N mx next_points acqs Y Yn c i h (nsub N ts1 ts0) (nsub N ta1 ta0) (nsub N t1 t0)).

(** ** BOwTrees.optimize (bo_w_trees.py:197-283) *)
Definition l_rf_optimize (o : rf_obj N) (X : mat N) (Y : list N) (samp : string) (n : Z) (seed : option Z)
  : M (unit * W) msg (list N * rf_info N (list (tree N))) :=
  let lg := bo_logger_name "rf" str_exp in
  massert (Nat.eqb (nrows X) (List.length Y));
  massert (Nat.eqb (mcols X) (List.length (ro_range N o)));
  massert (0 <? n)%Z;
  massert (str_in samp ALLOWED_SAMPLING_METHOD);
  mlet t0 <- ltick _;
  mlet _ <- when (ro_norm N o && debug) (say lg DEBUG "Responses are normalized.");
  mlet Yn <- lift (if ro_norm N o then normalize_min_max N Y else Ok Y);
  mlet ts0 <- ltick _;
  mlet trees <- lon _ (rf_trees_full N choice uniform trunc (List.length (ro_range N o)) X Yn);
  mlet ts1 <- ltick _;
  mlet ta0 <- ltick _;
  mlet pts <- l_get_samples _ lg samp n seed;
  mlet next_points <- lift (np_array_rows pts);
  mlet next_points <- lift (check_points_in_bounds N next_points (ro_range N o));
  mlet acqs <- lift (do a <- rf_acquisitions cdf pdf nlog (List.length (ro_range N o)) (ro_acq N o) schedule X Yn trees (mrows next_points); Ok (neg N (scaled N a)));
  mlet ind <- lift (npargmin N acqs);
  mlet next_point <- lift (match nth_error (mrows next_points) ind with Some p => Ok p | None => Raise IndexError end);
  mlet ta1 <- ltick _;
  mlet t1 <- ltick _;
  mlet _ <- when debug (say lg DEBUG ("overall time consumed to acquire: " ++ f4 (nsub N t1 t0) ++ " sec."));
  ret (next_point, mkrfi N (list (tree N)) next_points acqs Y Yn trees (nsub N ts1 ts0) (nsub N ta1 ta0) (nsub N t1 t0)).

(** ** BayesianOptimization *)
Section Class.
Context (St : Type) (lg : string).
Notation Ml := (M (St * W) msg).
Context (single : mat N -> list N -> Ml (list N * info N)).

(** wrappers_bo_class.py:240-278; get_str_array(None) fails its assertion *)
Definition l_get_next_best_sample (next_sample : list N) (X : mat N) (next_samples : mat N) (acq_vals : list N) : Ml (option (list N)) :=
  if negb (Nat.eqb (List.length next_sample) (mcols X)) then raise OutsideModel
  else if existsb (fun x => nlt N (nnorm N (vsub N next_sample x)) (tol_dup N)) (mrows X) then
    mlet nb <- lift (get_next_best_acquisition N next_samples acq_vals X);
    mlet _ <- when debug (say_res lg DEBUG "next_sample is repeated, so next best is selected.                    next_sample: "
      (match nb with Some p => Ok (arr1 p) | None => Raise AssertionError end));
    ret nb
  else ret (Some next_sample).

(** wrappers_bo_class.py:358-388 *)
Definition l_class_step (ind : Z) (X : mat N) (Y : list N) : Ml (mat N * list N * N * N * N) :=
  mlet _ <- say lg INFO ("Iteration " ++ dec (ind + 1));
  mlet t0 <- ltick _;
  mlet p <- single X Y;
  let (next_sample, di) := p in
  mlet _ <- when debug (say lg DEBUG ("next_sample: " ++ arr1 next_sample));
  mlet nb <- l_get_next_best_sample next_sample X (in_points di) (in_acqs di);
  mlet Xp <- lift (vstack_row N X nb);
  let (X', p) := Xp in
  mlet te0 <- ltick _;
  mlet y <- lon _ (fun_target p);
  mlet te1 <- ltick _;
  mlet _ <- when debug (say lg DEBUG ("time consumed to evaluate: " ++ f4 (nsub N te1 te0) ++ " sec."));
  mlet t1 <- ltick _;
  ret (X', (Y ++ [y])%list, nsub N t1 t0, in_tsur di, in_tacq di).
Fixpoint l_class_loop (n : nat) (ind : Z) (X : mat N) (Y : list N) (ta ts tq : list N) : Ml (run_out N) :=
  match n with
  | O => ret (mkrun X Y ta ts tq)
  | S n =>
      mlet q <- l_class_step ind X Y;
      let '(X', Y', a, s, c) := q in
      l_class_loop n (ind + 1) X' Y' (ta ++ [a])%list (ts ++ [s])%list (tq ++ [c])%list
  end.
(** wrappers_bo_class.py:316-400 *)
Definition l_class_all_initial (num_iter : Z) (X : mat N) (Y : list N) : Ml (run_out N) :=
  massert (Nat.eqb (nrows X) (List.length Y));
  mlet t_start <- ltick _;
  mlet r <- l_class_loop (Z.to_nat num_iter) 0 X Y [] [] [];
  mlet t_end <- ltick _;
  mlet _ <- when debug (say lg DEBUG ("overall time consumed in single BO round: " ++ f4 (nsub N t_end t_start) ++ " sec."));
  ret r.
(** wrappers_bo_class.py:402-446 *)
Definition l_class_initial (x : list N) : Ml (N * N) :=
  mlet t0 <- ltick _;
  mlet y <- lon _ (fun_target x);
  mlet t1 <- ltick _;
  ret (y, nsub N t1 t0).
Definition l_class_initial_inputs (num_iter : Z) (X : mat N) : Ml (run_out N) :=
  mlet l <- mmapM l_class_initial (mrows X);
  mlet r <- l_class_all_initial num_iter X (map fst l);
  ret (mkrun (ro_X r) (ro_Y r) (map snd l ++ ro_tall r)%list (ro_tsur r) (ro_tacq r)).

(** the attributes that __init__ sets (wrappers_bo_class.py:134-166), as texts; [ob]: the optimiser that check_optimizer_method_bo returned *)
Definition attributes (a : bo_args N) (ob : string) : list (string * string) :=
  [("range_X", range_text (a_range N a)); ("num_iter", dec (a_num_iter N a)); ("str_surrogate", a_surrogate N a); ("str_acq", a_acq N a);
   ("normalize_Y", bool_str (a_norm N a)); ("str_initial_method_bo", a_init N a); ("str_sampling_method_ao", a_samp N a);
   ("str_optimizer_method_bo", ob); ("num_samples_ao", dec (a_num_samples N a)); ("debug", bool_str debug)] ++
  (if str_in (a_surrogate N a) ALLOWED_SURROGATE_TREES then []
   else if a_surrogate N a =? "gp" then
     [("str_cov", a_cov N a); ("use_ard", bool_str (a_ard N a)); ("str_optimizer_method_gp", a_opt_gp N a); ("str_mlm_method", a_mlm N a);
      ("str_modelselection_method", a_msel N a)]
   else if a_surrogate N a =? "tp" then
     [("str_cov", a_cov N a); ("use_ard", bool_str (a_ard N a)); ("str_optimizer_method_tp", a_opt_tp N a)]
   else []).
Definition seed_str (seed : option Z) : string := match seed with Some z => dec z | None => "None" end.
(** self.name *)
Definition attr (l : list (string * string)) (name : string) : res string :=
  match find (fun p => fst p =? name) l with Some p => Ok (snd p) | None => Raise OutsideModel end.
(** wrappers_bo_class.py:448-488 *)
Definition l_print_info (a : bo_args N) (ob : string) (num_init : Z) (seed : option Z) : Ml unit :=
  let show name sep := say_res lg INFO (name ++ sep) (attr (attributes a ob) name) in
  let info name := show name ": " in
  let among l m := mlet s <- lift (attr (attributes a ob) "str_surrogate"); when (str_in s l) m in
  mlet _ <- say lg INFO "====================";
  mlet _ <- show "range_X" (":" ++ nl);
  mlet _ <- say lg INFO ("num_init: " ++ dec num_init);
  mlet _ <- info "num_iter";
  mlet _ <- info "str_surrogate";
  mlet _ <- among ALLOWED_SURROGATE (info "str_cov");
  mlet _ <- info "str_acq";
  mlet _ <- info "normalize_Y";
  mlet _ <- among ALLOWED_SURROGATE (info "use_ard");
  mlet _ <- info "str_initial_method_bo";
  mlet _ <- info "str_sampling_method_ao";
  mlet _ <- among ["gp"] (info "str_optimizer_method_gp");
  mlet _ <- among ["tp"] (info "str_optimizer_method_tp");
  mlet _ <- info "str_optimizer_method_bo";
  mlet _ <- among ["gp"] (mlet _ <- info "str_mlm_method"; info "str_modelselection_method");
  mlet _ <- info "num_samples_ao";
  mlet _ <- say lg INFO ("seed: " ++ seed_str seed);
  mlet _ <- info "debug";
  say lg INFO "====================".
(** wrappers_bo_class.py:490-541 *)
Definition l_class_optimize (a : bo_args N) (ob : string) (num_init : Z) (seed : option Z) : Ml (run_out N) :=
  massert (0 <? num_init)%Z;
  mlet _ <- l_print_info a ob num_init seed;
  mlet t0 <- ltick _;
  mlet X <- l_get_initials _ lg (a_init N a) num_init seed;
  mlet _ <- when debug (say lg DEBUG ("X_init:" ++ nl ++ arr2 (mrows X)));
  mlet r <- l_class_initial_inputs (a_num_iter N a) X;
  mlet t1 <- ltick _;
  mlet _ <- when debug (say lg DEBUG ("overall time consumed including initializations: " ++ f4 (nsub N t1 t0) ++ " sec."));
  ret r.
End Class.

(** ** Construction *)
(** utils_bo.py:162-200 *)
Definition l_check_optimizer {S} (da ca : bool) (m : string) (dim : Z) : M S msg string :=
  massert (str_in m (ALLOWED_OPTIMIZER_METHOD_BO ++ ALLOWED_OPTIMIZER_METHOD_BO_TREES)%list);
  if (m =? "DIRECT") && negb da then mlet _ <- say "utils_bo" WARNING "DIRECT is selected, but it is not installed."; ret "L-BFGS-B"
  else if (m =? "CMA-ES") && negb ca then mlet _ <- say "utils_bo" WARNING "CMA-ES is selected, but it is not installed."; ret "L-BFGS-B"
  else if (m =? "CMA-ES") && (dim =? 1)%Z then mlet _ <- say "utils_bo" WARNING "CMA-ES is selected, but a dimension of bounds is 1."; ret "L-BFGS-B"
  else ret m.
(** base_bo.py:39-82 *)
Definition l_base_init {S} (da ca : bool) (range_X : list (N * N)) (surrogate acq opt_bo : string) : M S msg string :=
  massert (range_ok N range_X);
  massert (str_in surrogate (ALLOWED_SURROGATE ++ ALLOWED_SURROGATE_TREES)%list);
  massert (str_in acq ALLOWED_BO_ACQ);
  massert (str_in opt_bo (ALLOWED_OPTIMIZER_METHOD_BO ++ ALLOWED_OPTIMIZER_METHOD_BO_TREES)%list);
  l_check_optimizer da ca opt_bo (Z.of_nat (List.length range_X)).
(** bo_w_gp.py:61-111 *)
Definition l_gp_init {S} (da ca : bool) (range_X : list (N * N)) (cov acq : string) (norm ard : bool) (opt_gp opt_bo msel : string) : M S msg (gp_obj N) :=
  massert (range_ok N range_X);
  massert (str_in cov ALLOWED_COV);
  massert (str_in acq ALLOWED_BO_ACQ);
  massert (str_in opt_gp UtilsModel.ALLOWED_OPTIMIZER_METHOD_GP);
  massert (str_in opt_bo ALLOWED_OPTIMIZER_METHOD_BO);
  massert (str_in msel UtilsModel.ALLOWED_MODELSELECTION_METHOD);
  mlet ob <- l_base_init da ca range_X "gp" acq opt_bo;
  ret (mkgpo N range_X cov acq norm ard opt_gp ob msel).
(** bo_w_tp.py:57-102 *)
Definition l_tp_init {S} (da ca : bool) (range_X : list (N * N)) (cov acq : string) (norm ard : bool) (opt_tp opt_bo : string) : M S msg (tp_obj N) :=
  massert (range_ok N range_X);
  massert (str_in cov ALLOWED_COV);
  massert (str_in acq ALLOWED_BO_ACQ);
  massert (str_in opt_tp UtilsModel.ALLOWED_OPTIMIZER_METHOD_TP);
  massert (str_in opt_bo ALLOWED_OPTIMIZER_METHOD_BO);
  mlet ob <- l_base_init da ca range_X "tp" acq opt_bo;
  ret (mktpo N range_X cov acq norm ard opt_tp ob).
(** bo_w_trees.py:39-67 *)
Definition l_rf_init {S} (da ca : bool) (range_X : list (N * N)) (surrogate acq : string) (norm : bool) (opt_bo : string) : M S msg (rf_obj N) :=
  massert (range_ok N range_X);
  massert (str_in surrogate ALLOWED_SURROGATE_TREES);
  massert (str_in acq ALLOWED_BO_ACQ);
  massert (str_in opt_bo ALLOWED_OPTIMIZER_METHOD_BO_TREES);
  mlet _ <- l_base_init da ca range_X surrogate acq opt_bo;
  ret (mkrfo N range_X acq norm).
(** wrappers_bo_class.py:70-168; the optimiser kept by the wrapper and the model *)
Definition l_bo_init {S} (da ca : bool) (a : bo_args N) : M S msg (string * bo_model N) :=
  massert (range_ok N (a_range N a));
  massert (0 <? a_num_iter N a)%Z;
  massert (0 <? a_num_samples N a)%Z;
  massert (str_in (a_surrogate N a) (ALLOWED_SURROGATE ++ ALLOWED_SURROGATE_TREES)%list);
  massert (str_in (a_cov N a) ALLOWED_COV);
  massert (str_in (a_acq N a) ALLOWED_BO_ACQ);
  massert (str_in (a_init N a) ALLOWED_INITIALIZING_METHOD_BO);
  massert (str_in (a_samp N a) ALLOWED_SAMPLING_METHOD);
  massert (str_in (a_opt_gp N a) UtilsModel.ALLOWED_OPTIMIZER_METHOD_GP);
  massert (str_in (a_opt_tp N a) UtilsModel.ALLOWED_OPTIMIZER_METHOD_TP);
  massert (str_in (a_opt_bo N a) (ALLOWED_OPTIMIZER_METHOD_BO ++ ALLOWED_OPTIMIZER_METHOD_BO_TREES)%list);
  massert (str_in (a_mlm N a) ALLOWED_MLM_METHOD);
  massert (str_in (a_msel N a) UtilsModel.ALLOWED_MODELSELECTION_METHOD);
  mlet ob <- l_check_optimizer da ca (a_opt_bo N a) (Z.of_nat (List.length (a_range N a)));
  if str_in (a_surrogate N a) ALLOWED_SURROGATE_TREES then
    mlet o <- l_rf_init da ca (a_range N a) (a_surrogate N a) (a_acq N a) (a_norm N a) ob; ret (ob, MRF N o)
  else if a_surrogate N a =? "gp" then
    mlet o <- l_gp_init da ca (a_range N a) (a_cov N a) (a_acq N a) (a_norm N a) (a_ard N a) (a_opt_gp N a) ob (a_msel N a); ret (ob, MGP N o)
  else if a_surrogate N a =? "tp" then
    mlet o <- l_tp_init da ca (a_range N a) (a_cov N a) (a_acq N a) (a_norm N a) (a_ard N a) (a_opt_tp N a) ob; ret (ob, MTP N o)
  else raise NotImplementedError.

(** ** BayesianOptimization(...).optimize(num_init, seed), with its log *)
Definition on_info {S A B} (f : A -> B) (m : M S msg (list N * A)) : M S msg (list N * B) := mlet p <- m; ret (fst p, f (snd p)).
Definition starting {St A} (s : St) (m : M (St * W) msg A) : M W msg A := fun w => match m (s, w) with (sw, t, r) => (snd sw, t, r) end.
Definition l_program (da ca : bool) (a : bo_args N) (num_init : Z) (seed : option Z) : M W msg (run_out N) :=
  mlet im <- l_bo_init da ca a;
  let (ob, m) := im in
  match m with
  | MGP _ o => starting (mkgps N [] true) (l_class_optimize _ (bo_logger_name "gp" str_exp)
      (fun X Y => on_info (gp_to_info N mx) (l_gp_optimize o X Y (a_samp N a) (a_num_samples N a) (a_mlm N a) None)) a ob num_init seed)
  | MTP _ o => starting [] (l_class_optimize _ (bo_logger_name "tp" str_exp)
      (fun X Y => on_info (gp_to_info N mx) (l_tp_optimize o X Y (a_samp N a) (a_num_samples N a) None)) a ob num_init seed)
  | MRF _ o => starting tt (l_class_optimize _ (bo_logger_name "rf" str_exp)
      (fun X Y => on_info (@rf_to_info N (list (tree N))) (l_rf_optimize o X Y (a_samp N a) (a_num_samples N a) None)) a ob num_init seed)
  end.
End Logged.
