(** What the functions of wrappers_bo_function.py write to the log: the functions of WrapperModel.v on a BOwGP object, with their log
    messages, in the order of the source.  Simplifications as in LogRunModel.v. *)
From Verif Require Import Base Num UtilsModel HypsModel CovModel GPModel LikModel HypOptModel AcqModel TreesModel SamplingModel
  Monad WrapperModel BOModel BOAcqModel BOFullModel BOProgram LoggerModel FunSpec LogRunModel.
From Coq Require Import List ZArith Bool Ascii String.
Import ListNotations.
Local Open Scope string_scope.

Section Function.
Context (N : Num) (num f4 : N -> string) (dec : Z -> string) (W : Type) (debug : bool).
Context (get_samples : string -> Z -> option Z -> W -> W * res (list (list N))) (time_ : W -> W * N) (fun_target : list N -> W -> W * res N).
Context (St : Type) (lg : string).
Notation Ml := (M (St * W) msg).
(** model_bo.optimize with its keyword arguments *)
Context (single : string -> Z -> string -> mat N -> list N -> Ml (list N * info N)).

(** wrappers_bo_function.py:84-119; get_str_array(None) fails its assertion *)
Definition l_fun_step (samp : string) (nsamp : Z) (mlm : string) (ind : Z) (X : mat N) (Y : list N) : Ml (mat N * list N * N * N * N) :=
  mlet _ <- say lg INFO ("Iteration " ++ dec (ind + 1));
  mlet t0 <- ltick N W time_ St;
  mlet p <- single samp nsamp mlm X Y;
  let (next_point, di) := p in
  mlet _ <- when debug (say lg DEBUG ("next_point: " ++ arr1 N num next_point));
  mlet nb <-
    (if negb (Nat.eqb (List.length next_point) (mcols X)) then raise OutsideModel
     else if existsb (fun x => nlt N (nnorm N (vsub N next_point x)) (tol_dup N)) (mrows X) then
       mlet nb <- lift (get_next_best_acquisition N (in_points di) (in_acqs di) X);
       mlet _ <- when debug (say_res lg DEBUG "next_point is repeated, so next best is selected.                        next_point: "
         (match nb with Some p => Ok (arr1 N num p) | None => Raise AssertionError end));
       ret nb
     else ret (Some next_point));
  mlet Xp <- lift (vstack_row N X nb);
  let (X', p) := Xp in
  mlet te0 <- ltick N W time_ St;
  mlet y <- lon W St (fun_target p);
  mlet te1 <- ltick N W time_ St;
  mlet _ <- when debug (say lg DEBUG ("time consumed to evaluate: " ++ f4 (nsub N te1 te0) ++ " sec."));
  mlet t1 <- ltick N W time_ St;
  ret (X', (Y ++ [y])%list, nsub N t1 t0, in_tsur di, in_tacq di).
Fixpoint l_fun_loop (samp : string) (nsamp : Z) (mlm : string) (n : nat) (ind : Z) (X : mat N) (Y : list N) (ta ts tq : list N) : Ml (run_out N) :=
  match n with
  | O => ret (mkrun X Y ta ts tq)
  | S n =>
      mlet q <- l_fun_step samp nsamp mlm ind X Y;
      let '(X', Y', a, s, c) := q in
      l_fun_loop samp nsamp mlm n (ind + 1) X' Y' (ta ++ [a])%list (ts ++ [s])%list (tq ++ [c])%list
  end.
(** wrappers_bo_function.py:18-130 *)
Definition l_fun_all_initial (samp : string) (nsamp : Z) (mlm : string) (num_iter : Z) (X : mat N) (Y : list N) : Ml (run_out N) :=
  massert (Nat.eqb (nrows X) (List.length Y));
  massert (str_in mlm ALLOWED_MLM_METHOD);
  mlet t_start <- ltick N W time_ St;
  mlet r <- l_fun_loop samp nsamp mlm (Z.to_nat num_iter) 0 X Y [] [] [];
  mlet t_end <- ltick N W time_ St;
  mlet _ <- when debug (say lg DEBUG ("overall time consumed in single BO round: " ++ f4 (nsub N t_end t_start) ++ " sec."));
  ret r.
(** wrappers_bo_function.py:133-210 *)
Definition l_fun_initial (x : list N) : Ml (N * N) :=
  mlet t0 <- ltick N W time_ St;
  mlet y <- lon W St (fun_target x);
  mlet t1 <- ltick N W time_ St;
  ret (y, nsub N t1 t0).
Definition l_fun_initial_inputs (samp : string) (nsamp : Z) (mlm : string) (num_iter : Z) (X : mat N) : Ml (run_out N) :=
  massert (str_in mlm ALLOWED_MLM_METHOD);
  mlet l <- mmapM l_fun_initial (mrows X);
  mlet r <- l_fun_all_initial samp nsamp mlm num_iter X (map fst l);
  ret (mkrun (ro_X r) (ro_Y r) (map snd l ++ ro_tall r)%list (ro_tsur r) (ro_tacq r)).
(** wrappers_bo_function.py:213-312; [o]: the object, whose attributes are printed *)
Definition l_run_single_round (o : gp_obj N) (str_initial_method samp : string) (nsamp : Z) (mlm : string)
    (num_init num_iter : Z) (seed : option Z) : Ml (run_out N) :=
  massert (str_in str_initial_method ALLOWED_INITIALIZING_METHOD_BO);
  massert (str_in mlm ALLOWED_MLM_METHOD);
  mlet _ <- say lg INFO ("range_X:" ++ nl ++ range_text N num (go_range N o));
  mlet _ <- say lg INFO ("str_cov: " ++ go_cov N o);
  mlet _ <- say lg INFO ("str_acq: " ++ go_acq N o);
  mlet _ <- say lg INFO ("str_optimizer_method_gp: " ++ go_opt_gp N o);
  mlet _ <- say lg INFO ("str_optimizer_method_bo: " ++ go_opt_bo N o);
  mlet _ <- say lg INFO ("str_modelselection_method: " ++ go_msel N o);
  mlet _ <- say lg INFO ("num_init: " ++ dec num_init);
  mlet _ <- say lg INFO ("num_iter: " ++ dec num_iter);
  mlet _ <- say lg INFO ("str_initial_method_bo: " ++ str_initial_method);
  mlet _ <- say lg INFO ("str_sampling_method_ao: " ++ samp);
  mlet _ <- say lg INFO ("num_samples_ao: " ++ dec nsamp);
  mlet _ <- say lg INFO ("str_mlm_method: " ++ mlm);
  mlet _ <- say lg INFO ("seed: " ++ seed_str dec seed);
  mlet t0 <- ltick N W time_ St;
  mlet X <- l_get_initials N num W debug get_samples St lg str_initial_method num_init seed;
  mlet _ <- when debug (say lg DEBUG ("X_init:" ++ nl ++ arr2 N num (mrows X)));
  mlet r <- l_fun_initial_inputs samp nsamp mlm num_iter X;
  mlet t1 <- ltick N W time_ St;
  mlet _ <- when debug (say lg DEBUG ("overall time consumed including initializations: " ++ f4 (nsub N t1 t0) ++ " sec."));
  ret r.
End Function.

(** model_bo.optimize of a BOwGP object *)
Section Single.
Context (N : Num) (num f4 : N -> string) (W : Type) (fun_text message_text time_text : W -> string) (debug : bool) (str_exp : option string).
Context (nexp nlog cdf pdf : N -> N) (npi : N).
Notation mx := (list (list N)).
Context (inv chol : mx -> res mx) (cho_solve : mx -> mx -> res mx) (slogdet : mx -> N * N).
Context (get_samples : string -> Z -> option Z -> W -> W * res (list (list N))).
Context (lbfgsb : (list N -> res N) -> list N -> list (N * N) -> W -> W * res (list N)).
Context (direct : (list N -> res N) -> list (N * N) -> W -> W * res (list N)).
Context (cma : (list N -> res N) -> list N -> list (N * N) -> W -> W * res (list N)).
Context (time_ : W -> W * N) (minimize : W -> minimizer N) (after : mat N -> list N -> string -> W -> W) (prior_mu : prior N).
Definition l_gp_single (o : gp_obj N) (samp : string) (nsamp : Z) (mlm : string) (X : mat N) (Y : list N) : M (gp_state N * W) msg (list N * info N) :=
  on_info N (gp_to_info N mx) (l_gp_optimize N num f4 W fun_text message_text time_text debug str_exp nexp nlog cdf pdf npi inv chol cho_solve slogdet
    get_samples lbfgsb direct cma time_ minimize after prior_mu o X Y samp nsamp mlm None).
(** calls of the three functions on one object, one after the other *)
Definition l_calls (dec : Z -> string) (fun_target : list N -> W -> W * res N) (o : gp_obj N) (uses : list (fun_use N)) : M (gp_state N * W) msg (list (run_out N)) :=
  let lg := bo_logger_name "gp" str_exp in
  mmapM (fun_call (l_fun_all_initial N num f4 dec W debug time_ fun_target (gp_state N) lg (l_gp_single o))
    (l_fun_initial_inputs N num f4 dec W debug time_ fun_target (gp_state N) lg (l_gp_single o))
    (l_run_single_round N num f4 dec W debug get_samples time_ fun_target (gp_state N) lg (l_gp_single o) o)) uses.
End Single.
