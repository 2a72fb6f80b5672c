(** Properties C117 (retries of Thompson sampling) and C118 (plots reject wrong shapes first); sharper versions of C19, C56, C66, C71. *)
From Verif Require Import Base Lists Num NumLaws Monad UtilsModel UtilsSpec HypsModel HypsSpec HypsProofs CovModel GPModel HypOptModel WrapperModel BOModel
  ThompsonModel ThompsonSpec ThompsonProps SamplingModel SamplingSpec SamplingProps PlotModel PlotSpec View TightSpec TightProofs.
From Coq Require Import List ZArith Bool String Reals Lra Lia Arith.
From Flocq Require Import Core.Raux IEEE754.BinarySingleNaN.
Import ListNotations.
Local Open Scope string_scope.

(** ** C117 *)
Theorem C117_ladder : forall W G (mvn : list NumR -> list (list NumR) -> W -> W * res G) rvs linalg_is_value mu (Sigma : list (list NumR)) w w1 t r,
  Forall (fun row => List.length row = List.length Sigma) Sigma ->
  sample_ladder NumR mvn rvs linalg_is_value mu Sigma (list_jitters NumR) w = (w1, t, r) ->
  let attempt (j : R) := sample_functions NumR mvn rvs mu (plus_diagonal Sigma j) 1 in
  let ladder := [0; 1 / 10000; 1 / 100; 1; 10; 100; 1000; 10000]%R in
  (exists pre j post wf, ladder = (pre ++ j :: post)%list /\ all_failed attempt (is_value_error linalg_is_value) pre w wf /\
     attempt j wf = (w1, t, r) /\ forall e, r = Raise e -> ~ is_value_error linalg_is_value e) \/
  (all_failed attempt (is_value_error linalg_is_value) ladder w w1 /\ t = [] /\ r = Raise ValueError).
Proof. exact ladder_real. Qed.
Print Assumptions C117_ladder.

(** one iteration: the posterior at the candidates is what is sampled, with the first jitter that works *)
Theorem C117_iteration : forall (N : Num) W G (mvn : list N -> list (list N) -> W -> W * res G) rvs linalg_is_value nexp nlog npi inv chol cho_solve slogdet
    minimize da ca get_samples range X Y (norm : bool) method num w w1 t p,
  ts_iteration mvn rvs linalg_is_value nexp nlog npi inv chol cho_solve slogdet minimize da ca get_samples range X Y norm method num w = (w1, t, Ok p) ->
  exists Yn pts Xt mu sd Sigma w0 pre j post wf a td,
    (if norm then normalize_min_max N Y = Ok Yn else Yn = Y) /\ get_samples range method num None w = (w0, Ok pts) /\ np_array_rows pts = Ok Xt /\
    predict_with_optimized_hyps nexp nlog npi inv chol cho_solve slogdet minimize (A2 N X) (to_column N Yn) (A2 N Xt) "matern52" "BFGS" None true = Ok (mu, sd, Sigma) /\
    list_jitters N = (pre ++ j :: post)%list /\
    all_failed (try_jitter N mvn rvs (map (hd (nofZ N 0)) mu) Sigma) (fun e => caught linalg_is_value e = true) pre w0 wf /\
    try_jitter N mvn rvs (map (hd (nofZ N 0)) mu) Sigma j wf = (w1, td, Ok a) /\ t = TsCands pts :: td.
Proof. exact iteration_samples. Qed.
Print Assumptions C117_iteration.

(** a sampler that accepts only covariances with a diagonal of at least one: the fourth rung (jitter 1) is used *)
Definition exl_mvn (mu : list NumR) (S : list (list NumR)) (w : nat) : nat * res nat :=
  match S with (a :: _) :: _ => if Rle_bool 1 a then (Datatypes.S w, Ok (List.length mu)) else (Datatypes.S w, Raise ValueError) | _ => (w, Raise ValueError) end.
Definition exl_rvs (g : nat) (w : nat) : nat * res (list NumR) := (w, Ok (map INR (seq 0 g))).
Example C117_example :
  sample_ladder NumR exl_mvn exl_rvs false [2; 3]%R [[0; 0]; [0; 0]]%R (list_jitters NumR) 0%nat = (4%nat, [TsDraw ([0; 1]%R : list NumR)], Ok (V2 (mkmat [[0; 1]%R : list NumR] 2))).
Proof.
  rewrite ladder_values. cbn [sample_ladder]. unfold sample_functions, bind, lift, ext, draws, ThompsonModel.draw. cbn [List.length].
  change (has_shape NumR 2 2 _) with true. cbn -[Rle_bool]. cbv [exl_mvn]. cbn -[Rle_bool].
  repeat (rewrite Rle_bool_false by (cbn; lra); cbn -[Rle_bool]). rewrite Rle_bool_true by (cbn; lra). cbn. reflexivity.
Qed.

(** ** C118 *)
Theorem C118_step_rejects : forall (N : Num) lib (X_train Y_train X_test Y_test mean_test std_test : mat N) acq_test path_save str_postfix num_init range_shade,
  ~ step_shapes X_train Y_train X_test Y_test mean_test std_test acq_test num_init ->
  plot_bo_step_gen N lib X_train Y_train X_test Y_test mean_test std_test acq_test path_save str_postfix num_init range_shade tt = (tt, [], Raise AssertionError).
Proof. exact step_rejects. Qed.
Print Assumptions C118_step_rejects.
Theorem C118_gp_rejects : forall (N : Num) lib ncolors (X_train Y_train X_test mean_test std_test : mat N) Y_test path_save str_postfix range_shade,
  ~ gp_shapes X_train Y_train X_test mean_test std_test Y_test ->
  plot_gp_via_distribution N lib ncolors X_train Y_train X_test mean_test std_test Y_test path_save str_postfix range_shade tt = (tt, [], Raise AssertionError).
Proof. exact gp_rejects. Qed.
Print Assumptions C118_gp_rejects.
Theorem C118_samples_rejects : forall (N : Num) lib ncolors (X Ys : mat N) path_save str_postfix, ~ (mcols X = 1%nat /\ nrows X = mcols Ys) ->
  plot_gp_via_sample N lib ncolors X Ys path_save str_postfix tt = (tt, [], Raise AssertionError).
Proof. exact sample_rejects. Qed.
Print Assumptions C118_samples_rejects.
Theorem C118_vs_iter_rejects : forall (N : Num) lib ncolors nmarkers (minima : cube N) labels num_init draw_std include_marker include_legend path_save str_postfix range_shade,
  ~ (List.length labels = List.length (cexps minima) /\ (num_init <= Z.of_nat (ccols minima))%Z) ->
  plot_minimum_vs_iter N lib ncolors nmarkers minima labels num_init draw_std include_marker include_legend path_save str_postfix range_shade tt = (tt, [], Raise AssertionError).
Proof. exact vs_iter_rejects. Qed.
Print Assumptions C118_vs_iter_rejects.
Theorem C118_vs_time_rejects : forall (N : Num) lib ncolors nmarkers (times minima : cube N) labels num_init draw_std include_marker include_legend path_save str_postfix range_shade,
  ~ (List.length labels = List.length (cexps minima) /\ List.length (cexps times) = List.length (cexps minima) /\ crounds times = crounds minima /\
     (num_init <= Z.of_nat (ccols minima))%Z /\ (ccols times = ccols minima \/ (Z.of_nat (ccols times) + num_init)%Z = Z.of_nat (ccols minima))) ->
  plot_minimum_vs_time N lib ncolors nmarkers times minima labels num_init draw_std include_marker include_legend path_save str_postfix range_shade tt = (tt, [], Raise AssertionError).
Proof. exact vs_time_rejects. Qed.
Print Assumptions C118_vs_time_rejects.
Example C118_example : let c (l : list Z) : mat NumF := mkmat (map (fun z => [fofZ z]) l) 1 in
  ~ step_shapes (c [10; 11]%Z) (c [1; 2]%Z) (c [0; 5]%Z) (c [1; 1]%Z) (c [2]%Z) (c [1; 0]%Z) None None /\
  step_shapes (c [10; 11]%Z) (c [1; 2]%Z) (c [0; 5]%Z) (c [1; 1]%Z) (c [2; 2]%Z) (c [1; 0]%Z) None (Some 2%Z).
Proof. cbn. unfold step_shapes, column, opt_column, nrows. cbn. split; [intros H; intuition discriminate|repeat split; lia]. Qed.

(** ** C19: the values themselves *)
Theorem C19_bounds : forall cov dim use_gp use_ard fix_noise, In cov cov_names ->
  get_range_hyps NumR cov dim use_gp use_ard fix_noise =
  Ok ((if fix_noise then [] else [(1 / 1000, 10)]) ++ (if use_gp then [] else [(200001 / 100000, 200)]) ++ [(1 / 100, 1000)] ++
      repeat (1 / 100, 1000) (if use_ard then Z.to_nat dim else 1))%list%R.
Proof. exact range_values. Qed.
Print Assumptions C19_bounds.
Theorem C19_defaults : forall cov dim use_gp use_ard, In cov cov_names -> (0 <= dim)%Z ->
  exists d, get_hyps NumR cov dim use_gp use_ard = Ok d /\
    binds d (mkhyps (N := NumR) (1 / 100)%R (if use_gp then None else Some 5%R) 1%R (if use_ard then inl (repeat 1%R (Z.to_nat dim)) else inr 1%R)).
Proof. exact default_values. Qed.
Print Assumptions C19_defaults.

(** ** C56: the uniform sampler returns exactly when no width overflows *)
Theorem C56_uniform_exactly : forall W G (mkstate : option Z -> W -> W * res G) unit_draw gauss_draw qmc (range_X : list (f64 * f64)) num seed w w1 g,
  (1 <= num)%Z -> mkstate seed w = (w1, Ok g) ->
  (Forall (fun r => is_finite (fsub (snd r) (fst r)) = true) range_X ->
     exists rows, get_samples NumF mkstate unit_draw gauss_draw qmc range_X "uniform" num seed w = (w1, Ok rows)) /\
  (~ Forall (fun r => is_finite (fsub (snd r) (fst r)) = true) range_X ->
     get_samples NumF mkstate unit_draw gauss_draw qmc range_X "uniform" num seed w = (w1, Raise (ModelError 0))).
Proof. exact uniform_exactly. Qed.
Print Assumptions C56_uniform_exactly.
Example C56_uniform_case : snd (get_samples NumF ex_mk ex_unit (ex_gauss (fofZ 5)) ex_qmc [(fsub (fofZ 0) big_hi, big_hi)] "uniform" 1 None tt) = Raise (ModelError 0).
Proof. vm_compute. reflexivity. Qed.

(** ** C66: the test of a run *)
Theorem C66_five_percent : forall W K get_samples lbfgsb direct cma time_ fit kernel_inverse neg_log_ml acq
    o X Y samp num seed s (w : W) s' w' t np (gi : gp_info NumR K) pre last (hl hn : hypset NumR),
  In (go_cov NumR o) cov_names -> gs_opt NumR s = true -> gs_hist NumR s = (pre ++ [Some last])%list ->
  binds last hl -> binds (gi_hyps NumR K gi) hn -> h_dof hl = None -> h_dof hn = None ->
  List.length (layout true hl) = List.length (layout true hn) ->
  gp_optimize NumR W K get_samples lbfgsb direct cma time_ fit kernel_inverse neg_log_ml acq o X Y samp num "converged" seed (s, w) = ((s', w'), t, Ok (np, gi)) ->
  (gs_opt NumR s' = false <-> (dist2 (layout true hn) (layout true hl) < norm2 (layout true hl) * (5 / 100))%R).
Proof. exact converged_five_percent. Qed.
Print Assumptions C66_five_percent.

(** ** C71: where the entries come from *)
Theorem C71_tp_scale : forall (N : Num) W G (mvn : list N -> list (list N) -> W -> W * res G) rvs chisquare nu mu Sigma num w w1 t s,
  chi_contract chisquare -> draw_contract mvn rvs -> (1 <= num)%Z -> (2 <= List.length mu)%nat ->
  tp_sample_functions N mvn rvs chisquare nu mu Sigma num w = (w1, t, Ok s) ->
  exists x r rv w2 w3, drawn t = r /\ List.length r = Z.to_nat num /\
    (infinite N nu -> x = repeat (nofZ N 1) (Z.to_nat num) /\ w2 = w) /\
    (~ infinite N nu -> exists c, chisquare nu num w = (w2, Ok c) /\ x = map (fun v => ndiv N v nu) c) /\
    mvn (repeat (nofZ N 0) (List.length mu)) Sigma w2 = (w3, Ok rv) /\ Forall (fun v => exists w4 w5, rvs rv w4 = (w5, Ok v)) r /\
    nrows s = Z.to_nat num /\
    forall i j xi ri row m v, nth_error x i = Some xi -> nth_error r i = Some ri -> nth_error (mrows s) i = Some row ->
      nth_error mu j = Some m -> nth_error ri j = Some v -> nth_error row j = Some (nadd N m (ndiv N v (nsqrt N xi))).
Proof. exact tp_scaled. Qed.
Print Assumptions C71_tp_scale.
Theorem C71_tp_no_sample : forall (N : Num) W G (mvn : list N -> list (list N) -> W -> W * res G) rvs chisquare nu mu Sigma w w1 t s,
  chi_contract chisquare -> mu <> [] -> tp_sample_functions N mvn rvs chisquare nu mu Sigma 0 w <> (w1, t, Ok s).
Proof. exact tp_no_sample. Qed.
Print Assumptions C71_tp_no_sample.
