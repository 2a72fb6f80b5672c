(** Property C135: the debug flag and the log of the functions of wrappers_bo_function.py. *)
From Verif Require Import Base Lists Num NumLaws NumFin Monad UtilsModel UtilsSpec HypsModel CovModel CovSpec Contracts GPModel GPSpec LikModel LikSpec LikProofs2 HypOptModel
  AcqModel WrapperModel WrapperSpec BOModel BOAcqModel BOAcqSpec BOFullModel BOProgram BOTotalSpec BOTotalProofs BOTotalProps FunSpec FunProofs FunProps
  LoggerModel LogRunModel LogRunSpec LogFunModel LogFunSpec LogFunProofs.
From Coq Require Import List ZArith Bool String Reals Lra Lia.
Import ListNotations.
Unset Asymmetric Patterns.
Set Bullet Behavior "Strict Subproofs".
Local Open Scope string_scope.

(** ** C135: any calls on one object, with and without the flag, any numbers: the same effects on the object and the world, the same records above
    DEBUG, the same outcome; only calls that fail because no candidate has a comparable acquisition value fail with another exception *)
Theorem C135_flag : forall N num f4 dec W fun_text message_text time_text str_exp nexp nlog cdf pdf npi inv chol cho_solve slogdet
    get_samples lbfgsb direct cma time_ minimize after prior_mu target o uses sw,
  let run debug := l_calls N num f4 W fun_text message_text time_text debug str_exp nexp nlog cdf pdf npi inv chol cho_solve slogdet
    get_samples lbfgsb direct cma time_ minimize after prior_mu dec target o uses sw in
  fst (fst (run true)) = fst (fst (run false)) /\
  visible (snd (fst (run true))) = visible (snd (fst (run false))) /\
  same_or_assertion (snd (run true)) (snd (run false)).
Proof. exact calls_flag. Qed.
Print Assumptions C135_flag.
(** over the real numbers the outcome is the same *)
Theorem C135_exact : forall num f4 dec W fun_text message_text time_text str_exp nexp nlog cdf pdf npi inv chol cho_solve slogdet
    get_samples lbfgsb direct cma time_ minimize after prior_mu target o uses sw,
  let run debug := l_calls NumR num f4 W fun_text message_text time_text debug str_exp nexp nlog cdf pdf npi inv chol cho_solve slogdet
    get_samples lbfgsb direct cma time_ minimize after prior_mu dec target o uses sw in
  fst (fst (run true)) = fst (fst (run false)) /\
  visible (snd (fst (run true))) = visible (snd (fst (run false))) /\
  snd (run true) = snd (run false).
Proof. exact calls_exact. Qed.
Print Assumptions C135_exact.
(** the messages do not influence the calls: the functions of C103 and C104 *)
Theorem C135_program : forall N num f4 dec W fun_text message_text time_text str_exp nexp nlog cdf pdf npi inv chol cho_solve slogdet
    get_samples lbfgsb direct cma time_ minimize after prior_mu (target : list (car N) -> W -> W * res N) o uses sw,
  let logged := l_calls N num f4 W fun_text message_text time_text false str_exp nexp nlog cdf pdf npi inv chol cho_solve slogdet
    get_samples lbfgsb direct cma time_ minimize after prior_mu dec target o uses sw in
  let tg := fun x => onsnd W (target x) in
  let tm := onsnd W time_ in
  let gi := fun ms n s => onsnd W (BOModel.get_initials N W get_samples ms n s) in
  let opt := gp_single N nexp nlog cdf pdf npi inv chol cho_solve slogdet W get_samples lbfgsb direct cma time_ minimize after prior_mu o in
  let plain := mmapM (fun_call (fun_all_initial N (gp_state N * W) tg tm opt) (fun_initial_inputs N (gp_state N * W) tg tm opt)
      (run_single_round N (gp_state N * W) tg tm opt gi)) uses sw in
  fst (fst logged) = fst (fst plain) /\ snd logged = snd plain.
Proof. exact calls_program. Qed.
Print Assumptions C135_program.
(** what is logged without the flag *)
Theorem C135_log : forall N num f4 dec W fun_text message_text time_text str_exp nexp nlog cdf pdf npi inv chol cho_solve slogdet
    get_samples lbfgsb direct cma time_ minimize after prior_mu target o uses sw,
  let run := l_calls N num f4 W fun_text message_text time_text false str_exp nexp nlog cdf pdf npi inv chol cho_solve slogdet
    get_samples lbfgsb direct cma time_ minimize after prior_mu dec target o uses sw in
  complete_or_beginning (snd (fst run)) (flat_map (call_log N num dec str_exp o) uses) (snd run).
Proof. exact calls_log. Qed.
Print Assumptions C135_log.

(** the calls of C103, one after the other on the same object: all succeed with and without the flag, and the log is complete *)
Definition ex_dec (z : Z) : string := if (z =? 1)%Z then "one" else "n".
Definition ex_calls (o : gp_obj NumR) (debug : bool) := l_calls NumR (fun _ => "x") (fun _ => "t") unit (fun _ => "f") (fun _ => "ok") (fun _ => "t") debug (Some "test")
  exp ln exp exp PI some_inv some_chol some_cho_solve some_slogdet (ex_samples ex_range) ex_from ex_direct ex_from ex_time (fun _ => ex_min) ex_after None ex_dec ex_target o ex_fuses (mkgps NumR [] true, tt).
Example C135_example : forall cov opt_bo, In cov ["eq"; "se"; "matern32"; "matern52"] -> In opt_bo ["L-BFGS-B"; "DIRECT"; "CMA-ES"] ->
  exists o rs, gp_init NumR true true ex_range cov "ei" true true "BFGS" opt_bo "ml" = Ok o /\ List.length rs = 3%nat /\
    snd (ex_calls o true) = Ok rs /\ snd (ex_calls o false) = Ok rs /\
    snd (fst (ex_calls o false)) = flat_map (call_log NumR (fun _ => "x") ex_dec (Some "test") o) ex_fuses.
Proof.
  intros cov opt_bo HC HO. destruct (C103_example cov opt_bo HC HO) as (o & sw & t & r1 & r2 & r3 & EO & E & _).
  exists o, [r1; r2; r3]. split; [exact EO|split; [reflexivity|]].
  destruct (C135_program NumR (fun _ => "x") (fun _ => "t") ex_dec unit (fun _ => "f") (fun _ => "ok") (fun _ => "t") (Some "test")
    exp ln exp exp PI some_inv some_chol some_cho_solve some_slogdet (ex_samples ex_range) ex_from ex_direct ex_from ex_time (fun _ => ex_min) ex_after None ex_target o ex_fuses (mkgps NumR [] true, tt)) as [_ F].
  destruct (C135_exact (fun _ => "x") (fun _ => "t") ex_dec unit (fun _ => "f") (fun _ => "ok") (fun _ => "t") (Some "test")
    exp ln exp exp PI some_inv some_chol some_cho_solve some_slogdet (ex_samples ex_range) ex_from ex_direct ex_from ex_time (fun _ => ex_min) ex_after None ex_target o ex_fuses (mkgps NumR [] true, tt)) as (_ & _ & G).
  generalize (C135_log NumR (fun _ => "x") (fun _ => "t") ex_dec unit (fun _ => "f") (fun _ => "ok") (fun _ => "t") (Some "test")
    exp ln exp exp PI some_inv some_chol some_cho_solve some_slogdet (ex_samples ex_range) ex_from ex_direct ex_from ex_time (fun _ => ex_min) ex_after None ex_target o ex_fuses (mkgps NumR [] true, tt)).
  apply (f_equal snd) in E. cbn [snd] in E. apply (fun h => eq_trans h E) in F. cbv zeta in F. clear E. cbv zeta. unfold ex_calls. rewrite G, F. cbn [complete_or_beginning]. intros L. now repeat split.
Qed.
(** the texts *)
Definition ex_object : gp_obj NumR := mkgpo NumR ex_range "matern52" "ei" true true "BFGS" "DIRECT" "ml".
Example C135_text : map (fun u => map m_text (skipn 6 (call_log NumR (fun _ => "x") ex_dec (Some "test") ex_object u))) ex_fuses =
  [["num_init: n"; "num_iter: n"; "str_initial_method_bo: halton"; "str_sampling_method_ao: sobol"; "num_samples_ao: n"; "str_mlm_method: converged"; "seed: one";
    "Iteration one"; "num_samples is ignored."; "Iteration n"; "num_samples is ignored."; "Iteration n"; "num_samples is ignored."]; []; []] /\
  map m_text (flat_map (call_log NumR (fun _ => "x") ex_dec (Some "test") ex_object) (skipn 1 ex_fuses)) =
  ["Iteration one"; "num_samples is ignored."; "Iteration n"; "num_samples is ignored."; "Iteration one"; "num_samples is ignored."].
Proof. split; vm_compute; reflexivity. Qed.
