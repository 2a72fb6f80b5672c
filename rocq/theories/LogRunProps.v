(** Property C133: the flag for debug messages influences nothing but the log, and what a run logs. *)
From Verif Require Import Base Lists Num NumLaws NumFin Monad UtilsModel UtilsSpec HypsModel CovModel CovSpec Contracts GPModel GPSpec LikModel LikSpec LikProofs2 HypOptModel
  AcqModel TreesModel TreesSpec TreesProps WrapperModel WrapperSpec BOModel BOAcqModel BOAcqSpec BOFullModel BOProgram BOTotalSpec BOTotalProps TimeSpec TimeProofs TimeProps
  LoggerModel LogRunModel LogRunSpec LogRunProofs LogRunMain.
From Coq Require Import List ZArith Bool String Reals Lra Lia.
From Flocq Require Import Core.
Import ListNotations.
Unset Asymmetric Patterns.
Set Bullet Behavior "Strict Subproofs".
Local Open Scope string_scope.

(** ** C133: with and without the flag, any numbers: the same effects on the world, the same records above DEBUG, the same outcome; only a
    run that fails because no candidate has a comparable acquisition value fails with another exception *)
Theorem C133_flag : forall N num f4 dec W fun_text message_text time_text str_exp nexp nlog cdf pdf npi inv chol cho_solve slogdet gamma digamma
    get_samples lbfgsb direct cma time_ minimize after prior_mu choice uniform trunc schedule target da ca a num_init seed w,
  let run debug := l_program N num f4 dec W fun_text message_text time_text debug str_exp nexp nlog cdf pdf npi inv chol cho_solve slogdet gamma digamma
    get_samples lbfgsb direct cma time_ minimize after prior_mu choice uniform trunc schedule target da ca a num_init seed w in
  fst (fst (run true)) = fst (fst (run false)) /\
  visible (snd (fst (run true))) = visible (snd (fst (run false))) /\
  same_or_assertion (snd (run true)) (snd (run false)).
Proof. exact flag_same. Qed.
Print Assumptions C133_flag.
(** over the real numbers the outcome is the same *)
Theorem C133_exact : forall num f4 dec W fun_text message_text time_text str_exp nexp nlog cdf pdf npi inv chol cho_solve slogdet gamma digamma
    get_samples lbfgsb direct cma time_ minimize after prior_mu choice uniform trunc schedule target da ca a num_init seed w,
  let run debug := l_program NumR num f4 dec W fun_text message_text time_text debug str_exp nexp nlog cdf pdf npi inv chol cho_solve slogdet gamma digamma
    get_samples lbfgsb direct cma time_ minimize after prior_mu choice uniform trunc schedule target da ca a num_init seed w in
  fst (fst (run true)) = fst (fst (run false)) /\
  visible (snd (fst (run true))) = visible (snd (fst (run false))) /\
  snd (run true) = snd (run false).
Proof. exact flag_exact. Qed.
Print Assumptions C133_exact.
(** the messages do not influence the run: the program of all other theorems *)
Theorem C133_program : forall N num f4 dec W fun_text message_text time_text str_exp nexp nlog cdf pdf npi inv chol cho_solve slogdet gamma digamma
    get_samples lbfgsb direct cma time_ minimize after prior_mu choice uniform trunc schedule target da ca a num_init seed w,
  let logged := l_program N num f4 dec W fun_text message_text time_text false str_exp nexp nlog cdf pdf npi inv chol cho_solve slogdet gamma digamma
    get_samples lbfgsb direct cma time_ minimize after prior_mu choice uniform trunc schedule target da ca a num_init seed w in
  let plain := bo_program N nexp nlog cdf pdf npi inv chol cho_solve slogdet gamma digamma W
    get_samples lbfgsb direct cma time_ minimize after prior_mu choice uniform trunc schedule target da ca a num_init seed w in
  fst (fst logged) = fst (fst plain) /\ snd logged = snd plain.
Proof. exact logged_plain. Qed.
Print Assumptions C133_program.
(** what is logged without the flag *)
Theorem C133_log : forall N num f4 dec W fun_text message_text time_text str_exp nexp nlog cdf pdf npi inv chol cho_solve slogdet gamma digamma
    get_samples lbfgsb direct cma time_ minimize after prior_mu choice uniform trunc schedule target da ca a num_init seed w,
  let run := l_program N num f4 dec W fun_text message_text time_text false str_exp nexp nlog cdf pdf npi inv chol cho_solve slogdet gamma digamma
    get_samples lbfgsb direct cma time_ minimize after prior_mu choice uniform trunc schedule target da ca a num_init seed w in
  complete_or_beginning (snd (fst run)) (run_log N num dec str_exp da ca a num_init seed) (snd run).
Proof. exact run_logs. Qed.
Print Assumptions C133_log.

(** a run of the Student-t process with DIRECT, without the flag; the texts of numbers are left out *)
Definition ex_dec (z : Z) : string := if (z =? 1)%Z then "one" else "n".
Definition ex_run (debug : bool) := l_program NumR (fun _ => "x") (fun _ => "t") ex_dec R (fun _ => "f") (fun _ => "ok") (fun _ => "t") debug (Some "test")
  exp ln exp exp PI some_inv some_chol some_cho_solve some_slogdet exp exp
  (fun m n s => slow (ex_samples ex_range m n s)) (fun f x b => slow (ex_from f x b)) (fun f b => slow (ex_direct f b))
  (fun f x b => slow (ex_from f x b)) wall (fun _ => ex_min) (fun X Y m w => (w + 2)%R) None (fun n k b => slow (ex_choice n k b)) (fun a b => slow (ex_unif a b)) ex_truncR ex_schedule (fun x => slow (ex_target x))
  true true (ex_args "tp" "matern52" "DIRECT" "combined") 3 None 100%R.
Example C133_example : exists r, snd (ex_run true) = Ok r /\ snd (ex_run false) = Ok r /\
  snd (fst (ex_run false)) = run_log NumR (fun _ => "x") ex_dec (Some "test") true true (ex_args "tp" "matern52" "DIRECT" "combined") 3 None.
Proof.
  destruct (C131_example "tp" "DIRECT") as (w' & t & r & E & _); [cbn; tauto|]. exists r.
  destruct (C133_program NumR (fun _ => "x") (fun _ => "t") ex_dec R (fun _ => "f") (fun _ => "ok") (fun _ => "t") (Some "test") exp ln exp exp PI some_inv some_chol some_cho_solve some_slogdet exp exp
    (fun m n s => slow (ex_samples ex_range m n s)) (fun f x b => slow (ex_from f x b)) (fun f b => slow (ex_direct f b))
    (fun f x b => slow (ex_from f x b)) wall (fun _ => ex_min) (fun X Y m w => (w + 2)%R) None (fun n k b => slow (ex_choice n k b)) (fun a b => slow (ex_unif a b)) ex_truncR ex_schedule (fun x => slow (ex_target x))
    true true (ex_args "tp" "matern52" "DIRECT" "combined") 3%Z None 100%R) as [_ F].
  rewrite E in F. cbn [snd] in F.
  destruct (C133_exact (fun _ => "x") (fun _ => "t") ex_dec R (fun _ => "f") (fun _ => "ok") (fun _ => "t") (Some "test") exp ln exp exp PI some_inv some_chol some_cho_solve some_slogdet exp exp
    (fun m n s => slow (ex_samples ex_range m n s)) (fun f x b => slow (ex_from f x b)) (fun f b => slow (ex_direct f b))
    (fun f x b => slow (ex_from f x b)) wall (fun _ => ex_min) (fun X Y m w => (w + 2)%R) None (fun n k b => slow (ex_choice n k b)) (fun a b => slow (ex_unif a b)) ex_truncR ex_schedule (fun x => slow (ex_target x))
    true true (ex_args "tp" "matern52" "DIRECT" "combined") 3%Z None 100%R) as (_ & _ & G).
  generalize (C133_log NumR (fun _ => "x") (fun _ => "t") ex_dec R (fun _ => "f") (fun _ => "ok") (fun _ => "t") (Some "test") exp ln exp exp PI some_inv some_chol some_cho_solve some_slogdet exp exp
    (fun m n s => slow (ex_samples ex_range m n s)) (fun f x b => slow (ex_from f x b)) (fun f b => slow (ex_direct f b))
    (fun f x b => slow (ex_from f x b)) wall (fun _ => ex_min) (fun X Y m w => (w + 2)%R) None (fun n k b => slow (ex_choice n k b)) (fun a b => slow (ex_unif a b)) ex_truncR ex_schedule (fun x => slow (ex_target x))
    true true (ex_args "tp" "matern52" "DIRECT" "combined") 3%Z None 100%R).
  cbv zeta. unfold ex_run. rewrite G, F. cbn [complete_or_beginning]. intros L. now repeat split.
Qed.
Example C133_text : let l := run_log NumR (fun _ => "x") ex_dec (Some "test") true true (ex_args "tp" "matern52" "DIRECT" "combined") 3 None in
  List.length l = 25%nat /\ firstn 3 (skipn 15 l) = [mkmsg "bo_w_tp_test" INFO "debug: False"; mkmsg "bo_w_tp_test" INFO "===================="; mkmsg "bo_w_tp_test" INFO "Iteration one"] /\
  nth_error l 18 = Some (mkmsg "bo_w_tp_test" DEBUG "num_samples is ignored.") /\ nth_error l 4 = Some (mkmsg "bo_w_tp_test" INFO "str_surrogate: tp").
Proof. vm_compute. repeat split. Qed.
(** without the flag nothing of level DEBUG would be logged: false *)
Theorem C133_quiet_refuted : exists r, snd (ex_run false) = Ok r /\ exists m, In m (snd (fst (ex_run false))) /\ is_debug m = true.
Proof.
  destruct C133_example as (r & _ & E & L). exists r. split; [exact E|]. rewrite L. destruct C133_text as (_ & _ & T & _).
  exists (mkmsg "bo_w_tp_test" DEBUG "num_samples is ignored."). split; [exact (nth_error_In _ _ T)|reflexivity].
Qed.
Print Assumptions C133_quiet_refuted.

(** the flag would never change the exception: false; if no candidate is left to fall back on, building the debug message fails first *)
Definition ex_step (debug : bool) := l_class_step NumF (fun _ => "x") (fun _ => "t") ex_dec unit debug (fun w => (w, fofZ 0)) (fun _ w => (w, Ok (fofZ 0))) unit "bo_w_gp"
  (fun X Y => ret ([fofZ 1; fofZ 2], @mkinfo NumF (mkmat [[fofZ 1; fofZ 2]; [fofZ 3; fofZ 4]] 2) [fofZ 1; fnan] (fofZ 0) (fofZ 0))) 0 (mkmat [[fofZ 1; fofZ 2]] 2) [fofZ 5] (tt, tt).
Definition exception_of {A} (r : res A) : option exn := match r with Raise e => Some e | Ok _ => None end.
Theorem C133_exception_refuted : exception_of (snd (ex_step true)) = Some AssertionError /\ exception_of (snd (ex_step false)) = Some ValueError.
Proof. split; vm_compute; reflexivity. Qed.
Print Assumptions C133_exception_refuted.
