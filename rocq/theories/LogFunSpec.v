(** Specification for the log of the function wrapper. *)
From Verif Require Import Base Num BOModel LogRunModel LogRunSpec LoggerModel FunSpec.
From Coq Require Import List ZArith Bool Ascii String.
Import ListNotations.
Local Open Scope string_scope.

Definition round_header (N : Num) (num : N -> string) (dec : Z -> string)
    (range : list (N * N)) (cov acq opt_gp opt_bo msel init samp : string) (nsamp : Z) (mlm : string) (num_init num_iter : Z) (seed : option Z) : list string :=
  ["range_X:" ++ nl ++ get_str_array_2d (fun _ => true) num num (map (fun b => [fst b; snd b]) range);
   "str_cov: " ++ cov; "str_acq: " ++ acq; "str_optimizer_method_gp: " ++ opt_gp; "str_optimizer_method_bo: " ++ opt_bo;
   "str_modelselection_method: " ++ msel; "num_init: " ++ dec num_init; "num_iter: " ++ dec num_iter; "str_initial_method_bo: " ++ init;
   "str_sampling_method_ao: " ++ samp; "num_samples_ao: " ++ dec nsamp; "str_mlm_method: " ++ mlm;
   "seed: " ++ match seed with Some z => dec z | None => "None" end].
(** what run_single_round logs without the flag *)
Definition round_log (N : Num) (num : N -> string) (dec : Z -> string) (str_exp : option string)
    (range : list (N * N)) (cov acq opt_gp opt_bo msel init samp : string) (nsamp : Z) (mlm : string) (num_init num_iter : Z) (seed : option Z) : list msg :=
  let lg := logger_of "gp" str_exp in
  (map (mkmsg lg INFO) (round_header N num dec range cov acq opt_gp opt_bo msel init samp nsamp mlm num_init num_iter seed) ++
   iterations lg dec opt_bo (Z.to_nat num_iter))%list.
(** what one call of one of the three functions logs: only run_single_round prints options *)
Definition call_log (N : Num) (num : N -> string) (dec : Z -> string) (str_exp : option string) (o : gp_obj N) (u : fun_use N) : list msg :=
  match u with
  | FunAll k _ _ | FunInputs k _ => iterations (logger_of "gp" str_exp) dec (go_opt_bo N o) (Z.to_nat (kw_iter k))
  | FunRound k init n seed =>
      round_log N num dec str_exp (go_range N o) (go_cov N o) (go_acq N o) (go_opt_gp N o) (go_opt_bo N o) (go_msel N o) init (kw_samp k) (kw_num k) (kw_mlm k) n (kw_iter k) seed
  end.
