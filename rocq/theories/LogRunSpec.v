(** What the log of a run should be, written without the functions of the model. *)
From Verif Require Import Base Num BOModel LogRunModel LoggerModel.
From Coq Require Import List ZArith Bool String.
Import ListNotations.
Local Open Scope string_scope.

Definition is_debug (m : msg) : bool := match m_level m with DEBUG => true | _ => false end.
(** the only line of the header that shows the flag *)
Definition hide_flag (m : msg) : msg := if m_text m =? "debug: True" then mkmsg (m_logger m) (m_level m) "debug: False" else m.
(** the records above the level DEBUG, up to that line *)
Definition visible (l : list msg) : list msg := map hide_flag (filter (fun m => negb (is_debug m)) l).

(** the same outcome, or an assertion that fails where otherwise a later step would have failed *)
Definition same_or_assertion {A} (r1 r2 : res A) : Prop :=
  r1 = r2 \/ r1 = Raise AssertionError /\ (r2 = Raise ValueError \/ r2 = Raise OutsideModel).

(** 'A is selected, but ...' *)
Definition warnings (da ca : bool) (m : string) (dim : Z) : list msg :=
  if (m =? "DIRECT") && negb da then [mkmsg "utils_bo" WARNING "DIRECT is selected, but it is not installed."]
  else if (m =? "CMA-ES") && negb ca then [mkmsg "utils_bo" WARNING "CMA-ES is selected, but it is not installed."]
  else if (m =? "CMA-ES") && (dim =? 1)%Z then [mkmsg "utils_bo" WARNING "CMA-ES is selected, but a dimension of bounds is 1."]
  else [].
(** the optimiser that is used *)
Definition used (da ca : bool) (m : string) (dim : Z) : string := match warnings da ca m dim with [] => m | _ => "L-BFGS-B" end.

Section Header.
Context (range num_init num_iter surrogate cov acq normalize ard init samp opt_gp opt_tp opt_bo mlm msel num_samples seed debug : string).
Definition header_gp : list string :=
  ["===================="; "range_X:" ++ nl ++ range; "num_init: " ++ num_init; "num_iter: " ++ num_iter; "str_surrogate: gp";
   "str_cov: " ++ cov; "str_acq: " ++ acq; "normalize_Y: " ++ normalize; "use_ard: " ++ ard; "str_initial_method_bo: " ++ init;
   "str_sampling_method_ao: " ++ samp; "str_optimizer_method_gp: " ++ opt_gp; "str_optimizer_method_bo: " ++ opt_bo;
   "str_mlm_method: " ++ mlm; "str_modelselection_method: " ++ msel; "num_samples_ao: " ++ num_samples; "seed: " ++ seed;
   "debug: " ++ debug; "===================="].
Definition header_tp : list string :=
  ["===================="; "range_X:" ++ nl ++ range; "num_init: " ++ num_init; "num_iter: " ++ num_iter; "str_surrogate: tp";
   "str_cov: " ++ cov; "str_acq: " ++ acq; "normalize_Y: " ++ normalize; "use_ard: " ++ ard; "str_initial_method_bo: " ++ init;
   "str_sampling_method_ao: " ++ samp; "str_optimizer_method_tp: " ++ opt_tp; "str_optimizer_method_bo: " ++ opt_bo;
   "num_samples_ao: " ++ num_samples; "seed: " ++ seed; "debug: " ++ debug; "===================="].
Definition header_rf : list string :=
  ["===================="; "range_X:" ++ nl ++ range; "num_init: " ++ num_init; "num_iter: " ++ num_iter; "str_surrogate: rf";
   "str_acq: " ++ acq; "normalize_Y: " ++ normalize; "str_initial_method_bo: " ++ init; "str_sampling_method_ao: " ++ samp;
   "str_optimizer_method_bo: " ++ opt_bo; "num_samples_ao: " ++ num_samples; "seed: " ++ seed; "debug: " ++ debug;
   "===================="].
Definition header : list string :=
  if surrogate =? "gp" then header_gp else if surrogate =? "tp" then header_tp else header_rf.
End Header.

(** one line per iteration; with DIRECT or CMA-ES one more, at the level DEBUG *)
Definition iterations (lg : string) (dec : Z -> string) (opt_bo : string) (n : nat) : list msg :=
  flat_map (fun i => mkmsg lg INFO ("Iteration " ++ dec (Z.of_nat i)) ::
    (if (opt_bo =? "DIRECT") || (opt_bo =? "CMA-ES") then [mkmsg lg DEBUG "num_samples is ignored."] else [])) (seq 1 n).
Definition logger_of (surrogate : string) (str_exp : option string) : string :=
  "bo_w_" ++ surrogate ++ match str_exp with Some e => "_" ++ e | None => "" end.
(** [l] is the complete log, or a beginning of it if the run was interrupted by an exception *)
Definition complete_or_beginning {A} (l expected : list msg) (r : res A) : Prop :=
  match r with Ok _ => l = expected | Raise _ => exists rest, expected = (l ++ rest)%list end.

(** what a run without the flag logs *)
Section Log.
Context (N : Num) (num : N -> string) (dec : Z -> string).
Definition head_lines (d : bool) (a : bo_args N) (ob : string) (num_init : Z) (seed : option Z) : list string :=
  header (get_str_array_2d (fun _ => true) num num (map (fun b => [fst b; snd b]) (a_range N a))) (dec num_init) (dec (a_num_iter N a))
    (a_surrogate N a) (a_cov N a) (a_acq N a) (if a_norm N a then "True" else "False") (if a_ard N a then "True" else "False") (a_init N a)
    (a_samp N a) (a_opt_gp N a) (a_opt_tp N a) ob (a_mlm N a) (a_msel N a) (dec (a_num_samples N a))
    (match seed with Some z => dec z | None => "None" end) (if d then "True" else "False").
Definition run_log (str_exp : option string) (da ca : bool) (a : bo_args N) (num_init : Z) (seed : option Z) : list msg :=
  let dim := Z.of_nat (List.length (a_range N a)) in
  let lg := logger_of (a_surrogate N a) str_exp in
  let ob := used da ca (a_opt_bo N a) dim in
  (warnings da ca (a_opt_bo N a) dim ++ map (mkmsg lg INFO) (head_lines false a ob num_init seed) ++
   iterations lg dec ob (Z.to_nat (a_num_iter N a)))%list.
End Log.
