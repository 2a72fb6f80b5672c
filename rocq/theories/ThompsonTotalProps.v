(** Thompson sampling: complete runs, and the runs that cannot complete (C105). *)
From Verif Require Import Base Num UtilsModel HypsModel CovModel CovSpec GPModel LikModel LikSpec Contracts HypOptModel BOTotalSpec BOTotalSet
  ThompsonModel ThompsonSpec ThompsonRunSpec ThompsonTotal LikProofs2 BOTotalProps.
From Coq Require Import List ZArith Bool String Reals Lra Lia.
Import ListNotations.
Local Open Scope string_scope.

(** every run with at least one initial point and at least two candidates per iteration completes: num_init + num_iter points, all inside
    the search space, one response each, whatever the draws and the responses *)
Theorem C105_thompson_runs_complete (inv chol : list (list R) -> res (list (list R))) cho_solve slogdet (minimize : minimizer NumR) :
  inv_contract inv -> chol_contract chol -> cho_solve_contract cho_solve -> slogdet_contract slogdet -> proper_minimizer minimize ->
  forall (W G : Type) (mvn : list NumR -> list (list NumR) -> W -> W * res G) rvs (lae da ca : bool) get_samples get_initials
    (target : list NumR -> W -> W * res NumR) (range : list (NumR * NumR)),
  sound_range range -> proper_samples range (get_samples range) -> proper_initials range (get_initials range) -> returns_in range target -> proper_normal mvn rvs ->
  forall num_init num_iter norm method num w,
  In method ["sobol"; "halton"; "uniform"; "gaussian"] -> (0 < num_init)%Z -> (2 <= num)%Z ->
  exists w' t X Y, thompson_sampling_gp mvn rvs lae exp ln PI inv chol cho_solve slogdet minimize da ca get_samples get_initials target range num_init num_iter norm method num w
      = (w', t, Ok (X, Y)) /\
    complete_run range (Z.to_nat num_init + Z.to_nat num_iter) X Y.
Proof. intros; eapply run_completes; eassumption. Qed.
Print Assumptions C105_thompson_runs_complete.

(** one candidate per iteration is accepted as an argument, yet no such run completes: IndexError after all initial evaluations *)
Theorem C105_single_candidate_fails (inv chol : list (list R) -> res (list (list R))) cho_solve slogdet (minimize : minimizer NumR) :
  inv_contract inv -> chol_contract chol -> cho_solve_contract cho_solve -> slogdet_contract slogdet -> proper_minimizer minimize ->
  forall (W G : Type) (mvn : list NumR -> list (list NumR) -> W -> W * res G) rvs (lae da ca : bool) get_samples get_initials
    (target : list NumR -> W -> W * res NumR) (range : list (NumR * NumR)),
  sound_range range -> proper_samples range (get_samples range) -> proper_initials range (get_initials range) -> returns_in range target -> proper_normal mvn rvs ->
  forall num_init num_iter norm method w,
  In method ["sobol"; "halton"; "uniform"; "gaussian"] -> (0 < num_init)%Z -> (0 < num_iter)%Z ->
  exists w' t, thompson_sampling_gp mvn rvs lae exp ln PI inv chol cho_solve slogdet minimize da ca get_samples get_initials target range num_init num_iter norm method 1 w
      = (w', t, Raise IndexError) /\ List.length (ts_calls t) = Z.to_nat num_init.
Proof. intros; eapply run_one_candidate; eassumption. Qed.
Print Assumptions C105_single_candidate_fails.

(** get_initials delegates to get_samples: the samplers are such a source of initial points *)
Lemma initials_proper W r (gs : string -> Z -> option Z -> W -> W * res (list (list NumR))) : proper_samples r gs -> proper_initials r gs.
Proof.
  intros H m num seed w Hm Hn. assert (NG : m <> "grid") by (intros ->; cbn in Hm; intuition discriminate).
  destruct (H m num seed w (or_intror Hm) Hn) as (w' & l & E & _ & F & L). exists w', l. split; [exact E|split; [exact F|exact (L NG)]].
Qed.

(** a concrete case: two dimensions, the identity of a distribution being its dimension *)
Definition ex_mvn (mu : list NumR) (S : list (list NumR)) (w : unit) : unit * res nat := (w, Ok (List.length mu)).
Definition ex_rvs (g : nat) (w : unit) : unit * res (list NumR) := (w, Ok (map (fun i => INR (g - i)) (seq 0 g))).
Lemma ex_normal : proper_normal ex_mvn ex_rvs.
Proof. intros mu S w _ _ _. eexists _, _. split; [reflexivity|]. intros w2. eexists _, _. split; [reflexivity|]. now rewrite map_length, seq_length. Qed.
Example C105_example : forall norm, exists w' t X Y,
  thompson_sampling_gp ex_mvn ex_rvs true exp ln PI some_inv some_chol some_cho_solve some_slogdet ex_min true true ex_samples ex_samples
    ex_target ex_range 3 4 norm "sobol" 5 tt = (w', t, Ok (X, Y)) /\ complete_run ex_range 7 X Y.
Proof.
  intros norm. apply (C105_thompson_runs_complete some_inv some_chol some_cho_solve some_slogdet ex_min some_inv_ok some_chol_ok some_cho_solve_ok some_slogdet_ok ex_min_ok
    unit nat ex_mvn ex_rvs true true true ex_samples ex_samples ex_target ex_range ex_range_sound
    (ex_samples_ok _ ex_range_sound) (initials_proper _ _ _ (ex_samples_ok _ ex_range_sound)) (ex_target_ok _) ex_normal 3 4 norm "sobol" 5); [cbn; tauto|lia|lia].
Qed.
Example C105_fails_example : forall norm, exists w' t,
  thompson_sampling_gp ex_mvn ex_rvs true exp ln PI some_inv some_chol some_cho_solve some_slogdet ex_min true true ex_samples ex_samples
    ex_target ex_range 3 4 norm "sobol" 1 tt = (w', t, Raise IndexError) /\ List.length (ts_calls t) = 3%nat.
Proof.
  intros norm. apply (C105_single_candidate_fails some_inv some_chol some_cho_solve some_slogdet ex_min some_inv_ok some_chol_ok some_cho_solve_ok some_slogdet_ok ex_min_ok
    unit nat ex_mvn ex_rvs true true true ex_samples ex_samples ex_target ex_range ex_range_sound
    (ex_samples_ok _ ex_range_sound) (initials_proper _ _ _ (ex_samples_ok _ ex_range_sound)) (ex_target_ok _) ex_normal 3 4 norm "sobol"); [cbn; tauto|lia|lia].
Qed.
