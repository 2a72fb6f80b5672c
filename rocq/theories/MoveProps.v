(** Properties C125 and C126 (and the samplers of C83): Bayesian optimisation with random forests in other units of the inputs. *)
From Verif Require Import Base Lists Num NumLaws UtilsModel UtilsSpec Monad HypsModel CovModel CovSpec Contracts GPModel GPSpec LikModel LikSpec LikProofs2 HypOptModel AcqModel TreesModel TreesSpec TreesProps
  TreesUnitsSpec SamplingModel WrapperModel WrapperSpec BOModel BOAcqModel BOAcqSpec BOFullModel BOProgram BOTotalSpec BOTotalFull BOTotalProps RelProofs MoveSpec MoveProofs MoveSamplers MoveRun MoveWitness.
From Coq Require Import List ZArith Bool String Lia Lra Arith Reals Permutation.
Import ListNotations.
Unset Asymmetric Patterns.
Set Bullet Behavior "Strict Subproofs".
Local Open Scope string_scope.
Local Open Scope R_scope.

(** C125: other units (an offset and a positive factor) for each coordinate of the search space: every sampler returns the same points, in
    the new units, for the same random numbers, and fails in the same cases *)
Theorem C125_samples (ax : axes) : sound_axes ax ->
  forall W G mkstate (unit_draw gauss_draw : G -> G * NumR) (qmc : qmc_kind -> nat -> option Z -> Z -> W -> W * res (list (list NumR))) range method num seed w,
  List.length range = List.length ax ->
  get_samples NumR mkstate unit_draw gauss_draw qmc (conv_range ax range) method num seed w =
  let (w', r) := get_samples NumR mkstate unit_draw gauss_draw qmc range method num seed w in (w', rmap (map (conv_in ax)) r).
Proof. intros HA W G mk ud gd qmc range m num seed w H. exact (samples_conv ax HA W G mk ud gd qmc range m num seed w H). Qed.
Print Assumptions C125_samples.

(** BOwTrees.optimize in the new units: the same candidates, the same forest, the same acquisition values and the same next point, in the new
    units; the same failures *)
Theorem C125_proposal (ax : axes) : sound_axes ax ->
  forall (cdf pdf lg : NumR -> NumR) W G mkstate (unit_draw gauss_draw : G -> G * NumR) qmc choice uniform trunc schedule (time_ : W -> W * NumR), qmc_rows qmc -> uniform_affine uniform ->
  forall range acq norm X Y method num seed w, List.length range = List.length ax -> (forall x, In x (mrows X) -> List.length x = List.length ax) ->
  rf_optimize_full lg cdf pdf (get_samples NumR mkstate unit_draw gauss_draw qmc (conv_range ax range)) time_ choice uniform trunc schedule
    (mkrfo NumR (conv_range ax range) acq norm) (conv_mat ax X) Y method num seed w =
  converted (conv_fitev ax) (fun p => (conv_in ax (fst p), conv_rf_info ax (snd p)))
    (rf_optimize_full lg cdf pdf (get_samples NumR mkstate unit_draw gauss_draw qmc range) time_ choice uniform trunc schedule (mkrfo NumR range acq norm) X Y method num seed w).
Proof.
  intros HA cdf pdf lg W G mk ud gd qmc choice uniform trunc schedule time_ HQ HU range acq norm X Y m num seed w H HX.
  exact (proposal_conv ax HA cdf pdf lg W G mk ud gd qmc choice uniform trunc schedule time_ HQ HU range acq norm X Y m num seed w H HX).
Qed.
Print Assumptions C125_proposal.

(** C126: whole runs.  Another origin for each coordinate: BayesianOptimization(...).optimize asks the surrogate and the target for the same
    points in the same order, in the new units, and returns the same run.  Missing: other factors, for which it fails. *)
Theorem C126_run_partial (ax : axes) : translation ax ->
  forall (nexp nlog cdf pdf : NumR -> NumR) npi inv chol cho_solve slogdet ngamma ndigamma W G mkstate (unit_draw gauss_draw : G -> G * NumR) qmc lbfgsb direct cma (time_ : W -> W * NumR) minimize aft
    (prior_mu : prior NumR) choice uniform trunc schedule (f f' : list NumR -> W -> W * res NumR) da ca (a : bo_args NumR) num_init seed w,
  qmc_rows qmc -> uniform_affine uniform -> same_target ax f f' -> a_surrogate NumR a = "rf"%string -> List.length (a_range NumR a) = List.length ax ->
  let range' := conv_range ax (a_range NumR a) in
  bo_program NumR nexp nlog cdf pdf npi inv chol cho_solve slogdet ngamma ndigamma W (get_samples NumR mkstate unit_draw gauss_draw qmc range') lbfgsb direct cma time_ minimize aft prior_mu
    choice uniform trunc schedule f' da ca (with_range range' a) num_init seed w =
  converted (conv_event ax) (conv_run ax)
    (bo_program NumR nexp nlog cdf pdf npi inv chol cho_solve slogdet ngamma ndigamma W (get_samples NumR mkstate unit_draw gauss_draw qmc (a_range NumR a)) lbfgsb direct cma time_ minimize aft prior_mu
      choice uniform trunc schedule f da ca a num_init seed w).
Proof.
  intros HT nexp nlog cdf pdf npi inv chol cho_solve slogdet ngamma ndigamma W G mk ud gd qmc lbfgsb direct cma time_ minimize aft prior_mu choice uniform trunc schedule f f' da ca a num_init seed w HQ HU HF HS HL.
  apply (program_conv ax HT nexp nlog cdf pdf npi inv chol cho_solve slogdet ngamma ndigamma W G mk ud gd qmc lbfgsb direct cma time_ minimize aft prior_mu choice uniform trunc schedule f f' HU HQ HF da ca a num_init seed w); [now rewrite HS|exact HL].
Qed.
Print Assumptions C126_run_partial.

(** C83 with the samplers of the code: they are what that theorem asks of samplers *)
Theorem C83_samplers :
  forall W G mkstate (unit_draw gauss_draw : G -> G * NumR) (qmc : qmc_kind -> nat -> option Z -> Z -> W -> W * res (list (list NumR))) range,
  (forall seed w, exists w' g, mkstate seed w = (w', Ok g)) -> (forall g, 0 <= snd (unit_draw g) <= 1) ->
  (forall k d seed num w, exists w' s, qmc k d seed num w = (w', Ok s) /\ List.length s = Z.to_nat num /\ Forall (fun r : list R => List.length r = d /\ Forall (fun u => 0 <= u <= 1) r) s) ->
  range <> [] -> sound_range range -> proper_samples range (get_samples NumR mkstate unit_draw gauss_draw qmc range).
Proof. intros W G mk ud gd qmc range HM HU HQ HN HS. exact (samplers_proper W G mk ud gd qmc HM HU HQ range HN HS). Qed.
Print Assumptions C83_samplers.

(** ** Examples *)
Definition zero_target (x : list NumR) (w : unit) : unit * res NumR := (w, Ok (0 : NumR)).
Definition low_uniform (lo hi : NumR) (w : unit) : unit * res NumR := (w, Ok lo).
Lemma low_affine : uniform_affine low_uniform.
Proof. intros a c lo hi w _. reflexivity. Qed.
Definition ex_program (s : R) :=
  bo_program NumR exp ln exp exp PI some_inv some_chol some_cho_solve some_slogdet exp exp unit (w_samples [(0, s)]) ex_from ex_direct ex_from ex_time (fun _ => ex_min) ex_after None
    ex_choice low_uniform ex_truncR ex_schedule zero_target true true (w_args s) 1 None tt.
Lemma ex_program_runs s : 0 < s -> exists w' t r, ex_program s = (w', t, Ok r).
Proof.
  intros HS. destruct (C83_accepted_options_complete exp exp some_inv some_chol some_cho_solve some_slogdet exp exp unit (w_samples [(0, s)]) ex_from ex_direct ex_from ex_time (fun _ => ex_min) ex_after
    None (fun _ => 0) ex_choice low_uniform ex_truncR ex_schedule zero_target (w_args s) true true (MRF NumR (mkrfo NumR [(0, s)] "ei" true)) 1 None tt) as (w' & t & r & E & _).
  - exact some_inv_ok.
  - exact some_chol_ok.
  - exact some_cho_solve_ok.
  - exact some_slogdet_ok.
  - intros _. exact ex_min_ok.
  - intros e. reflexivity.
  - exact ex_from_ok.
  - exact ex_direct_ok.
  - exact ex_from_ok.
  - exact ex_choice_contract.
  - exact ex_choice_total.
  - intros lo hi w. unfold low_uniform. eauto.
  - intros lo hi w w' v _. reflexivity.
  - exact ex_trunc_ok.
  - intros k. apply Permutation_refl.
  - apply w_proper; [discriminate|]. constructor; [cbn; lra|constructor].
  - intros x w _. unfold zero_target. eauto.
  - apply w_init. lra.
  - split; [discriminate|]. split; [left; reflexivity|]. intros Q. discriminate Q.
  - lia.
  - exists w', t, r. exact E.
Qed.

(** C125: a proposal among ten candidates on a grid, in Celsius and in Fahrenheit *)
Definition celsius : axes := [(9 / 5, 32)].
Definition ex_propose (range : list (R * R)) (X : mat NumR) :=
  @rf_optimize_full NumR ln exp exp unit (w_samples range) ex_time ex_choice low_uniform ex_truncR ex_schedule (mkrfo NumR range "ei" true) X [1; 2] "grid" 10 None (tt, tt).
Example C125_example : exists w' t p g, 
  ex_propose [(0, 100)] (mkmat [[50]; [20]] 1) = (w', t, Ok (p, g)) /\ in_range [(0, 100)] p /\
  ex_propose [(9 / 5 * 0 + 32, 9 / 5 * 100 + 32)] (mkmat [[9 / 5 * 50 + 32]; [9 / 5 * 20 + 32]] 1) = (w', map (conv_fitev celsius) t, Ok (conv_in celsius p, conv_rf_info celsius g)) /\
  w_samples [(9 / 5 * 0 + 32, 9 / 5 * 100 + 32)] "grid" 10 None tt = (tt, rmap (map (conv_in celsius)) (get_grids NumR [(0, 100)] 10)).
Proof.
  assert (HA : sound_axes celsius) by (constructor; [cbn; lra|constructor]).
  assert (HR : sound_range [(0, 100)]) by (constructor; [cbn; lra|constructor]).
  destruct (@rf_full_runs exp exp unit (w_samples [(0, 100)]) ex_time ex_choice low_uniform ex_truncR ex_schedule ex_choice_contract ex_choice_total) with (o := mkrfo NumR [(0, 100)] "ei" true)
    (X := mkmat [[50 : NumR]; [20 : NumR]] 1) (Y := [1; 2 : NumR]) (samp := "grid"%string) (num := 10%Z) (seed := @None Z) (sw := (tt, tt)) as (w' & t & [p g] & E & (PO & _)).
  - intros lo hi w. unfold low_uniform. eauto.
  - intros lo hi w w' v _. reflexivity.
  - exact ex_trunc_ok.
  - intros k. apply Permutation_refl.
  - split; [cbn; tauto|]. split; [discriminate|exact HR].
  - apply w_proper; [discriminate|exact HR].
  - split; [intros x [<-|[<-|[]]]; reflexivity|]. split; [reflexivity|]. split; [reflexivity|discriminate].
  - cbn; tauto.
  - lia.
  - exists w', t, p, g. split; [exact E|]. split; [exact (proj1 PO)|]. split.
    + refine (eq_trans (C125_proposal celsius HA exp exp ln unit unit w_mk w_draw w_draw w_qmc ex_choice low_uniform ex_truncR ex_schedule ex_time w_qmc_rows low_affine
        [(0, 100)] "ei" true (mkmat [[50 : NumR]; [20 : NumR]] 1) [1; 2 : NumR] "grid" 10 None (tt, tt) eq_refl _) _).
      * intros x [<-|[<-|[]]]; reflexivity.
      * change (converted (conv_fitev celsius) (fun p => (conv_in celsius (fst p), conv_rf_info celsius (snd p))) (ex_propose [(0, 100)] (mkmat [[50]; [20]] 1)) = (w', map (conv_fitev celsius) t, Ok (conv_in celsius p, conv_rf_info celsius g))).
        change (ex_propose [(0, 100)] (mkmat [[50]; [20]] 1) = (w', t, Ok (p, g))) in E. rewrite E. reflexivity.
    + exact (C125_samples celsius HA unit unit w_mk w_draw w_draw w_qmc [(0, 100)] "grid" 10 None tt eq_refl).
Qed.

(** C126: the run with the search space [0, 1] and the one with [7, 8] *)
Example C126_example : exists w' t r, ex_program 1 = (w', t, Ok r) /\
  bo_program NumR exp ln exp exp PI some_inv some_chol some_cho_solve some_slogdet exp exp unit (w_samples [(1 * 0 + 7, 1 * 1 + 7)]) ex_from ex_direct ex_from ex_time (fun _ => ex_min) ex_after None
    ex_choice low_uniform ex_truncR ex_schedule zero_target true true (with_range [(1 * 0 + 7, 1 * 1 + 7)] (w_args 1)) 1 None tt = (w', map (conv_event [(1, 7)]) t, Ok (conv_run [(1, 7)] r)) /\
  mrows (ro_X (conv_run [(1, 7)] r)) = [[1 * (/ 2 * (1 - 0) + 0) + 7]; [1 * (1 * (1 - 0) + 0) + 7]].
Proof.
  assert (HT : translation [(1, 7)]) by (constructor; [reflexivity|constructor]).
  destruct (ex_program_runs 1 Rlt_0_1) as (w' & t & r & E). exists w', t, r. split; [exact E|]. split.
  - refine (eq_trans (C126_run_partial [(1, 7)] HT exp ln exp exp PI some_inv some_chol some_cho_solve some_slogdet exp exp unit unit w_mk w_draw w_draw w_qmc ex_from ex_direct ex_from ex_time (fun _ => ex_min) ex_after None
      ex_choice low_uniform ex_truncR ex_schedule zero_target zero_target true true (w_args 1) 1 None tt w_qmc_rows low_affine (fun x w _ => eq_refl) eq_refl eq_refl) _).
    change (converted (conv_event [(1, 7)]) (conv_run [(1, 7)]) (ex_program 1) = (w', map (conv_event [(1, 7)]) t, Ok (conv_run [(1, 7)] r))). rewrite E. reflexivity.
  - pose proof (w_rows _ _ _ _ _ _ _ _ _ _ _ _ _ _ _ _ _ _ _ _ _ _ _ 1 w' t r Rlt_0_1 E) as H. rewrite Raux.Rlt_bool_false in H by lra. cbn [conv_run ro_X conv_mat mrows]. rewrite H. reflexivity.
Qed.

(** C126 fails for other factors: with the search space [0, 1] the second evaluation is at the proposed point 1; with the same search space in units of which it has
    10^-9 (say, metres for nanometres) every point counts as already evaluated, and the first point is evaluated again *)
Theorem C126_units_refuted : exists (s : R) w1 t1 r1 w2 t2 r2, 0 < s /\
  same_target [(s, 0)] zero_target zero_target /\
  ex_program 1 = (w1, t1, Ok r1) /\ ex_program s = (w2, t2, Ok r2) /\ w_args s = with_range [(0, s)] (w_args 1) /\ [(0, s)] = conv_range [(s, 0)] [(0, 1)] /\
  mrows (ro_X r1) = [[/ 2]; [1]] /\ mrows (ro_X r2) = [[s / 2]; [s / 2]] /\ ro_X r2 <> conv_mat [(s, 0)] (ro_X r1).
Proof.
  set (s := / 1000000000). assert (HS : 0 < s) by (unfold s; lra).
  destruct (ex_program_runs 1 Rlt_0_1) as (w1 & t1 & r1 & E1). destruct (ex_program_runs s HS) as (w2 & t2 & r2 & E2).
  exists s, w1, t1, r1, w2, t2, r2. split; [exact HS|]. split; [intros x w _; reflexivity|]. split; [exact E1|]. split; [exact E2|]. split; [reflexivity|].
  split; [unfold conv_range, on_axis; cbn [fst snd]; do 2 f_equal; ring|].
  pose proof (w_rows _ _ _ _ _ _ _ _ _ _ _ _ _ _ _ _ _ _ _ _ _ _ _ 1 w1 t1 r1 Rlt_0_1 E1) as H1. pose proof (w_rows _ _ _ _ _ _ _ _ _ _ _ _ _ _ _ _ _ _ _ _ _ _ _ s w2 t2 r2 HS E2) as H2.
  rewrite Raux.Rlt_bool_false in H1 by lra. rewrite Raux.Rlt_bool_true in H2 by (unfold s; lra).
  assert (F1 : mrows (ro_X r1) = [[/ 2]; [1]]). { eapply eq_trans; [exact H1|]. assert (Q1 : / 2 * (1 - 0) + 0 = / 2) by ring. assert (Q2 : 1 * (1 - 0) + 0 = 1) by ring. rewrite Q1, Q2. reflexivity. }
  assert (F2 : mrows (ro_X r2) = [[s / 2]; [s / 2]]). { eapply eq_trans; [exact H2|]. assert (Q1 : / 2 * (s - 0) + 0 = s / 2) by field. rewrite Q1. reflexivity. }
  split; [exact F1|]. split; [exact F2|]. intros Q. apply (f_equal (@mrows _)) in Q. rewrite F2 in Q. cbn [conv_mat mrows] in Q. rewrite F1 in Q. unfold on_axis in Q. cbn in Q. injection Q as _ Q. unfold on_axis in Q. cbn in Q. lra.
Qed.
Print Assumptions C126_units_refuted.
