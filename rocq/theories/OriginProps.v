(** Property C127: Bayesian optimisation with any surrogate does not depend on the origin of the inputs. *)
From Verif Require Import Base Lists Num NumLaws UtilsModel UtilsSpec Monad HypsModel CovModel CovSpec Contracts GPModel GPSpec LikModel LikSpec LikProofs2 HypOptModel AcqModel TreesModel TreesSpec TreesProps
  TreesUnitsSpec SamplingModel WrapperModel WrapperSpec BOModel BOAcqModel BOAcqSpec BOFullModel BOProgram BOTotalSpec BOTotalFull BOTotalProps RelProofs MoveSpec MoveProofs MoveSamplers MoveRun MoveWitness MoveProps
  OriginSpec OriginCov OriginRun.
From Coq Require Import List ZArith Bool String Lia Lra Arith Reals Permutation.
Import ListNotations.
Unset Asymmetric Patterns.
Set Bullet Behavior "Strict Subproofs".
Local Open Scope string_scope.
Local Open Scope R_scope.

(** the settings of an object with another search space *)
Definition gp_with_range (r : list (R * R)) (o : gp_obj NumR) : gp_obj NumR := mkgpo NumR r (go_cov NumR o) (go_acq NumR o) (go_norm NumR o) (go_ard NumR o) (go_opt_gp NumR o) (go_opt_bo NumR o) (go_msel NumR o).
Definition tp_with_range (r : list (R * R)) (o : tp_obj NumR) : tp_obj NumR := mktpo NumR r (to_cov NumR o) (to_acq NumR o) (to_norm NumR o) (to_ard NumR o) (to_opt_tp NumR o) (to_opt_bo NumR o).

(** C127: BOwGP.optimize with another origin for each coordinate: the same fits, covariance matrices, hyperparameters and acquisition values; the
    same candidates and the same next point relative to the new origin; the same stored state; the same failures.  Every mode, kernel, model
    selection and acquisition function; nothing is assumed about the linear algebra *)
Theorem C127_gp_proposal (ax : axes) : translation ax ->
  forall (nexp nlog cdf pdf : NumR -> NumR) npi inv chol cho_solve slogdet W G mkstate (unit_draw gauss_draw : G -> G * NumR) qmc lbfgsb direct cma (time_ : W -> W * NumR) minimize aft (prior prior' : prior NumR),
  qmc_rows qmc -> moves_along ax lbfgsb -> moves_with ax direct -> moves_along ax cma -> same_prior ax prior prior' -> same_after ax aft ->
  forall (o : gp_obj NumR) X Y samp num mlm seed (s : gp_state NumR * W),
  List.length (go_range NumR o) = List.length ax -> (forall x, In x (mrows X) -> List.length x = List.length ax) ->
  let range' := conv_range ax (go_range NumR o) in
  gp_optimize_full nexp nlog cdf pdf npi inv chol cho_solve slogdet (get_samples NumR mkstate unit_draw gauss_draw qmc range') lbfgsb direct cma time_ minimize aft prior'
    (gp_with_range range' o) (conv_mat ax X) Y samp num mlm seed s =
  converted (conv_fitev ax) (fun p => (conv_in ax (fst p), conv_gp_info ax (snd p)))
    (gp_optimize_full nexp nlog cdf pdf npi inv chol cho_solve slogdet (get_samples NumR mkstate unit_draw gauss_draw qmc (go_range NumR o)) lbfgsb direct cma time_ minimize aft prior o X Y samp num mlm seed s).
Proof. intros HT nexp nlog cdf pdf npi inv chol cho_solve slogdet W G mk ud gd qmc lb di cm ti mi aft p p' HQ HL HD HC HP HA o X Y samp num mlm seed s H HX. now apply gp_moved. Qed.
Print Assumptions C127_gp_proposal.

(** BOwTP.optimize *)
Theorem C127_tp_proposal (ax : axes) : translation ax ->
  forall (nexp nlog cdf pdf : NumR -> NumR) npi inv slogdet ngamma ndigamma W G mkstate (unit_draw gauss_draw : G -> G * NumR) qmc lbfgsb direct cma (time_ : W -> W * NumR) minimize aft (prior prior' : prior NumR),
  qmc_rows qmc -> moves_along ax lbfgsb -> moves_with ax direct -> moves_along ax cma -> same_prior ax prior prior' -> same_after ax aft ->
  forall (o : tp_obj NumR) X Y samp num seed (s : list (dict NumR) * W),
  List.length (to_range NumR o) = List.length ax -> (forall x, In x (mrows X) -> List.length x = List.length ax) ->
  let range' := conv_range ax (to_range NumR o) in
  tp_optimize_full nexp nlog cdf pdf npi inv slogdet ngamma ndigamma (get_samples NumR mkstate unit_draw gauss_draw qmc range') lbfgsb direct cma time_ minimize aft prior'
    (tp_with_range range' o) (conv_mat ax X) Y samp num seed s =
  converted (conv_fitev ax) (fun p => (conv_in ax (fst p), conv_gp_info ax (snd p)))
    (tp_optimize_full nexp nlog cdf pdf npi inv slogdet ngamma ndigamma (get_samples NumR mkstate unit_draw gauss_draw qmc (to_range NumR o)) lbfgsb direct cma time_ minimize aft prior o X Y samp num seed s).
Proof. intros HT nexp nlog cdf pdf npi inv slogdet ga dg W G mk ud gd qmc lb di cm ti mi aft p p' HQ HL HD HC HP HA o X Y samp num seed s H HX. now apply tp_moved. Qed.
Print Assumptions C127_tp_proposal.

(** BayesianOptimization(...).optimize with any surrogate and any options *)
Theorem C127_run (ax : axes) : translation ax ->
  forall (nexp nlog cdf pdf : NumR -> NumR) npi inv chol cho_solve slogdet ngamma ndigamma W G mkstate (unit_draw gauss_draw : G -> G * NumR) qmc lbfgsb direct cma (time_ : W -> W * NumR) minimize aft
    (prior prior' : prior NumR) choice uniform trunc schedule (f f' : list NumR -> W -> W * res NumR) da ca (a : bo_args NumR) num_init seed w,
  qmc_rows qmc -> uniform_affine uniform -> same_target ax f f' -> moves_along ax lbfgsb -> moves_with ax direct -> moves_along ax cma -> same_prior ax prior prior' -> same_after ax aft ->
  List.length (a_range NumR a) = List.length ax ->
  let range' := conv_range ax (a_range NumR a) in
  bo_program NumR nexp nlog cdf pdf npi inv chol cho_solve slogdet ngamma ndigamma W (get_samples NumR mkstate unit_draw gauss_draw qmc range') lbfgsb direct cma time_ minimize aft prior'
    choice uniform trunc schedule f' da ca (with_range range' a) num_init seed w =
  converted (conv_event ax) (conv_run ax)
    (bo_program NumR nexp nlog cdf pdf npi inv chol cho_solve slogdet ngamma ndigamma W (get_samples NumR mkstate unit_draw gauss_draw qmc (a_range NumR a)) lbfgsb direct cma time_ minimize aft prior
      choice uniform trunc schedule f da ca a num_init seed w).
Proof.
  intros HT nexp nlog cdf pdf npi inv chol cho_solve slogdet ga dg W G mk ud gd qmc lb di cm ti mi aft p p' choice uniform trunc schedule f f' da ca a num_init seed w HQ HU HF HL HD HC HP HA H.
  exact (program_moved ax HT nexp nlog cdf pdf npi inv chol cho_solve slogdet ga dg W G mk ud gd qmc lb di cm ti mi aft p p' choice uniform trunc schedule f f' HU HQ HF HL HD HC HP HA da ca a num_init seed w H).
Qed.
Print Assumptions C127_run.

(** ** Example: the search space [0, 1] x [-2, 3] and the same seen from (-5, 7), for all surrogates, kernels on points, modes and optimisers *)
Definition seen_from : axes := [(1, 5); (1, -7)].
Definition seen_target (x : list NumR) (w : unit) : unit * res NumR := ex_target [nth 0 x 0 - 5; nth 1 x 0 - - 7] w.
Lemma corner_conv (ax : axes) : forall r, List.length r = List.length ax -> corner (conv_range ax r) = conv_in ax (corner r).
Proof. induction ax as [|ac ax IH]; intros [|b r] H; try discriminate; [reflexivity|]. injection H as H. cbn. f_equal. exact (IH r H). Qed.
Lemma corner_len (r : list (R * R)) : List.length (corner r) = List.length r.
Proof. apply map_length. Qed.
Lemma ex_from_moves ax : moves_along ax ex_from.
Proof. intros f f' x0 b w _ _ H. unfold ex_from. split; [now rewrite corner_conv|]. intros w' x Q. injection Q as _ <-. rewrite <- H. apply corner_len. Qed.
Lemma ex_direct_moves ax : moves_with ax ex_direct.
Proof. intros f f' b w _ H. unfold ex_direct. split; [now rewrite corner_conv|]. intros w' x Q. injection Q as _ <-. rewrite <- H. apply corner_len. Qed.
Lemma seen_same : same_target seen_from ex_target seen_target.
Proof.
  intros [|u [|v [|? ?]]] w L; try discriminate. unfold seen_target, seen_from. cbn [conv_in nth]. unfold on_axis. cbn [fst snd].
  assert (E1 : 1 * u + 5 - 5 = u) by ring. assert (E2 : 1 * v + -7 - - 7 = v) by ring. setoid_rewrite E1. setoid_rewrite E2. reflexivity.
Qed.
Definition seen_program (range : list (R * R)) target surrogate cov opt_bo mlm num_init :=
  bo_program NumR exp ln exp exp PI some_inv some_chol some_cho_solve some_slogdet exp exp unit (w_samples range) ex_from ex_direct ex_from ex_time (fun _ => ex_min) ex_after
    None ex_choice low_uniform ex_truncR ex_schedule target true true (with_range range (ex_args surrogate cov opt_bo mlm)) num_init None tt.
Example C127_example : forall surrogate cov opt_bo mlm num_init,
  In (surrogate, opt_bo) [("gp", "L-BFGS-B"); ("gp", "DIRECT"); ("gp", "CMA-ES"); ("tp", "L-BFGS-B"); ("tp", "DIRECT"); ("tp", "CMA-ES"); ("rf", "random_search")] ->
  In cov ["eq"; "se"; "matern32"; "matern52"] -> In mlm ["regular"; "combined"; "converged"] -> (0 < num_init)%Z ->
  exists w' t r, seen_program [(0, 1); (-2, 3)] ex_target surrogate cov opt_bo mlm num_init = (w', t, Ok r) /\
    complete_run [(0, 1); (-2, 3)] (Z.to_nat num_init + 4) (ro_X r) (ro_Y r) /\
    seen_program [(1 * 0 + 5, 1 * 1 + 5); (1 * -2 + -7, 1 * 3 + -7)] seen_target surrogate cov opt_bo mlm num_init = (w', map (conv_event seen_from) t, Ok (conv_run seen_from r)).
Proof.
  intros surrogate cov opt_bo mlm num_init HS HC HM HN.
  assert (HC' : In cov ALLOWED_COV) by (cbn in HC |- *; tauto). destruct (ex_accepted _ _ _ _ HS HC' HM) as [model EM].
  destruct (C83_accepted_options_complete exp exp some_inv some_chol some_cho_solve some_slogdet exp exp unit (w_samples ex_range) ex_from ex_direct ex_from ex_time (fun _ => ex_min) ex_after
    None (fun _ => 0%R) ex_choice low_uniform ex_truncR ex_schedule ex_target (ex_args surrogate cov opt_bo mlm) true true model num_init None tt) as (w' & t & r & E & CR).
  - exact some_inv_ok.
  - exact some_chol_ok.
  - exact some_cho_solve_ok.
  - exact some_slogdet_ok.
  - intros _. exact ex_min_ok.
  - intros e. reflexivity.
  - exact ex_from_ok.
  - exact ex_direct_ok.
  - exact ex_from_ok.
  - exact ex_choice_contract.
  - exact ex_choice_total.
  - intros lo hi w. unfold low_uniform. eauto.
  - intros lo hi w w' v _. reflexivity.
  - exact ex_trunc_ok.
  - intros k. apply Permutation_refl.
  - apply w_proper; [discriminate|exact ex_range_sound].
  - apply ex_target_ok.
  - exact EM.
  - split; [discriminate|]. split; [right; exact HC|]. intros _ Q. discriminate Q.
  - exact HN.
  - exists w', t, r. split; [exact E|]. split; [exact CR|].
    assert (HT : translation seen_from) by (repeat constructor).
    refine (eq_trans (C127_run seen_from HT exp ln exp exp PI some_inv some_chol some_cho_solve some_slogdet exp exp unit unit w_mk w_draw w_draw w_qmc ex_from ex_direct ex_from ex_time (fun _ => ex_min) ex_after
      None None ex_choice low_uniform ex_truncR ex_schedule ex_target seen_target true true (ex_args surrogate cov opt_bo mlm) num_init None tt
      w_qmc_rows low_affine seen_same (ex_from_moves _) (ex_direct_moves _) (ex_from_moves _) Logic.I (fun X Y m w _ => eq_refl) eq_refl) _).
    change (converted (conv_event seen_from) (conv_run seen_from) (seen_program ex_range ex_target surrogate cov opt_bo mlm num_init) = (w', map (conv_event seen_from) t, Ok (conv_run seen_from r))).
    change (seen_program ex_range ex_target surrogate cov opt_bo mlm num_init = (w', t, Ok r)) in E. rewrite E. reflexivity.
Qed.
