(** Properties C103 and C104: runs through the functions of wrappers_bo_function.py. *)
From Verif Require Import Base Lists Num NumLaws NumFin Monad UtilsModel UtilsSpec HypsModel CovModel CovSpec Contracts GPModel GPSpec LikModel LikSpec LikProofs2 HypOptModel
  AcqModel WrapperModel WrapperSpec BOModel BOAcqModel BOAcqSpec BOFullModel BOProgram BOTotalSpec BOTotalProofs BOTotalRun BOTotalOpt BOTotalFull BOTotalSet BOTotalProps FunSpec FunProofs.
From Coq Require Import List ZArith Bool String Reals Lra Lia Arith.
Import ListNotations.
Unset Asymmetric Patterns.
Set Bullet Behavior "Strict Subproofs".
Local Open Scope string_scope.

(** ** C103: whatever sequence of calls with sensible arguments is made on an accepted BOwGP object, each returns all its evaluations;
    set kernels (C84) and leave-one-out selection of a common lengthscale in several dimensions (C39) aside *)
Theorem C103_function_wrappers_complete :
  forall (cdf pdf : R -> R) inv chol cho_solve slogdet (W : Type) get_samples lbfgsb direct cma (time_ : W -> W * R) minimize after
    (prior_mu : prior NumR) m target range cov acq norm ard opt_gp opt_bo msel da ca (o : gp_obj NumR) w (uses : list (fun_use NumR)),
  inv_contract inv -> chol_contract chol -> cho_solve_contract cho_solve -> slogdet_contract slogdet ->
  (forall w, proper_minimizer (minimize w)) -> prior_is prior_mu m ->
  proper_from lbfgsb -> proper_direct direct -> proper_from cma ->
  proper_samples range get_samples -> returns_in range target ->
  gp_init NumR da ca range cov acq norm ard opt_gp opt_bo msel = Ok o ->
  In cov ["eq"; "se"; "matern32"; "matern52"] -> (msel = "loocv" -> ard = true \/ List.length range = 1%nat) ->
  Forall (fun_sensible range) uses ->
  let tg := fun x => onsnd W (target x) in
  let tm := onsnd W time_ in
  let gi := fun ms n s => onsnd W (BOModel.get_initials NumR W get_samples ms n s) in
  let opt := gp_single NumR exp ln cdf pdf PI inv chol cho_solve slogdet W get_samples lbfgsb direct cma time_ minimize after prior_mu o in
  exists sw t rs,
    mmapM (fun_call (fun_all_initial NumR (gp_state NumR * W) tg tm opt) (fun_initial_inputs NumR (gp_state NumR * W) tg tm opt)
      (run_single_round NumR (gp_state NumR * W) tg tm opt gi)) uses (mkgps NumR [] true, w) = (sw, t, Ok rs) /\
    Forall2 (fun u r => complete_run range (fun_total u) (ro_X r) (ro_Y r)) uses rs.
Proof.
  intros cdf pdf inv chol cho_solve slogdet W get_samples lbfgsb direct cma time_ minimize after prior_mu m target range cov acq norm ard opt_gp opt_bo msel da ca o w uses
    H1 H2 H3 H4 H5 H6 H7 H8 H9 HG HT EO BK HL HU. destruct (gp_init_valid EO BK HL) as (V & ER). rewrite <- ER in HG, HT, HU.
  assert (S0 : gp_inv (good_hyps (go_cov NumR o) (List.length (go_range NumR o)) (go_ard NumR o)) (mkgps NumR [] true)) by (split; [constructor|discriminate]).
  destruct (fun_uses_run cdf pdf time_ after HG HT H1 H2 H3 H4 H5 H6 H7 H8 H9 V w S0 HU) as (sw & t & rs & E & F & _).
  exists sw, t, rs. split; [exact E|]. rewrite <- ER. exact F.
Qed.
Print Assumptions C103_function_wrappers_complete.

(** ** C104, false part: a sampler name or number of samples that no proposal can use is noticed only after the initial evaluations *)
Theorem C104_late_rejection :
  forall (cdf pdf : R -> R) inv chol cho_solve slogdet (W : Type) get_samples lbfgsb direct cma (time_ : W -> W * R) minimize after
    (prior_mu : prior NumR) target (o : gp_obj NumR) (s : gp_state NumR) w meth samp num mlm num_init num_iter seed,
  proper_samples (go_range NumR o) get_samples -> returns_in (go_range NumR o) target ->
  ~ In samp ["grid"; "sobol"; "halton"; "uniform"; "gaussian"] \/ (num <= 0)%Z ->
  In mlm ["regular"; "combined"; "converged"] -> In meth ["sobol"; "halton"; "uniform"; "gaussian"] -> (0 < num_init)%Z -> (0 < num_iter)%Z ->
  exists sw t,
    run_single_round NumR (gp_state NumR * W) (fun x => onsnd W (target x)) (onsnd W time_)
      (gp_single NumR exp ln cdf pdf PI inv chol cho_solve slogdet W get_samples lbfgsb direct cma time_ minimize after prior_mu o)
      (fun ms n s => onsnd W (BOModel.get_initials NumR W get_samples ms n s)) meth samp num mlm num_init num_iter seed (s, w) = (sw, t, Raise AssertionError) /\
    List.length (calls_of NumR t) = Z.to_nat num_init.
Proof. intros. eapply round_fails_late; eassumption. Qed.
Print Assumptions C104_late_rejection.

(** ** C104, true part: the functions reject the names they check themselves before anything happens; the class rejects all four at construction *)
Theorem C104_early_rejection_partial :
  (forall (cdf pdf : R -> R) inv chol cho_solve slogdet (W : Type) get_samples lbfgsb direct cma (time_ : W -> W * R) minimize after
    (prior_mu : prior NumR) target (o : gp_obj NumR) (s : gp_state NumR) w meth samp num mlm num_init num_iter seed,
   ~ In mlm ["regular"; "combined"; "converged"] \/ ~ In meth ["sobol"; "halton"; "uniform"; "gaussian"] ->
    run_single_round NumR (gp_state NumR * W) (fun x => onsnd W (target x)) (onsnd W time_)
      (gp_single NumR exp ln cdf pdf PI inv chol cho_solve slogdet W get_samples lbfgsb direct cma time_ minimize after prior_mu o)
      (fun ms n s => onsnd W (BOModel.get_initials NumR W get_samples ms n s)) meth samp num mlm num_init num_iter seed (s, w) = ((s, w), [], Raise AssertionError)) /\
  (forall (N : Num) da ca (a : bo_args N),
   ~ In (a_samp N a) ["grid"; "sobol"; "halton"; "uniform"; "gaussian"] \/ (a_num_samples N a <= 0)%Z \/
   ~ In (a_mlm N a) ["regular"; "combined"; "converged"] \/ ~ In (a_init N a) ["sobol"; "halton"; "uniform"; "gaussian"] ->
   exists e, bo_init N da ca a = Raise e).
Proof. split; [intros; now apply round_fails_early|intros; now apply constructor_rejects]. Qed.
Print Assumptions C104_early_rejection_partial.

(** ** Concrete cases: the libraries of C83 *)
Definition ex_kw : fun_kw := mkkw "sobol" 16 "converged" 3.
Definition ex_fmat : mat NumR := mkmat [[0; 0]%R; [1; 3]%R] 2.
Definition ex_fuses : list (fun_use NumR) := [FunRound ex_kw "halton" 4 (Some 1%Z); FunInputs (mkkw "grid" 4 "combined" 2) ex_fmat; FunAll (mkkw "uniform" 8 "regular" 1) ex_fmat [5%R; 7%R]].
Lemma ex_fuses_ok : Forall (fun_sensible ex_range) ex_fuses.
Proof.
  assert (F : Forall (in_range ex_range) (mrows ex_fmat)) by (unfold ex_fmat, in_range, ex_range; repeat constructor; cbn; lra).
  unfold ex_fuses, ex_kw. repeat (apply Forall_cons || apply Forall_nil); cbn [fun_sensible]; (split; [split; [cbn; tauto|split; [reflexivity|cbn; tauto]]|]).
  - split; [cbn; tauto|lia].
  - split; [discriminate|]. split; [reflexivity|exact F].
  - split; [discriminate|]. split; [reflexivity|]. split; [exact F|reflexivity].
Qed.
Lemma ex_gp_accepted cov opt_bo : In cov ["eq"; "se"; "matern32"; "matern52"] -> In opt_bo ["L-BFGS-B"; "DIRECT"; "CMA-ES"] ->
  exists o, gp_init NumR true true ex_range cov "ei" true true "BFGS" opt_bo "ml" = Ok o.
Proof.
  assert (RO : range_ok NumR ex_range = true).
  { unfold range_ok. apply forallb_forall. intros b Hb. apply Flocq.Core.Raux.Rle_bool_true. destruct Hb as [<-|[<-|[]]]; cbn; lra. }
  intros HC HO. unfold gp_init, base_init. rewrite RO. cbn in HC, HO.
  repeat match goal with H : _ \/ _ |- _ => destruct H as [H|H] end; try contradiction; subst; eexists; reflexivity.
Qed.
Notation ex_opt o := (gp_single NumR exp ln exp exp PI some_inv some_chol some_cho_solve some_slogdet unit (ex_samples ex_range) ex_from ex_direct ex_from ex_time (fun _ => ex_min) ex_after None o).
Notation ex_tg := (fun x => onsnd unit (ex_target x)).
Notation ex_gi := (fun ms n s => onsnd unit (BOModel.get_initials NumR unit (ex_samples ex_range) ms n s)).
Example C103_example : forall cov opt_bo, In cov ["eq"; "se"; "matern32"; "matern52"] -> In opt_bo ["L-BFGS-B"; "DIRECT"; "CMA-ES"] ->
  exists o sw t r1 r2 r3, gp_init NumR true true ex_range cov "ei" true true "BFGS" opt_bo "ml" = Ok o /\
    mmapM (fun_call (fun_all_initial NumR (gp_state NumR * unit) ex_tg (onsnd unit ex_time) (ex_opt o)) (fun_initial_inputs NumR (gp_state NumR * unit) ex_tg (onsnd unit ex_time) (ex_opt o))
      (run_single_round NumR (gp_state NumR * unit) ex_tg (onsnd unit ex_time) (ex_opt o) ex_gi)) ex_fuses (mkgps NumR [] true, tt) = (sw, t, Ok [r1; r2; r3]) /\
    nrows (ro_X r1) = 7%nat /\ nrows (ro_X r2) = 4%nat /\ nrows (ro_X r3) = 3%nat.
Proof.
  intros cov opt_bo HC HO. destruct (ex_gp_accepted _ _ HC HO) as [o EO]. exists o.
  edestruct (C103_function_wrappers_complete exp exp some_inv some_chol some_cho_solve some_slogdet unit (ex_samples ex_range) ex_from ex_direct ex_from ex_time (fun _ => ex_min) ex_after
    None (fun _ => 0%R) ex_target ex_range cov "ei" true true "BFGS" opt_bo "ml" true true o tt ex_fuses) as (sw & t & rs & E & F); try exact EO; try exact HC; try exact ex_fuses_ok.
  - exact some_inv_ok.
  - exact some_chol_ok.
  - exact some_cho_solve_ok.
  - exact some_slogdet_ok.
  - intros _. exact ex_min_ok.
  - intros e. reflexivity.
  - exact ex_from_ok.
  - exact ex_direct_ok.
  - exact ex_from_ok.
  - apply ex_samples_ok, ex_range_sound.
  - apply ex_target_ok.
  - intros Q. discriminate Q.
  - unfold ex_fuses in F. inversion F as [|? r1 ? rs1 F1 G1]; subst. inversion G1 as [|? r2 ? rs2 F2 G2]; subst. inversion G2 as [|? r3 ? rs3 F3 G3]; subst. inversion G3; subst.
    exists sw, t, r1, r2, r3. split; [exact EO|]. split; [exact E|]. split; [exact (proj1 F1)|]. split; [exact (proj1 F2)|exact (proj1 F3)].
Qed.

(** C104 fails: with a misspelt sampler, five evaluations of the target are spent before the error *)
Theorem C104_refuted : exists (o : gp_obj NumR) samp sw t,
  gp_init NumR true true ex_range "se" "ei" true true "BFGS" "L-BFGS-B" "ml" = Ok o /\ ~ In samp ALLOWED_SAMPLING_METHOD /\
  run_single_round NumR (gp_state NumR * unit) ex_tg (onsnd unit ex_time) (ex_opt o) ex_gi "sobol" samp 100 "regular" 5 10 None (mkgps NumR [] true, tt) = (sw, t, Raise AssertionError) /\
  List.length (calls_of NumR t) = 5%nat.
Proof.
  destruct (ex_gp_accepted "se" "L-BFGS-B") as [o EO]; [cbn; tauto|cbn; tauto|]. exists o, "Sobol".
  assert (V : gp_valid o /\ go_range NumR o = ex_range) by (apply (gp_init_valid EO); [cbn; tauto|intros Q; discriminate Q]). destruct V as (_ & ER).
  pose proof (ex_samples_ok _ ex_range_sound) as SO. pose proof (ex_target_ok ex_range) as TO.
  rewrite <- ER in SO at 1. rewrite <- ER in TO.
  edestruct (C104_late_rejection exp exp some_inv some_chol some_cho_solve some_slogdet unit (ex_samples ex_range) ex_from ex_direct ex_from ex_time (fun _ => ex_min) ex_after
    None ex_target o (mkgps NumR [] true) tt "sobol" "Sobol" 100 "regular" 5 10 None SO TO) as (sw & t & E & L).
  - left. cbn. intuition discriminate.
  - now left.
  - now left.
  - lia.
  - lia.
  - exists sw, t. split; [exact EO|]. split; [cbn; intuition discriminate|]. split; [exact E|exact L].
Qed.
Print Assumptions C104_refuted.
