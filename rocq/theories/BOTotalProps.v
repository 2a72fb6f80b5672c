(** Properties C83 and C84: which runs complete. *)
From Verif Require Import Base Lists Num NumLaws NumFin Monad UtilsModel UtilsSpec HypsModel CovModel CovSpec Contracts GPModel GPSpec LikModel LikSpec LikProofs2 HypOptModel
  AcqModel TreesModel TreesSpec TreesProps WrapperModel WrapperSpec BOModel BOAcqModel BOAcqSpec BOFullModel BOProgram BOTotalSpec BOTotalFull BOTotalSet.
From Coq Require Import List ZArith Bool String Reals Lra Lia Arith Permutation.
From Flocq Require Import Core.
Import ListNotations.
Unset Asymmetric Patterns.
Set Bullet Behavior "Strict Subproofs".
Local Open Scope string_scope.

(** ** C83: whatever combination of options the constructor accepts, the run returns all its evaluations, inside the search space;
    set kernels (C84) and leave-one-out selection of a common lengthscale in several dimensions (C39) aside *)
Theorem C83_accepted_options_complete :
  forall (cdf pdf : R -> R) inv chol cho_solve slogdet (gamma digamma : R -> R) (W : Type) get_samples lbfgsb direct cma (time_ : W -> W * R) minimize after
    (prior_mu : prior NumR) m choice uniform trunc schedule target (a : bo_args NumR) da ca model num_init seed w,
  inv_contract inv -> chol_contract chol -> cho_solve_contract cho_solve -> slogdet_contract slogdet ->
  (forall w, proper_minimizer (minimize w)) -> prior_is prior_mu m ->
  proper_from lbfgsb -> proper_direct direct -> proper_from cma ->
  choice_contract choice -> choice_total choice -> uniform_total NumR uniform -> uniform_contract NumR uniform -> int_of_integers trunc -> completes schedule ->
  proper_samples (a_range NumR a) get_samples -> returns_in (a_range NumR a) target ->
  bo_init NumR da ca a = Ok model -> usable_options a -> (0 < num_init)%Z ->
  exists w' t r,
    bo_program NumR exp ln cdf pdf PI inv chol cho_solve slogdet gamma digamma W get_samples lbfgsb direct cma time_ minimize after prior_mu choice uniform trunc schedule
      target da ca a num_init seed w = (w', t, Ok r) /\
    complete_run (a_range NumR a) (Z.to_nat num_init + Z.to_nat (a_num_iter NumR a)) (ro_X r) (ro_Y r).
Proof. intros. eapply program_returns; eassumption. Qed.
Print Assumptions C83_accepted_options_complete.

(** ** C84: the constructor accepts a set kernel, but no run with one gets past its first proposal: all initial evaluations are spent, then AssertionError *)
Theorem C84_set_kernels_fail :
  forall (cdf pdf : R -> R) inv chol cho_solve slogdet (gamma digamma : R -> R) (W : Type) get_samples lbfgsb direct cma (time_ : W -> W * R) minimize after
    (prior_mu : prior NumR) choice uniform trunc schedule target (a : bo_args NumR) da ca model num_init seed w,
  proper_samples (a_range NumR a) get_samples -> returns_in (a_range NumR a) target ->
  bo_init NumR da ca a = Ok model -> a_surrogate NumR a <> "rf" -> In (a_cov NumR a) ["set_eq"; "set_se"; "set_matern32"; "set_matern52"] -> (0 < num_init)%Z ->
  exists w' t,
    bo_program NumR exp ln cdf pdf PI inv chol cho_solve slogdet gamma digamma W get_samples lbfgsb direct cma time_ minimize after prior_mu choice uniform trunc schedule
      target da ca a num_init seed w = (w', t, Raise AssertionError) /\
    List.length (calls_of NumR t) = Z.to_nat num_init.
Proof. intros. eapply set_program_fails; eassumption. Qed.
Print Assumptions C84_set_kernels_fail.

(** ** Libraries that meet the contracts *)
Definition ex_min : minimizer NumR := fun f start m b j => Ok start.
Definition corner (r : list (NumR * NumR)) : list NumR := map fst r.
Definition ex_from (f : list NumR -> res NumR) (x0 : list NumR) (r : list (NumR * NumR)) (w : unit) : unit * res (list NumR) := (w, Ok (corner r)).
Definition ex_direct (f : list NumR -> res NumR) (r : list (NumR * NumR)) (w : unit) : unit * res (list NumR) := (w, Ok (corner r)).
Definition ex_samples (r : list (NumR * NumR)) (m : string) (num : Z) (seed : option Z) (w : unit) : unit * res (list (list NumR)) := (w, Ok (repeat (corner r) (Z.to_nat num))).
Definition ex_time (w : unit) : unit * R := (w, 0%R).
Definition ex_after (X : mat NumR) (Y : list NumR) (m : string) (w : unit) : unit := w.
Definition ex_target (x : list NumR) (w : unit) : unit * res NumR := (w, Ok (fold_right Rplus 0%R x)).
Definition ex_unif (lo hi : NumR) (w : unit) : unit * res NumR := (w, Ok lo).
Definition ex_schedule (k : nat) : list nat := seq 0 k.
Definition ex_range : list (R * R) := [(0, 1)%R; (-2, 3)%R].
Definition ex_args (surrogate cov opt_bo mlm : string) : bo_args NumR :=
  mkargs NumR ex_range 4 surrogate cov "ei" true true "sobol" "halton" "BFGS" "SLSQP" opt_bo mlm "ml" 10.

Lemma corner_in r : sound_range r -> in_range r (corner r).
Proof. intros H. unfold in_range. induction H as [|b r Hb H IH]; [constructor|]. constructor; [cbn; lra|exact IH]. Qed.
Lemma ex_range_sound : sound_range ex_range.
Proof. repeat constructor; cbn; lra. Qed.
Lemma ex_min_ok : proper_minimizer ex_min.
Proof. intros f s m b j _. exists s. auto. Qed.
Lemma ex_from_ok : proper_from ex_from.
Proof. intros f x0 r w SR _ _. exists w, (corner r). split; [reflexivity|now apply corner_in]. Qed.
Lemma ex_direct_ok : proper_direct ex_direct.
Proof. intros f r w SR _. exists w, (corner r). split; [reflexivity|now apply corner_in]. Qed.
Lemma ex_samples_ok r : sound_range r -> proper_samples r (ex_samples r).
Proof.
  intros SR m num seed w _ HN. exists w, (repeat (corner r) (Z.to_nat num)). split; [reflexivity|].
  split; [destruct (Z.to_nat num) eqn:E; [lia|discriminate]|]. split; [|intros _; apply repeat_length].
  apply List.Forall_forall. intros x Hx. apply repeat_spec in Hx. subst x. now apply corner_in.
Qed.
Lemma ex_target_ok r : returns_in r ex_target.
Proof. intros x w _. unfold ex_target. eauto. Qed.
Lemma ex_trunc_ok : int_of_integers ex_truncR.
Proof. intros z. unfold ex_truncR. now rewrite Ztrunc_IZR. Qed.
Lemma ex_accepted surrogate cov opt_bo mlm :
  In (surrogate, opt_bo) [("gp", "L-BFGS-B"); ("gp", "DIRECT"); ("gp", "CMA-ES"); ("tp", "L-BFGS-B"); ("tp", "DIRECT"); ("tp", "CMA-ES"); ("rf", "random_search")] ->
  In cov ALLOWED_COV -> In mlm ALLOWED_MLM_METHOD -> exists model, bo_init NumR true true (ex_args surrogate cov opt_bo mlm) = Ok model.
Proof.
  assert (RO : range_ok NumR ex_range = true).
  { unfold range_ok. apply forallb_forall. intros b Hb. apply Raux.Rle_bool_true. destruct Hb as [<-|[<-|[]]]; cbn; lra. }
  intros HS HC HM. unfold bo_init, ex_args, rf_init, gp_init, tp_init, base_init. cbn [a_range a_num_iter a_surrogate a_cov a_acq a_norm a_ard a_init a_samp a_opt_gp a_opt_tp a_opt_bo a_mlm a_msel a_num_samples].
  rewrite RO. cbn in HS, HC, HM.
  repeat match goal with H : _ \/ _ |- _ => destruct H as [H|H] end; try contradiction; subst; injection HS as <- <-; eexists; reflexivity.
Qed.

Example C83_example : forall surrogate cov opt_bo mlm num_init,
  In (surrogate, opt_bo) [("gp", "L-BFGS-B"); ("gp", "DIRECT"); ("gp", "CMA-ES"); ("tp", "L-BFGS-B"); ("tp", "DIRECT"); ("tp", "CMA-ES"); ("rf", "random_search")] ->
  In cov ["eq"; "se"; "matern32"; "matern52"] -> In mlm ["regular"; "combined"; "converged"] -> (0 < num_init)%Z ->
  exists w' t r,
    bo_program NumR exp ln exp exp PI some_inv some_chol some_cho_solve some_slogdet exp exp unit (ex_samples ex_range) ex_from ex_direct ex_from ex_time (fun _ => ex_min) ex_after
      None ex_choice ex_unif ex_truncR ex_schedule ex_target true true (ex_args surrogate cov opt_bo mlm) num_init None tt = (w', t, Ok r) /\
    complete_run ex_range (Z.to_nat num_init + 4) (ro_X r) (ro_Y r).
Proof.
  intros surrogate cov opt_bo mlm num_init HS HC HM HN.
  assert (HC' : In cov ALLOWED_COV) by (cbn in HC |- *; tauto). destruct (ex_accepted _ _ _ _ HS HC' HM) as [model EM].
  eapply (C83_accepted_options_complete exp exp some_inv some_chol some_cho_solve some_slogdet exp exp unit (ex_samples ex_range) ex_from ex_direct ex_from ex_time (fun _ => ex_min) ex_after
    None (fun _ => 0%R) ex_choice ex_unif ex_truncR ex_schedule ex_target (ex_args surrogate cov opt_bo mlm) true true model num_init None tt).
  - exact some_inv_ok.
  - exact some_chol_ok.
  - exact some_cho_solve_ok.
  - exact some_slogdet_ok.
  - intros _. exact ex_min_ok.
  - intros e. reflexivity.
  - exact ex_from_ok.
  - exact ex_direct_ok.
  - exact ex_from_ok.
  - exact ex_choice_contract.
  - exact ex_choice_total.
  - intros lo hi w. unfold ex_unif. eauto.
  - intros lo hi w w' v _. reflexivity.
  - exact ex_trunc_ok.
  - intros k. apply Permutation_refl.
  - apply ex_samples_ok, ex_range_sound.
  - apply ex_target_ok.
  - exact EM.
  - split; [discriminate|]. split; [right; exact HC|]. intros _ Q. discriminate Q.
  - exact HN.
Qed.

(** C84 fails: the constructor accepts these arguments, every library behaves, and the run raises after spending 5 evaluations *)
Theorem C84_refuted : exists (a : bo_args NumR) model w' t,
  bo_init NumR true true a = Ok model /\ a_range NumR a = ex_range /\ proper_samples ex_range (ex_samples ex_range) /\ returns_in ex_range ex_target /\
  bo_program NumR exp ln exp exp PI some_inv some_chol some_cho_solve some_slogdet exp exp unit (ex_samples ex_range) ex_from ex_direct ex_from ex_time (fun _ => ex_min) ex_after
    None ex_choice ex_unif ex_truncR ex_schedule ex_target true true a 5 None tt = (w', t, Raise AssertionError) /\
  List.length (calls_of NumR t) = 5%nat.
Proof.
  assert (HS : In ("gp", "L-BFGS-B") [("gp", "L-BFGS-B"); ("gp", "DIRECT"); ("gp", "CMA-ES"); ("tp", "L-BFGS-B"); ("tp", "DIRECT"); ("tp", "CMA-ES"); ("rf", "random_search")]) by (now left).
  assert (HC : In "set_se" ALLOWED_COV) by (cbn; tauto). assert (HM : In "regular" ALLOWED_MLM_METHOD) by (now left).
  destruct (ex_accepted _ _ _ _ HS HC HM) as [model EM]. pose proof (ex_samples_ok _ ex_range_sound) as SO. pose proof (ex_target_ok ex_range) as TO.
  destruct (C84_set_kernels_fail exp exp some_inv some_chol some_cho_solve some_slogdet exp exp unit (ex_samples ex_range) ex_from ex_direct ex_from ex_time (fun _ => ex_min) ex_after
    None ex_choice ex_unif ex_truncR ex_schedule ex_target (ex_args "gp" "set_se" "L-BFGS-B" "regular") true true model 5 None tt SO TO EM) as (w' & t & E & L); [discriminate|cbn; tauto|lia|].
  exists (ex_args "gp" "set_se" "L-BFGS-B" "regular"), model, w', t. auto 8.
Qed.
Print Assumptions C84_refuted.
