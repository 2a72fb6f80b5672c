(** Property C87: an accepted object can be used any number of times. *)
From Verif Require Import Base Lists Num NumLaws NumFin Monad UtilsModel UtilsSpec HypsModel CovModel CovSpec Contracts GPModel GPSpec LikModel LikSpec LikProofs2 HypOptModel
  AcqModel TreesModel TreesSpec TreesProps WrapperModel BOModel BOAcqModel BOAcqSpec BOFullModel BOProgram BOObject BOTotalSpec BOTotalRun BOTotalProps UseSpec UseProofs.
From Coq Require Import List ZArith Bool String Reals Lra Lia Arith Permutation.
Import ListNotations.
Unset Asymmetric Patterns.
Set Bullet Behavior "Strict Subproofs".
Local Open Scope string_scope.

(** whatever sequence of calls with sensible arguments is made on a new object, each call returns all its evaluations *)
Theorem C87_any_sequence_of_uses_completes :
  forall (cdf pdf : R -> R) inv chol cho_solve slogdet (gamma digamma : R -> R) (W : Type) get_samples lbfgsb direct cma (time_ : W -> W * R) minimize after
    (prior_mu : prior NumR) m choice uniform trunc schedule target (a : bo_args NumR) da ca ob w (uses : list (use NumR)),
  inv_contract inv -> chol_contract chol -> cho_solve_contract cho_solve -> slogdet_contract slogdet ->
  (forall w, proper_minimizer (minimize w)) -> prior_is prior_mu m ->
  proper_from lbfgsb -> proper_direct direct -> proper_from cma ->
  choice_contract choice -> choice_total choice -> uniform_total NumR uniform -> uniform_contract NumR uniform -> int_of_integers trunc -> completes schedule ->
  proper_samples (a_range NumR a) get_samples -> returns_in (a_range NumR a) target ->
  new_object NumR da ca a = Ok ob -> usable_options a -> Forall (sensible (a_range NumR a)) uses ->
  exists obw t rs,
    mmapM (call_of
      (object_all_initial NumR exp ln cdf pdf PI inv chol cho_solve slogdet gamma digamma W get_samples lbfgsb direct cma time_ minimize after prior_mu choice uniform trunc schedule target)
      (object_initial_inputs NumR exp ln cdf pdf PI inv chol cho_solve slogdet gamma digamma W get_samples lbfgsb direct cma time_ minimize after prior_mu choice uniform trunc schedule target)
      (object_optimize NumR exp ln cdf pdf PI inv chol cho_solve slogdet gamma digamma W get_samples lbfgsb direct cma time_ minimize after prior_mu choice uniform trunc schedule target))
      uses (ob, w) = (obw, t, Ok rs) /\
    Forall2 (fun u r => complete_run (a_range NumR a) (given u + Z.to_nat (a_num_iter NumR a)) (ro_X r) (ro_Y r)) uses rs.
Proof.
  intros cdf pdf inv chol cho_solve slogdet gamma digamma W get_samples lbfgsb direct cma time_ minimize after prior_mu m choice uniform trunc schedule target a da ca ob w uses
    H1 H2 H3 H4 H5 H6 H7 H8 H9 H10 H11 H12 H13 H14 H15 H16 H17 H18 H19 H20.
  destruct (uses_run cdf pdf gamma digamma time_ after H1 H2 H3 H4 H5 H6 H7 H8 H9 H10 H11 H12 H13 H14 H15 H16 H17 w (new_ok H18 H19) H20) as (obw & t & rs & E & HR & _).
  exists obw, t, rs. split; [exact E|exact HR].
Qed.
Print Assumptions C87_any_sequence_of_uses_completes.

(** a concrete case: the libraries of C83; ask for 3 initial points, then hand over two inputs, then two evaluated inputs *)
Definition ex_mat : mat NumR := mkmat [[0; 0]%R; [1; 3]%R] 2.
Definition ex_uses : list (use NumR) := [FromScratch 3 (Some 1%Z); WithInputs ex_mat; WithAll ex_mat [5%R; 7%R]].
Lemma ex_uses_ok : Forall (sensible ex_range) ex_uses.
Proof.
  assert (F : Forall (in_range ex_range) (mrows ex_mat)) by (unfold ex_mat, in_range, ex_range; repeat constructor; cbn; lra).
  constructor; [reflexivity|]. constructor; [split; [discriminate|]; split; [reflexivity|exact F]|]. constructor; [|constructor].
  split; [discriminate|]. split; [reflexivity|]. split; [exact F|reflexivity].
Qed.
Example C87_example : forall surrogate cov opt_bo mlm,
  In (surrogate, opt_bo) [("gp", "L-BFGS-B"); ("gp", "DIRECT"); ("gp", "CMA-ES"); ("tp", "L-BFGS-B"); ("tp", "DIRECT"); ("tp", "CMA-ES"); ("rf", "random_search")] ->
  In cov ["eq"; "se"; "matern32"; "matern52"] -> In mlm ["regular"; "combined"; "converged"] ->
  exists ob obw t r1 r2 r3, new_object NumR true true (ex_args surrogate cov opt_bo mlm) = Ok ob /\
    mmapM (call_of
      (object_all_initial NumR exp ln exp exp PI some_inv some_chol some_cho_solve some_slogdet exp exp unit (ex_samples ex_range) ex_from ex_direct ex_from ex_time (fun _ => ex_min) ex_after
        None ex_choice ex_unif ex_truncR ex_schedule ex_target)
      (object_initial_inputs NumR exp ln exp exp PI some_inv some_chol some_cho_solve some_slogdet exp exp unit (ex_samples ex_range) ex_from ex_direct ex_from ex_time (fun _ => ex_min) ex_after
        None ex_choice ex_unif ex_truncR ex_schedule ex_target)
      (object_optimize NumR exp ln exp exp PI some_inv some_chol some_cho_solve some_slogdet exp exp unit (ex_samples ex_range) ex_from ex_direct ex_from ex_time (fun _ => ex_min) ex_after
        None ex_choice ex_unif ex_truncR ex_schedule ex_target)) ex_uses (ob, tt) = (obw, t, Ok [r1; r2; r3]) /\
    nrows (ro_X r1) = 7%nat /\ nrows (ro_X r2) = 6%nat /\ nrows (ro_X r3) = 6%nat.
Proof.
  intros surrogate cov opt_bo mlm HS HC HM. assert (HC' : In cov ALLOWED_COV) by (cbn in HC |- *; tauto).
  destruct (ex_accepted _ _ _ _ HS HC' HM) as [model EM].
  destruct (new_object NumR true true (ex_args surrogate cov opt_bo mlm)) as [ob|] eqn:EN; [|unfold new_object in EN; rewrite EM in EN; destruct model; discriminate].
  edestruct (C87_any_sequence_of_uses_completes exp exp some_inv some_chol some_cho_solve some_slogdet exp exp unit (ex_samples ex_range) ex_from ex_direct ex_from ex_time (fun _ => ex_min) ex_after
    None (fun _ => 0%R) ex_choice ex_unif ex_truncR ex_schedule ex_target (ex_args surrogate cov opt_bo mlm) true true ob tt ex_uses) as (obw & t & rs & E & F); try exact EN; try exact ex_uses_ok.
  - exact some_inv_ok.
  - exact some_chol_ok.
  - exact some_cho_solve_ok.
  - exact some_slogdet_ok.
  - intros _. exact ex_min_ok.
  - intros e. reflexivity.
  - exact ex_from_ok.
  - exact ex_direct_ok.
  - exact ex_from_ok.
  - exact ex_choice_contract.
  - exact ex_choice_total.
  - intros lo hi w. unfold ex_unif. eauto.
  - intros lo hi w w' v _. reflexivity.
  - exact ex_trunc_ok.
  - intros k. apply Permutation_refl.
  - apply ex_samples_ok, ex_range_sound.
  - apply ex_target_ok.
  - split; [discriminate|]. split; [right; exact HC|]. intros _ Q. discriminate Q.
  - unfold ex_uses in F. inversion F as [|? r1 ? rs1 F1 G1]; subst. inversion G1 as [|? r2 ? rs2 F2 G2]; subst. inversion G2 as [|? r3 ? rs3 F3 G3]; subst. inversion G3; subst.
    exists ob, obw, t, r1, r2, r3. split; [reflexivity|]. split; [exact E|]. split; [exact (proj1 F1)|]. split; [exact (proj1 F2)|exact (proj1 F3)].
Qed.
