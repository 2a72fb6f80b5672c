(** Property C131: reported times are durations that fit into each other. *)
From Verif Require Import Base Lists Num NumLaws NumFin Monad UtilsModel UtilsSpec HypsModel CovModel CovSpec Contracts GPModel GPSpec LikModel LikSpec LikProofs2 HypOptModel
  AcqModel TreesModel TreesSpec TreesProps WrapperModel WrapperSpec BOModel BOAcqModel BOAcqSpec BOFullModel BOProgram BOTotalSpec BOTotalProps TimeSpec TimeProofs.
From Coq Require Import List ZArith Bool String Reals Lra Lia Arith Permutation.
From Flocq Require Import Core.
Import ListNotations.
Open Scope R_scope.
Unset Asymmetric Patterns.
Set Bullet Behavior "Strict Subproofs".
Local Open Scope string_scope.

(** ** C131: whole runs, any surrogate and options.  The clock is not turned back; a surrogate, an acquisition function and a call of the
    target take at least [ds], [da] and [dt], which may be 0; nothing else is assumed of the libraries.  In the mode "converged" later rounds
    need not fit, so there [ds] is 0 *)
Theorem C131_program :
  forall (W : Type) (now : W -> R) (nexp nlog cdf pdf : R -> R) (npi : R) inv chol cho_solve slogdet (gamma digamma : R -> R) get_samples lbfgsb direct cma (time_ : W -> W * R) minimize after
    (prior_mu : prior NumR) choice uniform trunc schedule target ds da dt,
  0 <= ds -> 0 <= da -> 0 <= dt ->
  (forall m n s, takes now da (get_samples m n s)) -> (forall f x b, passes now (lbfgsb f x b)) -> (forall f b, takes now da (direct f b)) -> (forall f x b, passes now (cma f x b)) ->
  reads_clock now time_ -> (forall X Y m w, now w + ds <= now (after X Y m w)) -> (forall n k b, takes now ds (choice n k b)) -> (forall a b, passes now (uniform a b)) -> (forall x, takes now dt (target x)) ->
  forall dbg ca (a : bo_args NumR) num_init seed w w' t r, a_mlm NumR a <> "converged" \/ ds <= 0 ->
  bo_program NumR nexp nlog cdf pdf npi inv chol cho_solve slogdet gamma digamma W get_samples lbfgsb direct cma time_ minimize after prior_mu choice uniform trunc schedule target
    dbg ca a num_init seed w = (w', t, Ok r) ->
  times_ok ds da dt (Z.to_nat (a_num_iter NumR a)) (now w' - now w) r.
Proof.
  intros W now nexp nlog cdf pdf npi inv chol cho_solve slogdet gamma digamma get_samples lbfgsb direct cma time_ minimize after prior_mu choice uniform trunc schedule target ds da dt D1 D2 D3 H1 H2 H3 H4 H5 H6 H7 H8 H9
    dbg ca a num_init seed w w' t r HC E.
  exact (program_times D1 D2 D3 H1 H2 H3 H4 H5 H6 H7 H8 H9 E HC).
Qed.
Print Assumptions C131_program.
(** run_single_round, whatever the class of the model, if its own times are durations *)
Theorem C131_function : forall (W : Type) (now : W -> R) (target : list R -> W -> W * res R) (time_ : W -> W * R)
    (model_optimize : string -> Z -> string -> mat NumR -> list NumR -> W -> W * res (list NumR * info NumR)) get_initials ds da dt,
  0 <= dt -> (forall x, takes now dt (target x)) -> reads_clock now time_ -> (forall m n s, passes now (get_initials m n s)) ->
  (forall samp num mlm X Y w w' r, model_optimize samp num mlm X Y w = (w', r) -> now w <= now w' /\
    forall p di, r = Ok (p, di) -> ds <= in_tsur di /\ da <= in_tacq di /\ in_tsur di + in_tacq di <= now w' - now w) ->
  forall init samp num mlm num_init num_iter seed w w' t r,
  run_single_round NumR W target time_ model_optimize get_initials init samp num mlm num_init num_iter seed w = (w', t, Ok r) ->
  times_ok ds da dt (Z.to_nat num_iter) (now w' - now w) r.
Proof.
  intros W now target time_ model_optimize get_initials ds da dt D1 H1 H2 H3 H4 init samp num mlm num_init num_iter seed w w' t r E.
  assert (HI : forall a b c X Y, di_timed now ds da (model_optimize a b c X Y)).
  { intros a b c X Y w0 w1 r0 E0. destruct (H4 _ _ _ _ _ _ _ _ E0) as [L P]. split; [exact L|]. intros [p di] ->. exact (P p di eq_refl). }
  exact (proj2 (run_timed D1 H1 H2 HI H3 E) r eq_refl).
Qed.
Print Assumptions C131_function.
(** the dictionaries of the three classes *)
Theorem C131_models : forall (W K T : Type) (now : W -> R) get_samples lbfgsb direct cma (time_ : W -> W * R) ds da, 0 <= ds -> 0 <= da ->
  (forall m n s, takes now da (get_samples m n s)) -> (forall f x b, passes now (lbfgsb f x b)) -> (forall f b, takes now da (direct f b)) -> (forall f x b, passes now (cma f x b)) ->
  reads_clock now time_ ->
  (forall fit kernel_inverse nlml acq, (forall X Y c m s u, takes now ds (fit X Y c m s u)) -> forall o X Y samp num mlm seed st w st' w' t p g, mlm <> "converged" \/ ds <= 0 ->
     gp_optimize NumR W K get_samples lbfgsb direct cma time_ fit kernel_inverse nlml acq o X Y samp num mlm seed (st, w) = (st', w', t, Ok (p, g)) ->
     ds <= gi_tsur NumR K g /\ da <= gi_tacq NumR K g /\ gi_tsur NumR K g + gi_tacq NumR K g <= gi_tall NumR K g <= now w' - now w) /\
  (forall fit acq, (forall X Y c m u, takes now ds (fit X Y c m u)) -> forall o X Y samp num seed st w st' w' t p g,
     tp_optimize NumR W K get_samples lbfgsb direct cma time_ fit acq o X Y samp num seed (st, w) = (st', w', t, Ok (p, g)) ->
     ds <= gi_tsur NumR K g /\ da <= gi_tacq NumR K g /\ gi_tsur NumR K g + gi_tacq NumR K g <= gi_tall NumR K g <= now w' - now w) /\
  (forall get_trees acq, (forall X Y, takes now ds (get_trees X Y)) -> forall o X Y samp num seed st w st' w' t p g,
     rf_optimize NumR W get_samples time_ T get_trees acq o X Y samp num seed (st, w) = (st', w', t, Ok (p, g)) ->
     ds <= ri_tsur NumR T g /\ da <= ri_tacq NumR T g /\ ri_tsur NumR T g + ri_tacq NumR T g <= ri_tall NumR T g <= now w' - now w).
Proof.
  intros W K T now get_samples lbfgsb direct cma time_ ds da D1 D2 H1 H2 H3 H4 H5. split; [|split].
  - intros fit ki nl acq HF o X Y samp num mlm seed st w st' w' t p g HC E. destruct (proj2 (gp_timed D1 D2 H1 H2 H3 H4 H5 HF HC E) (p, g) eq_refl) as (A & B & C & D). cbn [snd] in *. unfold at_world in *. cbn [snd] in *. auto.
  - intros fit acq HF o X Y samp num seed st w st' w' t p g E. destruct (proj2 (tp_timed D1 D2 H1 H2 H3 H4 H5 HF E) (p, g) eq_refl) as (A & B & C & D). cbn [snd] in *. unfold at_world in *. cbn [snd] in *. auto.
  - intros gt acq HF o X Y samp num seed st w st' w' t p g E.
    assert (HG : forall X Y w w' r, gt X Y w = (w', r) -> now w <= now w' /\ forall t, r = Ok t -> now w + ds <= now w').
    { intros X1 Y1 u u' r EQ. specialize (HF X1 Y1 u). rewrite EQ in HF. cbn [fst] in HF. split; [lra|intros; lra]. }
    destruct (proj2 (rf_timed D1 D2 H1 H5 HG E) (p, g) eq_refl) as (A & B & C & D). cbn [snd] in *. unfold at_world in *. cbn [snd] in *. auto.
Qed.
Print Assumptions C131_models.

(** the libraries of C83, each call of which takes one second *)
Definition slow {A} (f : unit -> unit * A) (w : R) : R * A := (w + 1, snd (f tt)).
Lemma slow_takes {A} (f : unit -> unit * A) : takes (fun w => w) 1 (slow f).
Proof. intros w. unfold slow. cbn [fst]. lra. Qed.
Lemma slow_passes {A} (f : unit -> unit * A) : passes (fun w => w) (slow f).
Proof. intros w. unfold slow. cbn [fst]. lra. Qed.
Definition wall (w : R) : R * R := (w + 1, w + 1).
Example C131_example : forall surrogate opt_bo, In (surrogate, opt_bo) [("gp", "L-BFGS-B"); ("tp", "DIRECT"); ("rf", "random_search")] ->
  exists w' t r,
    bo_program NumR exp ln exp exp PI some_inv some_chol some_cho_solve some_slogdet exp exp R (fun m n s => slow (ex_samples ex_range m n s)) (fun f x b => slow (ex_from f x b)) (fun f b => slow (ex_direct f b))
      (fun f x b => slow (ex_from f x b)) wall (fun _ => ex_min) (fun X Y m w => w + 2) None (fun n k b => slow (ex_choice n k b)) (fun a b => slow (ex_unif a b)) ex_truncR ex_schedule (fun x => slow (ex_target x))
      true true (ex_args surrogate "matern52" opt_bo "combined") 3 None 100 = (w', t, Ok r) /\
    times_ok 1 1 1 4 (w' - 100) r.
Proof.
  intros surrogate opt_bo HS.
  assert (HC : In "matern52" ALLOWED_COV) by (cbn; tauto). assert (HM : In "combined" ALLOWED_MLM_METHOD) by (cbn; tauto).
  assert (HS' : In (surrogate, opt_bo) [("gp", "L-BFGS-B"); ("gp", "DIRECT"); ("gp", "CMA-ES"); ("tp", "L-BFGS-B"); ("tp", "DIRECT"); ("tp", "CMA-ES"); ("rf", "random_search")]) by (cbn in HS |- *; tauto).
  destruct (ex_accepted _ _ _ _ HS' HC HM) as [model EM].
  edestruct (C83_accepted_options_complete exp exp some_inv some_chol some_cho_solve some_slogdet exp exp R (fun m n s => slow (ex_samples ex_range m n s)) (fun f x b => slow (ex_from f x b)) (fun f b => slow (ex_direct f b))
      (fun f x b => slow (ex_from f x b)) wall (fun _ => ex_min) (fun X Y m w => w + 2) None (fun _ => 0) (fun n k b => slow (ex_choice n k b)) (fun a b => slow (ex_unif a b)) ex_truncR ex_schedule (fun x => slow (ex_target x))
      (ex_args surrogate "matern52" opt_bo "combined") true true model 3 None 100) as (w' & t & r & E & CR).
  - exact some_inv_ok.
  - exact some_chol_ok.
  - exact some_cho_solve_ok.
  - exact some_slogdet_ok.
  - intros _. exact ex_min_ok.
  - intros e. reflexivity.
  - intros f x0 q w H1 H2 H3. destruct (ex_from_ok f x0 q tt H1 H2 H3) as (u & x & HE & HI). exists (w + 1), x. unfold slow. rewrite HE. auto.
  - intros f q w H1 H2. destruct (ex_direct_ok f q tt H1 H2) as (u & x & HE & HI). exists (w + 1), x. unfold slow. rewrite HE. auto.
  - intros f x0 q w H1 H2 H3. destruct (ex_from_ok f x0 q tt H1 H2 H3) as (u & x & HE & HI). exists (w + 1), x. unfold slow. rewrite HE. auto.
  - intros n k rep w w1 idx HE. unfold slow in HE. destruct (ex_choice n k rep tt) as [u q] eqn:EQ. injection HE as _ ->. exact (ex_choice_contract _ _ _ _ _ _ EQ).
  - intros n k rep w H1 H2. destruct (ex_choice_total n k rep tt H1 H2) as (u & idx & HE). exists (w + 1), idx. unfold slow. now rewrite HE.
  - intros lo hi w. unfold slow, ex_unif. cbn [snd]. eauto.
  - intros lo hi w w1 v _. reflexivity.
  - exact ex_trunc_ok.
  - intros k. apply Permutation_refl.
  - intros m num seed w H1 H2. destruct (ex_samples_ok _ ex_range_sound m num seed tt H1 H2) as (u & l & HE & HI). exists (w + 1), l. unfold slow. rewrite HE. auto.
  - intros x w _. unfold slow, ex_target. cbn [snd]. eauto.
  - exact EM.
  - split; [discriminate|]. split; [right; cbn; tauto|]. intros _ Q. discriminate Q.
  - lia.
  - assert (TO : times_ok 1 1 1 4 (w' - 100) r).
    { change 4%nat with (Z.to_nat (a_num_iter NumR (ex_args surrogate "matern52" opt_bo "combined"))). eapply (C131_program R (fun w => w)); try exact E; try lra; try (intros; apply slow_takes); try (intros; apply slow_passes); [intros w; unfold wall; cbn [fst snd]; lra|intros; lra|left; discriminate]. }
    exists w', t, r. split; [exact E|exact TO].
Qed.
