(** Property C112: the chosen hyperparameters fit at least as well as the defaults. *)
From Verif Require Import Base Lists Num UtilsModel UtilsSpec HypsModel HypsSpec CovModel KernelSpec CovSpec CovProofs CovProofs2 CovProps GPModel GPProps GPSpec GPProofs
  LikModel LikSpec HypOptModel HypOptSpec FitSpec FitProofs LikProps.
From Coq Require Import List ZArith Bool String Reals Lra.
From Flocq Require Import Core.
Import ListNotations.
Local Open Scope string_scope.
Local Open Scope R_scope.

(** ** C112 *)
(** the negative log marginal likelihood, with every covariance function, optimiser, and choice of flags *)
Theorem C112_ml : forall name X d Y pm p inv chol cho_solve slogdet minimize ard fx opt C B h h0,
  fits name X d -> column (alen X) Y -> get_prior_mu pm X = Ok p -> column (alen X) p -> (0 < alen X)%nat ->
  inv_contract inv -> chol_contract chol -> cho_solve_contract cho_solve -> slogdet_contract slogdet ->
  In opt ALLOWED_OPTIMIZER_METHOD_GP -> keeps_length minimize -> descends minimize ->
  @get_optimized_kernel NumR exp ln PI inv chol cho_solve slogdet minimize X Y pm name opt "ml" ard fx = Ok (C, B, h) ->
  get_hyps NumR name (Z.of_nat d) true ard = Ok h0 ->
  exists v0 v, ml_at inv chol cho_solve slogdet X Y p name ard fx h0 = Ok v0 /\
    ml_at inv chol cho_solve slogdet X Y p name ard fx h = Ok v /\ v <= v0.
Proof. intros. eapply fit_ml; eassumption. Qed.
Print Assumptions C112_ml.
(** there is such a result whenever the optimiser returns *)
Theorem C112_returns : forall name X d Y pm p inv chol cho_solve slogdet minimize ard fx opt,
  fits name X d -> column (alen X) Y -> get_prior_mu pm X = Ok p -> column (alen X) p -> (0 < alen X)%nat ->
  inv_contract inv -> chol_contract chol -> cho_solve_contract cho_solve -> slogdet_contract slogdet ->
  In opt ALLOWED_OPTIMIZER_METHOD_GP -> keeps_length minimize -> answers minimize ->
  exists C B h, @get_optimized_kernel NumR exp ln PI inv chol cho_solve slogdet minimize X Y pm name opt "ml" ard fx = Ok (C, B, h).
Proof. intros. eapply fit_ml_returns; eassumption. Qed.
Print Assumptions C112_returns.
(** the leave-one-out criterion (with one lengthscale per dimension, or one dimension: see C39) *)
Theorem C112_loocv : forall name X d Y pm p inv chol cho_solve slogdet minimize ard fx opt C B h h0,
  fits name X d -> column (alen X) Y -> get_prior_mu pm X = Ok p -> column (alen X) p -> inv_contract inv ->
  In opt ALLOWED_OPTIMIZER_METHOD_GP -> keeps_length minimize -> descends minimize -> ard = true \/ d = 1%nat ->
  @get_optimized_kernel NumR exp ln PI inv chol cho_solve slogdet minimize X Y pm name opt "loocv" ard fx = Ok (C, B, h) ->
  get_hyps NumR name (Z.of_nat d) true ard = Ok h0 ->
  exists v0 v, loo_at inv X Y p name fx h0 = Ok v0 /\ loo_at inv X Y p name fx h = Ok v /\ v <= v0.
Proof. intros. eapply fit_loo; eassumption. Qed.
Print Assumptions C112_loocv.
(** the Student-t process *)
Theorem C112_tp : forall name X d Y pm p inv slogdet gamma digamma minimize ard fx opt C B h h0,
  fits name X d -> column (alen X) Y -> get_prior_mu pm X = Ok p -> column (alen X) p -> inv_contract inv -> slogdet_contract slogdet ->
  In opt ALLOWED_OPTIMIZER_METHOD_TP -> keeps_length minimize -> descends minimize -> respects_bounds minimize ->
  @tp_get_optimized_kernel NumR exp ln PI inv slogdet gamma digamma minimize X Y pm name opt ard fx = Ok (C, B, h) ->
  get_hyps NumR name (Z.of_nat d) false ard = Ok h0 ->
  exists v0 v, tml_at inv slogdet gamma digamma X Y p name ard fx h0 = Ok v0 /\
    tml_at inv slogdet gamma digamma X Y p name ard fx h = Ok v /\ v <= v0.
Proof. intros. eapply fit_tp; eassumption. Qed.
Print Assumptions C112_tp.

(** an optimiser meeting the three conditions: it takes one step if that does not make the objective larger *)
Definition one_step : minimizer NumR := fun f start m b j =>
  match b with
  | Some _ => do _ <- f start; Ok start
  | None =>
      do v0 <- f start;
      match f (map (fun x => x / 2) start) with
      | Ok v1 => if Rle_bool (fst v1) (fst v0) then Ok (map (fun x => x / 2) start) else Ok start
      | Raise _ => Ok start
      end
  end.
Example C112_example : fits "matern52" ex_X 2 /\ column (alen ex_X) ex_Y /\ keeps_length one_step /\ descends one_step /\ respects_bounds one_step /\ answers one_step /\
  exists f start x, one_step f start "BFGS" None true = Ok x /\ x <> start.
Proof.
  split; [apply ex_fits|]. split; [apply ex_column|].
  assert (O : forall f start m b j x v0 g0, f start = Ok (v0, g0) -> one_step f start m b j = Ok x ->
     x = start \/ (b = None /\ x = map (fun x => x / 2) start /\ exists v1 g1, f x = Ok (v1, g1) /\ v1 <= v0)).
  { intros f start m b j x v0 g0 E0 E. unfold one_step in E. rewrite E0 in E. cbn [rbind] in E. destruct b; [left; symmetry; now apply Ok_inj in E|].
    destruct (f (map (fun x => x / 2) start)) as [[v1 g1]|] eqn:E1; [|left; symmetry; now apply Ok_inj in E]. cbn [fst] in E.
    destruct (Rle_bool_spec v1 v0) as [L|L]; [|left; symmetry; now apply Ok_inj in E]. right. apply Ok_inj in E. subst x. eauto 7. }
  assert (O' : forall f start m b j x, one_step f start m b j = Ok x -> exists v0 g0, f start = Ok (v0, g0)).
  { intros f start m b j x E. unfold one_step in E. destruct b, (f start) as [[v0 g0]|]; try discriminate; eauto. }
  split; [|split; [|split; [|split]]].
  - intros f start m b j x E. destruct (O' _ _ _ _ _ _ E) as (v0 & g0 & E0).
    destruct (O _ _ _ _ _ _ _ _ E0 E) as [-> | (_ & -> & _)]; [reflexivity|apply map_length].
  - intros f start m b j x v0 g0 E E0. destruct (O _ _ _ _ _ _ _ _ E0 E) as [-> | (_ & _ & v1 & g1 & E1 & L)]; [exists v0, g0; split; [exact E0|lra]|eauto].
  - intros f start m r j x E W. destruct (O' _ _ _ _ _ _ E) as (v0 & g0 & E0).
    destruct (O _ _ _ _ _ _ _ _ E0 E) as [-> | (Q & _)]; [exact W|discriminate].
  - intros f start m b j v0 E. unfold one_step. rewrite E. cbn [rbind]. destruct b; [eauto|].
    destruct (f (map (fun x => x / 2) start)) as [v1|]; [destruct (Rle_bool (fst v1) (fst v0))|]; eauto.
  - exists (fun th => Ok (nth 0 th 0 * nth 0 th 0, None)), [1], [1 / 2]. split.
    + unfold one_step. cbn. rewrite Rle_bool_true by lra. reflexivity.
    + intros E. injection E. lra.
Qed.
