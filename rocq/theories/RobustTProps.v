(** Property C139: acquisition values and proposals of the Student-t surrogate under measurement errors.  Exact real arithmetic. *)
From Verif Require Import Base Num UtilsSpec UtilsModel HypsModel CovModel KernelSpec CovSpec CovProps CovProofs GPModel GPSpec Contracts GPProofs2 GPProofs3 GPProps AcqModel BOAcqModel
  RegretSpec DampSpec DampProofs DampProps TDampProofs TDampProps RobustProofs RobustProps RobustT.
From Coq Require Import List ZArith Bool String Reals Lra Lia Arith.
Import ListNotations.
Open Scope R_scope.
Local Open Scope string_scope.
Unset Asymmetric Patterns.
Set Bullet Behavior "Strict Subproofs".

(** ** C139: the values change by at most the weighted changes of means and deviations *)
Theorem C139_values : forall name h d ls s nz K pm m inv cdf pdf nu, regression name h d ls s nz K pm m -> inv_contract inv -> profile_of name <> None ->
  dget h "dof" = Some (PFloat NumR nu) -> 2 < nu ->
  forall (X : mat NumR) (pts : list (list NumR)), fits name (A2 NumR X) d -> pts <> [] -> Forall (fun p => List.length p = d) pts ->
  forall Y Y' : list R, 0 < s -> List.length Y = nrows X -> List.length Y' = nrows X ->
  forall str_acq, In str_acq ["ucb"; "pure_exploit"; "pure_explore"] ->
  let r := response_change (nrows X) (column_of NumR Y) (column_of NumR Y') in
  let cm := s / (2 * sqrt (nz * nz + jitter_cov)) * r in let cs := sqrt ((s * s + jitter_cov) / ((nz * nz + jitter_cov) * (nu + INR (nrows X) - 2))) * r in
  let (wm, ws) := weights_of str_acq (nrows X) in
  exists vs vs', t_acquisition_values cdf pdf inv d name h pm str_acq X Y pts = Ok vs /\ t_acquisition_values cdf pdf inv d name h pm str_acq X Y' pts = Ok vs' /\
    List.length vs = List.length pts /\ List.length vs' = List.length pts /\
    (forall j, (j < List.length pts)%nat -> Rabs (nth j vs 0 - nth j vs' 0) <= wm * cm + ws * cs).
Proof. exact t_values_change. Qed.
Print Assumptions C139_values.
(** the best candidate for the wrong responses is nearly the best for the right ones *)
Theorem C139_choice : forall name h d ls s nz K pm m inv cdf pdf nu, regression name h d ls s nz K pm m -> inv_contract inv -> profile_of name <> None ->
  dget h "dof" = Some (PFloat NumR nu) -> 2 < nu ->
  forall (X : mat NumR) (pts : list (list NumR)), fits name (A2 NumR X) d -> pts <> [] -> Forall (fun p => List.length p = d) pts ->
  forall Y Y' : list R, 0 < s -> List.length Y = nrows X -> List.length Y' = nrows X ->
  forall str_acq vs vs', In str_acq ["ucb"; "pure_exploit"; "pure_explore"] ->
  t_acquisition_values cdf pdf inv d name h pm str_acq X Y pts = Ok vs -> t_acquisition_values cdf pdf inv d name h pm str_acq X Y' pts = Ok vs' ->
  let r := response_change (nrows X) (column_of NumR Y) (column_of NumR Y') in
  let cm := s / (2 * sqrt (nz * nz + jitter_cov)) * r in let cs := sqrt ((s * s + jitter_cov) / ((nz * nz + jitter_cov) * (nu + INR (nrows X) - 2))) * r in
  let (wm, ws) := weights_of str_acq (nrows X) in
  forall i delta, (i < List.length pts)%nat -> (forall j, (j < List.length pts)%nat -> nth j vs' 0 <= nth i vs' 0 + delta) ->
  forall j, (j < List.length pts)%nat -> nth j vs 0 <= nth i vs 0 + (delta + 2 * (wm * cm + ws * cs)).
Proof. exact t_choice_change. Qed.
Print Assumptions C139_choice.

(** responses that differ by 4 and 3, two candidates, five degrees of freedom, pure exploration: unlike for the Gaussian process the bound is not zero *)
Example C139_example : exists vs vs', t_acquisition_values exp exp some_inv 2 "matern52" ex_hyps_t ex_prior "pure_explore" ex_rows [1; 4; 2] [[0; 1]; [7; 5]] = Ok vs /\
  t_acquisition_values exp exp some_inv 2 "matern52" ex_hyps_t ex_prior "pure_explore" ex_rows [1; 8; -1] [[0; 1]; [7; 5]] = Ok vs' /\
  Rabs (nth 1 vs 0 - nth 1 vs' 0) <= sqrt ((2 * 2 + jitter_cov) / ((1 / 10 * (1 / 10) + jitter_cov) * 6)) * 5.
Proof.
  destruct C35_example as (D & RG & N5).
  destruct (C139_values _ _ _ _ _ _ _ _ _ _ exp exp _ RG some_inv_ok ltac:(discriminate) D N5 ex_rows [[0; 1]; [7; 5]] ex_fits ltac:(discriminate) ltac:(repeat constructor)
    [1; 4; 2] [1; 8; -1] ltac:(lra) eq_refl eq_refl "pure_explore" ltac:(cbn; tauto)) as (vs & vs' & E & E' & _ & _ & H).
  exists vs, vs'. split; [exact E|split; [exact E'|]]. eapply Rle_trans; [exact (H 1%nat ltac:(cbn; lia))|]. apply Req_le. rewrite Rmult_0_l, Rplus_0_l, Rmult_1_l. f_equal.
  - f_equal. f_equal. f_equal. cbn. lra.
  - unfold response_change, out, at_. cbn. rewrite <- (sqrt_square 5) by lra. f_equal. lra.
Qed.
