(** Property C138: acquisition values and proposals under measurement errors.  Exact real arithmetic. *)
From Verif Require Import Base Num UtilsSpec UtilsModel HypsModel CovModel KernelSpec CovSpec CovProps CovProofs GPModel GPSpec Contracts GPProofs2 GPProps AcqModel BOAcqModel
  RegretSpec DampSpec DampProofs DampProps RobustProofs.
From Coq Require Import List ZArith Bool String Reals Lra Lia Arith.
Import ListNotations.
Open Scope R_scope.
Local Open Scope string_scope.
Unset Asymmetric Patterns.
Set Bullet Behavior "Strict Subproofs".

(** ** C138: the values of three acquisition functions change by at most the damped change of the responses, those of pure exploration not at all *)
Theorem C138_values : forall name h d ls s nz K pm m inv cdf pdf, regression name h d ls s nz K pm m -> inv_contract inv -> profile_of name <> None ->
  forall (X : mat NumR) (pts : list (list NumR)), fits name (A2 NumR X) d -> pts <> [] -> Forall (fun p => List.length p = d) pts ->
  forall Y Y' : list R, 0 < s -> List.length Y = nrows X -> List.length Y' = nrows X ->
  forall str_acq, In str_acq ["ucb"; "pure_exploit"; "pure_explore"] ->
  exists vs vs', acquisition_values cdf pdf inv d name h pm str_acq X Y pts = Ok vs /\ acquisition_values cdf pdf inv d name h pm str_acq X Y' pts = Ok vs' /\
    List.length vs = List.length pts /\ List.length vs' = List.length pts /\
    (forall j, (j < List.length pts)%nat -> Rabs (nth j vs 0 - nth j vs' 0) <=
       s / (2 * sqrt (nz * nz + jitter_cov)) * response_change (nrows X) (column_of NumR Y) (column_of NumR Y')) /\
    (str_acq = "pure_explore" -> vs = vs').
Proof. exact values_change. Qed.
Print Assumptions C138_values.
(** the best candidate for the wrong responses is nearly the best for the right ones *)
Theorem C138_choice : forall name h d ls s nz K pm m inv cdf pdf, regression name h d ls s nz K pm m -> inv_contract inv -> profile_of name <> None ->
  forall (X : mat NumR) (pts : list (list NumR)), fits name (A2 NumR X) d -> pts <> [] -> Forall (fun p => List.length p = d) pts ->
  forall Y Y' : list R, 0 < s -> List.length Y = nrows X -> List.length Y' = nrows X ->
  forall str_acq vs vs', In str_acq ["ucb"; "pure_exploit"; "pure_explore"] ->
  acquisition_values cdf pdf inv d name h pm str_acq X Y pts = Ok vs -> acquisition_values cdf pdf inv d name h pm str_acq X Y' pts = Ok vs' ->
  forall i delta, (i < List.length pts)%nat -> (forall j, (j < List.length pts)%nat -> nth j vs' 0 <= nth i vs' 0 + delta) ->
  forall j, (j < List.length pts)%nat ->
    nth j vs 0 <= nth i vs 0 + (delta + 2 * (s / (2 * sqrt (nz * nz + jitter_cov)) * response_change (nrows X) (column_of NumR Y) (column_of NumR Y'))).
Proof. exact choice_change. Qed.
Print Assumptions C138_choice.

Definition ex_rows : mat NumR := mkmat ([[0; 1]; [2; 5]; [0; 1]] : list (list NumR)) 2.
(** responses that differ by 4 and 3, two candidates, upper confidence bound *)
Example C138_example : exists vs vs', acquisition_values exp exp some_inv 2 "matern52" ex_hyps ex_prior "ucb" ex_rows [1; 4; 2] [[0; 1]; [7; 5]] = Ok vs /\
  acquisition_values exp exp some_inv 2 "matern52" ex_hyps ex_prior "ucb" ex_rows [1; 8; -1] [[0; 1]; [7; 5]] = Ok vs' /\
  Rabs (nth 1 vs 0 - nth 1 vs' 0) <= 2 / (2 * sqrt (1 / 10 * (1 / 10) + jitter_cov)) * 5.
Proof.
  destruct (C138_values _ _ _ _ _ _ _ _ _ _ exp exp ex_regression some_inv_ok ltac:(discriminate) ex_rows [[0; 1]; [7; 5]] ex_fits ltac:(discriminate) ltac:(repeat constructor)
    [1; 4; 2] [1; 8; -1] ltac:(lra) eq_refl eq_refl "ucb" ltac:(cbn; tauto)) as (vs & vs' & E & E' & _ & _ & H & _).
  exists vs, vs'. split; [exact E|split; [exact E'|]]. eapply Rle_trans; [exact (H 1%nat ltac:(cbn; lia))|]. apply Req_le. f_equal.
  unfold response_change, out, at_. cbn. rewrite <- (sqrt_square 5) by lra. f_equal. lra.
Qed.
