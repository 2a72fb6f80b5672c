(** predict_with_optimized_hyps in terms of predict_with_hyps. *)
From Verif Require Import Base Num UtilsModel HypsModel CovModel GPModel LikModel HypOptModel ThompsonProofs2.
From Coq Require Import List ZArith Bool String.
Set Implicit Arguments.
Local Open Scope string_scope.

Section Any.
Context (N : Num) (nexp nlog : N -> N) (npi : N).
Context (inv chol : list (list N) -> res (list (list N))) (cho_solve : list (list N) -> list (list N) -> res (list (list N)))
  (slogdet : list (list N) -> N * N) (ngamma ndigamma : N -> N) (minimize : minimizer N).

Lemma inverse_indep X h name fx c b o : get_kernel_inverse nexp inv X h name fx false = Ok (c, b, o) ->
  forall fx', get_kernel_inverse nexp inv X h name fx' false = Ok (c, b, None).
Proof.
  intros H fx'. unfold get_kernel_inverse in *. destruct (check_str_cov _ _ _); [|discriminate H]. cbn [rbind] in *.
  destruct (train_cov _ _ _ _) as [c0|]; [|discriminate H]. cbn [rbind] in *. destruct (inv c0) as [b0|]; [|discriminate H]. cbn [rbind] in *.
  injection H as <- <- _. reflexivity.
Qed.
Lemma gp_opt_inverse X Y pm name opt ms ard fx C B h :
  get_optimized_kernel nexp nlog npi inv chol cho_solve slogdet minimize X Y pm name opt ms ard fx = Ok (C, B, h) ->
  get_kernel_inverse nexp inv X h name true false = Ok (C, B, None).
Proof.
  intros H. unfold get_optimized_kernel in H. rinv.
  match goal with K : get_kernel_inverse _ _ _ _ _ _ _ = Ok ?k |- _ => destruct k as [[c b] o]; apply inverse_indep with (fx' := true) in K; rename K into E end.
  injection H as <- <- <-. exact E.
Qed.
Lemma tp_opt_inverse X Y pm name opt ard fx C B h :
  tp_get_optimized_kernel nexp nlog npi inv slogdet ngamma ndigamma minimize X Y pm name opt ard fx = Ok (C, B, h) ->
  get_kernel_inverse nexp inv X h name true false = Ok (C, B, None).
Proof.
  intros H. unfold tp_get_optimized_kernel in H. rinv.
  match goal with K : get_kernel_inverse _ _ _ _ _ _ _ = Ok ?k |- _ => destruct k as [[c b] o]; apply inverse_indep with (fx' := true) in K; rename K into E end.
  injection H as <- <- <-. exact E.
Qed.

Lemma gp_predict_opt X Y Xs pm name opt fx :
  validate_common_args X Y (Some Xs) = Ok tt -> check_str_cov name (shape X) (Some (shape Xs)) = Ok tt ->
  In opt ALLOWED_OPTIMIZER_METHOD_GP ->
  predict_with_optimized_hyps nexp nlog npi inv chol cho_solve slogdet minimize X Y Xs name opt pm fx =
  match get_optimized_kernel nexp nlog npi inv chol cho_solve slogdet minimize X Y pm name opt "ml" true fx with
  | Ok (_, _, h) => predict_with_hyps nexp inv X Y Xs h name pm
  | Raise e => Raise e
  end.
Proof.
  intros V CK Ho. unfold predict_with_optimized_hyps. rewrite V. cbn [rbind]. rewrite CK. cbn [rbind].
  replace (str_in opt ALLOWED_OPTIMIZER_METHOD_GP) with true
    by (destruct Ho as [<-|[<-|[<-|[<-|[<-|[]]]]]]; reflexivity). cbn [assert_ rbind].
  destruct (get_optimized_kernel _ _ _ _ _ _ _ _ _ _ _ _ _ _ _ _) as [[[C B] h]|e] eqn:E; [|reflexivity]. cbn [rbind].
  apply gp_opt_inverse in E. unfold predict_with_hyps. rewrite V. cbn [rbind]. rewrite CK. cbn [rbind]. rewrite E. reflexivity.
Qed.
Lemma tp_predict_opt X Y Xs pm name opt fx :
  validate_common_args X Y (Some Xs) = Ok tt -> check_str_cov name (shape X) (Some (shape Xs)) = Ok tt ->
  In opt ALLOWED_OPTIMIZER_METHOD_TP ->
  tp_predict_with_optimized_hyps nexp nlog npi inv slogdet ngamma ndigamma minimize X Y Xs name opt pm fx =
  match tp_get_optimized_kernel nexp nlog npi inv slogdet ngamma ndigamma minimize X Y pm name opt true fx with
  | Ok (_, _, h) => tp_predict_with_hyps nexp inv X Y Xs h name pm
  | Raise e => Raise e
  end.
Proof.
  intros V CK Ho. unfold tp_predict_with_optimized_hyps. rewrite V. cbn [rbind]. rewrite CK. cbn [rbind].
  replace (str_in opt ALLOWED_OPTIMIZER_METHOD_GP) with true by (destruct Ho as [<-|[<-|[]]]; reflexivity). cbn [assert_ rbind].
  destruct (tp_get_optimized_kernel _ _ _ _ _ _ _ _ _ _ _ _ _ _ _) as [[[C B] h]|e] eqn:E; [|reflexivity]. cbn [rbind].
  apply tp_opt_inverse in E. unfold tp_predict_with_hyps. rewrite V. cbn [rbind]. rewrite CK. cbn [rbind]. rewrite E. reflexivity.
Qed.
(** BFGS, Nelder-Mead and SLSQP-Bounded pass the check of tp.predict_with_optimized_hyps and fail afterwards *)
Lemma tp_predict_fails X Y Xs pm name opt fx r :
  ~ In opt ALLOWED_OPTIMIZER_METHOD_TP -> tp_predict_with_optimized_hyps nexp nlog npi inv slogdet ngamma ndigamma minimize X Y Xs name opt pm fx <> Ok r.
Proof.
  intros Ho H. unfold tp_predict_with_optimized_hyps in H. rinv.
  match goal with K : tp_get_optimized_kernel _ _ _ _ _ _ _ _ _ _ _ _ _ _ _ = _ |- _ => unfold tp_get_optimized_kernel in K end. rinv.
  match goal with K : assert_ (str_in opt ALLOWED_OPTIMIZER_METHOD_TP) = _ |- _ => rename K into A end.
  destruct (str_in opt ALLOWED_OPTIMIZER_METHOD_TP) eqn:E; [|discriminate A]. apply Ho. unfold str_in in E. apply existsb_exists in E as (y & I & Q).
  apply String.eqb_eq in Q. now subst.
Qed.
End Any.
