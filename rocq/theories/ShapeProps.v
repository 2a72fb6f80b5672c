(** Property C134: regression functions return only for data that fit together, and their results have the announced shapes. *)
From Verif Require Import Base Num NumFin HypsModel CovModel GPModel LikModel HypOptModel ShapeSpec ShapeProofs CovSpec CovProps Contracts LikSpec LikProofs2 LikProps GPSpec GPProps.
From Coq Require Import List ZArith Bool String Reals.
Import ListNotations.
Unset Asymmetric Patterns.
Local Open Scope string_scope.

(** ** C134, any numbers, any [inv], any optimiser *)
Theorem C134_gp : forall N nexp nlog npi inv chol cho_solve slogdet minimize (X : arr N) Y Xs cov_X_X inv_cov_X_X hyps str_cov optimizer prior_mu fix_noise mu sd Sigma,
  predict_with_cov nexp X Y Xs cov_X_X inv_cov_X_X hyps str_cov prior_mu = Ok (mu, sd, Sigma) \/
  predict_with_hyps nexp inv X Y Xs hyps str_cov prior_mu = Ok (mu, sd, Sigma) \/
  predict_with_optimized_hyps nexp nlog npi inv chol cho_solve slogdet minimize X Y Xs str_cov optimizer prior_mu fix_noise = Ok (mu, sd, Sigma) ->
  data_fits X Y Xs str_cov prior_mu /\ predicted (alen Xs) prior_mu mu sd Sigma.
Proof. exact gp_arrays. Qed.
Print Assumptions C134_gp.
Theorem C134_tp : forall N nexp nlog npi inv slogdet gamma digamma minimize (X : arr N) Y Xs cov_X_X inv_cov_X_X hyps str_cov optimizer prior_mu fix_noise nu mu sd Sigma,
  tp_predict_with_cov nexp X Y Xs cov_X_X inv_cov_X_X hyps str_cov prior_mu = Ok (nu, mu, sd, Sigma) \/
  tp_predict_with_hyps nexp inv X Y Xs hyps str_cov prior_mu = Ok (nu, mu, sd, Sigma) \/
  tp_predict_with_optimized_hyps nexp nlog npi inv slogdet gamma digamma minimize X Y Xs str_cov optimizer prior_mu fix_noise = Ok (nu, mu, sd, Sigma) ->
  data_fits X Y Xs str_cov prior_mu /\ predicted (alen Xs) prior_mu mu sd Sigma.
Proof. exact tp_arrays. Qed.
Print Assumptions C134_tp.
Theorem C134_kernels : forall N nexp nlog npi inv chol cho_solve slogdet gamma digamma minimize (X : arr N) Y prior_mu str_cov optimizer modelselection use_ard fix_noise
    cov_X_X inv_cov_X_X hyps,
  get_optimized_kernel nexp nlog npi inv chol cho_solve slogdet minimize X Y prior_mu str_cov optimizer modelselection use_ard fix_noise = Ok (cov_X_X, inv_cov_X_X, hyps) \/
  tp_get_optimized_kernel nexp nlog npi inv slogdet gamma digamma minimize X Y prior_mu str_cov optimizer use_ard fix_noise = Ok (cov_X_X, inv_cov_X_X, hyps) ->
  training_fits X Y str_cov /\ is_array (alen X) (alen X) cov_X_X /\ inv cov_X_X = Ok inv_cov_X_X.
Proof. exact kernel_arrays. Qed.
Print Assumptions C134_kernels.
Theorem C134_likelihoods : forall N nexp nlog npi inv chol cho_solve slogdet gamma digamma (X : arr N) Y hyps str_cov prior_mu_train use_ard fix_noise use_cholesky use_gradient r v,
  neg_log_ml nexp nlog npi inv chol cho_solve slogdet X Y hyps str_cov prior_mu_train use_ard fix_noise use_cholesky use_gradient = Ok r \/
  tp_neg_log_ml nexp nlog npi inv slogdet gamma digamma X Y hyps str_cov prior_mu_train use_ard fix_noise use_gradient = Ok r \/
  neg_log_pseudo_l_loocv nexp nlog npi inv X Y hyps str_cov prior_mu_train fix_noise = Ok v ->
  training_fits X Y str_cov /\ nrows prior_mu_train = nrows Y.
Proof. exact likelihood_checks. Qed.
Print Assumptions C134_likelihoods.
(** a prediction that is returned, and data that are rejected: two prior means for three inputs *)
Example C134_example : exists mu sd S, @predict_with_hyps NumR exp some_inv ex_X ex_Y ex_X ex_hyps "matern52" ex_prior = Ok (mu, sd, S) /\
  prior_returns_arrays ex_prior /\ alen ex_X = 3%nat.
Proof.
  destruct C33_example as (mu & sd & S & C & B & E & _). exists mu, sd, S. split; [exact E|]. split; [|reflexivity].
  intros X p H. unfold ex_prior in H. injection H as <-. intros r Hr. apply in_map_iff in Hr as (e & <- & _). reflexivity.
Qed.
Example C134_rejected : forall hyps, @neg_log_ml NumR exp ln PI some_inv some_chol some_cho_solve some_slogdet ex_X ex_Y hyps "matern52" (mkmat [[0%R]; [0%R]] 1) true true true false = Raise AssertionError.
Proof. reflexivity. Qed.
