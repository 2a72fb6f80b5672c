(** Properties C93 and C95 for the default (Cholesky) computation of the likelihood.  Exact real arithmetic. *)
From Verif Require Import Base Num UtilsSpec HypsModel CovModel KernelSpec CovSpec CovProps GPModel GPSpec Contracts GPProps
  LikModel LikSpec LikProofs2 LikProps PredSpec PredProofs PredProps PredChol PredCholSeq.
From Coq Require Import List ZArith Bool String Reals Lra Lia Arith Permutation.
Import ListNotations.
Open Scope R_scope.
Local Open Scope string_scope.
Unset Asymmetric Patterns.
Set Bullet Behavior "Strict Subproofs".

(** ** C93: units of the inputs *)
Theorem C93_likelihood_default : forall name h h' d ls ls' s nz K K' pm pm' m m' inv p sc tr X Y q th th' ard ard' fx fx' chol cho_solve slogdet ug ug' v g v' g',
  regression name h d ls s nz K pm m -> regression name h' d ls' s nz K' pm' m' -> chol_contract chol -> cho_solve_contract cho_solve ->
  Permutation p (seq 0 d) -> (forall i, (i < d)%nat -> sc i <> 0) -> recoord_ls d p sc ls ls' -> ls_nonzero ls d ->
  fits name X d -> column (alen X) Y -> column (alen X) q -> (0 < alen X)%nat ->
  @restore_hyps NumR name th true ard fx (GP_NOISE NumR) = Ok h ->
  @restore_hyps NumR name th' true ard' fx' (GP_NOISE NumR) = Ok h' ->
  @neg_log_ml NumR exp ln PI inv chol cho_solve slogdet X Y th name q ard fx true ug = Ok (v, g) ->
  @neg_log_ml NumR exp ln PI inv chol cho_solve slogdet (recoord_arr d p sc tr X) Y th' name q ard' fx' true ug' = Ok (v', g') -> v' = v.
Proof.
  intros name h h' d ls ls' s nz K K' pm pm' m m' inv p sc tr X Y q th th' ard ard' fx fx' chol cho_solve slogdet ug ug' v g v' g' RG RG' HC HS HP HSc HL HN F HY Hq Hn.
  exact (@mlc_recoord name h h' d ls ls' s nz K K' pm pm' m m' RG RG' p sc tr HP HSc HL HN X Y q th th' ard ard' fx fx' inv some_inv some_inv_ok chol cho_solve slogdet ug ug' v g v' g' F HY Hq HC HS (ssrbool.introT ssrnat.ltP Hn)).
Qed.
Print Assumptions C93_likelihood_default.

(** ** C95: one more observation.  The offset 1e-7 in the logarithms of the diagonal adds a term, below 1e-7 divided by the predicted deviation *)
Theorem C95_default : forall name h d ls s nz K pm m inv inv' X X' Xs Y Y' p p' k th ard fx chol cho_solve slogdet ug ug' mu sd S v1 g1 v2 g2,
  regression name h d ls s nz K pm m -> inv_contract inv -> chol_contract chol -> cho_solve_contract cho_solve -> (0 < alen X)%nat ->
  fits name X d -> fits name X' d -> fits name Xs d ->
  column (alen X) Y -> column (alen X') Y' -> (k < alen Xs)%nat -> elems X' = (elems X ++ [elem_nth Xs k])%list ->
  (forall i, (i < alen X)%nat -> out Y' i = out Y i) ->
  @get_prior_mu NumR pm X = Ok p -> @get_prior_mu NumR pm X' = Ok p' ->
  @restore_hyps NumR name th true ard fx (GP_NOISE NumR) = Ok h ->
  @predict_with_hyps NumR exp inv X Y Xs h name pm = Ok (mu, sd, S) ->
  @neg_log_ml NumR exp ln PI inv' chol cho_solve slogdet X Y th name p ard fx true ug = Ok (v1, g1) ->
  @neg_log_ml NumR exp ln PI inv' chol cho_solve slogdet X' Y' th name p' ard fx true ug' = Ok (v2, g2) ->
  let v := at_ S k k + nz * nz in let extra := ln (1 + / 10000000 / sqrt v) in
  0 < v /\ INR (alen X') * v2 = INR (alen X) * v1 + normal_nll (at_ mu k 0) v (out Y' (alen X)) + extra /\ 0 < extra <= / 10000000 / sqrt v.
Proof.
  intros name h d ls s nz K pm m inv inv' X X' Xs Y Y' p p' k th ard fx chol cho_solve slogdet ug ug' mu sd S v1 g1 v2 g2 RG HI HC HS Hn F F' Fs H H' Hk EX EY Ep Ep' ER E E1 E2.
  exact (@chol_chain_bound name h d ls s nz K pm m inv RG HI X X' Xs Y Y' p p' k F F' Fs H H' Hk EX EY Ep Ep' th ard fx inv' chol cho_solve slogdet ug ug' mu sd S v1 g1 v2 g2 HC HS (ssrbool.introT ssrnat.ltP Hn) ER E E1 E2).
Qed.
Print Assumptions C95_default.
Theorem C95_default_sequential : forall name h d ls s nz K pm m inv inv' X Y th ard fx chol cho_solve slogdet ug (p : nat -> mat NumR) (v : nat -> R) g mu sd S,
  regression name h d ls s nz K pm m -> inv_contract inv -> chol_contract chol -> cho_solve_contract cho_solve -> fits name X d -> column (alen X) Y ->
  @restore_hyps NumR name th true ard fx (GP_NOISE NumR) = Ok h ->
  (forall k, (1 <= k <= alen X)%nat -> @get_prior_mu NumR pm (take_rows X (seq 0 k)) = Ok (p k)) ->
  (forall k, (1 <= k <= alen X)%nat ->
     @neg_log_ml NumR exp ln PI inv' chol cho_solve slogdet (take_rows X (seq 0 k)) (take_out Y (seq 0 k)) th name (p k) ard fx true ug = Ok (v k, g k)) ->
  (forall k, (1 <= k < alen X)%nat ->
     @predict_with_hyps NumR exp inv (take_rows X (seq 0 k)) (take_out Y (seq 0 k)) (take_rows X [k]) h name pm = Ok (mu k, sd k, S k)) ->
  forall k, (1 <= k <= alen X)%nat ->
  INR k * v k = v 1%nat + Rsum (map (fun i => normal_nll (at_ (mu i) 0 0) (at_ (S i) 0 0 + nz * nz) (out Y i)
     + ln (1 + / 10000000 / sqrt (at_ (S i) 0 0 + nz * nz))) (seq 1 (k - 1))).
Proof.
  intros name h d ls s nz K pm m inv inv' X Y th ard fx chol cho_solve slogdet ug p v g mu sd S RG HI HC HS F HY.
  exact (@prequential_chol name h d ls s nz K pm m inv RG HI X Y F HY th ard fx inv' chol cho_solve slogdet ug p v g mu sd S HC HS).
Qed.
Print Assumptions C95_default_sequential.
(** both likelihoods and the predictions exist for the data of C94's example *)
Example C95_default_example : exists h p p' mu sd S v1 v2,
  @restore_hyps NumR "matern52" ex_th true true false (GP_NOISE NumR) = Ok h /\
  regression "matern52" h 2 (PArr NumR [1; 3]) 2 (1 / 10) ex_K ex_prior ex_m /\
  @get_prior_mu NumR ex_prior ex_X2 = Ok p /\ @get_prior_mu NumR ex_prior ex_X = Ok p' /\
  @predict_with_hyps NumR exp some_inv ex_X2 ex_Y2 ex_Xs h "matern52" ex_prior = Ok (mu, sd, S) /\
  @neg_log_ml NumR exp ln PI some_inv some_chol some_cho_solve some_slogdet ex_X2 ex_Y2 ex_th "matern52" p true false true false = Ok (v1, None) /\
  @neg_log_ml NumR exp ln PI some_inv some_chol some_cho_solve some_slogdet ex_X ex_Y ex_th "matern52" p' true false true false = Ok (v2, None) /\
  INR 3 * v2 = INR 2 * v1 + normal_nll (at_ mu 0 0) (at_ S 0 0 + 1 / 10 * (1 / 10)) 2 + ln (1 + / 10000000 / sqrt (at_ S 0 0 + 1 / 10 * (1 / 10))).
Proof.
  destruct C94_example as (EX & F2 & L2 & H2 & EY & O2).
  destruct (GPProofs.prior_ok ex_X2 ex_prior_ok) as (p & Ep & Hp & _). destruct (GPProofs.prior_ok ex_X ex_prior_ok) as (p' & Ep' & Hp' & _).
  assert (ER : exists h, @restore_hyps NumR "matern52" ex_th true true false (GP_NOISE NumR) = Ok h /\ has_hyps h 2 (PArr NumR [1; 3]) 2 (1 / 10))
    by (eexists; split; [reflexivity|repeat split]).
  destruct ER as (h & ER & HH).
  assert (RG : regression "matern52" h 2 (PArr NumR [1; 3]) 2 (1 / 10) ex_K ex_prior ex_m) by (split; [exact HH|reflexivity|apply ex_prior_ok]).
  destruct (C29_posterior _ _ _ _ _ _ _ _ _ _ _ _ _ RG some_inv_ok F2 ex_fits_s H2) as (mu & sd & S & E & _).
  assert (N2 : (0 < alen ex_X2)%nat) by (cbn; lia). assert (N3 : (0 < alen ex_X)%nat) by (cbn; lia).
  destruct (C36_cholesky_total _ _ _ _ _ _ _ _ _ _ ex_th true false some_inv _ _ some_slogdet F2 HH eq_refl H2 Hp some_chol_ok some_cho_solve_ok N2 ER) as (v1 & V1).
  destruct (C36_cholesky_total _ _ _ _ _ _ _ _ _ _ ex_th true false some_inv _ _ some_slogdet ex_fits HH eq_refl ex_column Hp' some_chol_ok some_cho_solve_ok N3 ER) as (v2 & V2).
  exists h, p, p', mu, sd, S, v1, v2.
  split; [exact ER|]. split; [exact RG|]. split; [exact Ep|]. split; [exact Ep'|]. split; [exact E|]. split; [exact V1|]. split; [exact V2|].
  refine (proj1 (proj2 (C95_default _ _ _ _ _ _ _ _ _ _ _ _ _ _ _ _ _ _ 0 _ _ _ _ _ _ _ _ _ _ _ _ _ _ _ RG some_inv_ok some_chol_ok some_cho_solve_ok N2 F2 ex_fits ex_fits_s H2 ex_column _ EX _ Ep Ep' ER E V1 V2))).
  - cbn. lia.
  - intros i Hi. apply EY. exact Hi.
Qed.
