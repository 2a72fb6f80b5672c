(** Property C111: the order of the observations does not matter for the likelihoods.  Exact real arithmetic. *)
From Verif Require Import Base Num UtilsSpec HypsModel CovModel KernelSpec CovSpec CovProps GPModel GPSpec GPProofs2 Contracts GPProps
  LikModel LikSpec LikProofs2 LikProps GradSpec OrderProofs OrderRef.
From Coq Require Import List ZArith Bool String Reals Lra Lia Arith Permutation.
Import ListNotations.
Open Scope R_scope.
Local Open Scope string_scope.
Unset Asymmetric Patterns.
Set Bullet Behavior "Strict Subproofs".

(** the Gaussian likelihood computed with the inverse *)
Theorem C111_inverse : forall name h d ls s nz K X p Y q th ard fx inv chol cho_solve slogdet ug,
  fits name X d -> has_hyps h d ls s nz -> cov_of name ls s d = Some K -> Permutation p (seq 0 (alen X)) ->
  column (alen X) Y -> column (alen X) q -> inv_contract inv -> slogdet_contract slogdet ->
  @restore_hyps NumR name th true ard fx (GP_NOISE NumR) = Ok h ->
  @neg_log_ml NumR exp ln PI inv chol cho_solve slogdet (take_rows X p) (take_out Y p) th name (take_out q p) ard fx false ug
  = @neg_log_ml NumR exp ln PI inv chol cho_solve slogdet X Y th name q ard fx false ug.
Proof.
  intros name h d ls s nz K X p Y q th ard fx inv chol cho_solve slogdet ug F HH HK HP HY Hq.
  exact (@ml_perm name h d ls s nz K X F HH HK p HP Y q th ard fx inv chol cho_solve slogdet ug HY Hq).
Qed.
Print Assumptions C111_inverse.
(** the Student-t likelihood *)
Theorem C111_student : forall name h d ls s nz K X p Y q th ard fx inv slogdet gamma digamma nu,
  fits name X d -> has_hyps h d ls s nz -> cov_of name ls s d = Some K -> Permutation p (seq 0 (alen X)) ->
  column (alen X) Y -> column (alen X) q -> inv_contract inv -> slogdet_contract slogdet ->
  @restore_hyps NumR name th false ard fx (GP_NOISE NumR) = Ok h -> dget h "dof" = Some (PFloat NumR nu) ->
  @tp_neg_log_ml NumR exp ln PI inv slogdet gamma digamma (take_rows X p) (take_out Y p) th name (take_out q p) ard fx false
  = @tp_neg_log_ml NumR exp ln PI inv slogdet gamma digamma X Y th name q ard fx false.
Proof.
  intros name h d ls s nz K X p Y q th ard fx inv slogdet gamma digamma nu F HH HK HP HY Hq.
  exact (@tml_perm name h d ls s nz K X F HH HK p HP Y q th ard fx inv slogdet gamma digamma nu HY Hq).
Qed.
Print Assumptions C111_student.
(** the leave-one-out pseudo-likelihood *)
Theorem C111_leave_one_out : forall name h d ls s nz K X p Y q th fx inv,
  fits name X d -> has_hyps h d ls s nz -> cov_of name ls s d = Some K -> Permutation p (seq 0 (alen X)) ->
  column (alen X) Y -> column (alen X) q -> inv_contract inv ->
  @restore_hyps NumR name th true true fx (GP_NOISE NumR) = Ok h ->
  @neg_log_pseudo_l_loocv NumR exp ln PI inv (take_rows X p) (take_out Y p) th name (take_out q p) fx
  = @neg_log_pseudo_l_loocv NumR exp ln PI inv X Y th name q fx.
Proof.
  intros name h d ls s nz K X p Y q th fx inv F HH HK HP HY Hq.
  exact (@loocv_perm name h d ls s nz K X F HH HK p HP Y q th fx inv HY Hq).
Qed.
Print Assumptions C111_leave_one_out.
(** the default computation: the values are close ... *)
Theorem C111_default_partial : forall name h d ls s nz K X p Y q th ard fx inv chol cho_solve slogdet ug ug' v g v' g',
  fits name X d -> has_hyps h d ls s nz -> cov_of name ls s d = Some K -> Permutation p (seq 0 (alen X)) ->
  column (alen X) Y -> column (alen X) q -> chol_contract chol -> cho_solve_contract cho_solve -> (0 < alen X)%nat ->
  @restore_hyps NumR name th true ard fx (GP_NOISE NumR) = Ok h ->
  @neg_log_ml NumR exp ln PI inv chol cho_solve slogdet X Y th name q ard fx true ug = Ok (v, g) ->
  @neg_log_ml NumR exp ln PI inv chol cho_solve slogdet (take_rows X p) (take_out Y p) th name (take_out q p) ard fx true ug' = Ok (v', g') ->
  Rabs (v' - v) <= / 10000000 / sqrt (jitter_cov + nz * nz).
Proof.
  intros name h d ls s nz K X p Y q th ard fx inv chol cho_solve slogdet ug ug' v g v' g' F HH HK HP HY Hq HC HS Hn.
  exact (@mlc_near name h d ls s nz K X F HH HK p HP Y q th ard fx inv some_inv some_inv_ok chol cho_solve slogdet ug ug' v g v' g' HY Hq HC HS (ssrbool.introT ssrnat.ltP Hn)).
Qed.
Print Assumptions C111_default_partial.
(** ... but not equal *)
Theorem C111_default_refuted : exists name X Y q th p,
  fits name X 1 /\ column (alen X) Y /\ column (alen X) q /\ Permutation p (seq 0 (alen X)) /\
  forall inv chol cho_solve slogdet, chol_contract chol -> cho_solve_contract cho_solve ->
  exists v v', @neg_log_ml NumR exp ln PI inv chol cho_solve slogdet X Y th name q true false true false = Ok (v, None) /\
    @neg_log_ml NumR exp ln PI inv chol cho_solve slogdet (take_rows X p) (take_out Y p) th name (take_out q p) true false true false = Ok (v', None) /\
    v' <> v.
Proof.
  exists "se", ord_X, ord_Y, ord_q, ord_th, ord_p. split; [exact ord_fits|]. split; [exact ord_column_Y|]. split; [exact ord_column_q|].
  split; [exact ord_perm|]. exact order_matters.
Qed.
Print Assumptions C111_default_refuted.
(** the data of C36's example in reverse order *)
Example C111_example : Permutation [2; 1; 0]%nat (seq 0 (alen ex_X)) /\ mrows (take_out ex_Y [2; 1; 0]%nat) = [[2]; [4]; [1]] /\
  chol_contract some_chol /\ cho_solve_contract some_cho_solve.
Proof.
  split; [|split; [reflexivity|split; [exact some_chol_ok|exact some_cho_solve_ok]]].
  change (seq 0 (alen ex_X)) with (rev [2; 1; 0]%nat). apply Permutation_rev.
Qed.
