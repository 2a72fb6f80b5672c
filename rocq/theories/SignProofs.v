(** Log-determinants with a non-positive sign in the likelihoods. *)
From Verif Require Import Base Num UtilsModel HypsModel CovModel GPModel LikModel.
From Coq Require Import List ZArith Bool String FunctionalExtensionality.
Import ListNotations.
Local Open Scope string_scope.

(** [sd'] reports the determinant 1 (log 0) where the sign of [sd] is not positive, and agrees with [sd] elsewhere *)
Definition corrected (N : Num) (sd sd' : list (list N) -> N * N) : Prop :=
  forall c, if nle N (fst (sd c)) (nofZ N 0) then nle N (fst (sd' c)) (nofZ N 0) = false /\ snd (sd' c) = nofZ N 0 else sd' c = sd c.

Lemma logdet_corrected (N : Num) sd sd' : corrected N sd sd' -> @logdet_term N sd = @logdet_term N sd'.
Proof.
  intros H. apply functional_extensionality. intros c. specialize (H c). unfold logdet_term. destruct (sd c) as [g v], (sd' c) as [g' v']. cbn [fst snd] in H.
  destruct (nle N g (nofZ N 0)) eqn:E; [destruct H as [-> ->]; reflexivity|]. injection H as -> ->. now rewrite E.
Qed.
Lemma ml_corrected (N : Num) nexp nlog npi inv chol cho_solve sd sd' X Y th cov p ard fx ch ug : corrected N sd sd' ->
  @neg_log_ml N nexp nlog npi inv chol cho_solve sd X Y th cov p ard fx ch ug = @neg_log_ml N nexp nlog npi inv chol cho_solve sd' X Y th cov p ard fx ch ug.
Proof. intros H. unfold neg_log_ml. rewrite (logdet_corrected _ _ _ H). reflexivity. Qed.
Lemma tp_ml_corrected (N : Num) nexp nlog npi inv sd sd' gamma digamma X Y th cov p ard fx ug : corrected N sd sd' ->
  @tp_neg_log_ml N nexp nlog npi inv sd gamma digamma X Y th cov p ard fx ug = @tp_neg_log_ml N nexp nlog npi inv sd' gamma digamma X Y th cov p ard fx ug.
Proof. intros H. unfold tp_neg_log_ml. rewrite (logdet_corrected _ _ _ H). reflexivity. Qed.
