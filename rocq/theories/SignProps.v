(** C36, continued: a determinant whose reported sign is not positive counts as 1 (gp_likelihood.py:99-104, tp_likelihood.py:84-91). *)
From Verif Require Import Base Num UtilsModel HypsModel CovModel GPModel LikModel SignProofs.
From Coq Require Import List ZArith Bool String Reals Lra.
From Flocq Require Import Core.
Import ListNotations.
Local Open Scope string_scope.

(** for every arithmetic: the likelihood is the one obtained from a routine that reports sign 1 and logarithm 0 there *)
Theorem C36_sign : forall (N : Num) nexp nlog npi inv chol cho_solve slogdet slogdet' X Y th cov p ard fx ch ug, corrected N slogdet slogdet' ->
  @neg_log_ml N nexp nlog npi inv chol cho_solve slogdet X Y th cov p ard fx ch ug = @neg_log_ml N nexp nlog npi inv chol cho_solve slogdet' X Y th cov p ard fx ch ug.
Proof. exact ml_corrected. Qed.
Print Assumptions C36_sign.
Theorem C36_sign_tp : forall (N : Num) nexp nlog npi inv slogdet slogdet' gamma digamma X Y th cov p ard fx ug, corrected N slogdet slogdet' ->
  @tp_neg_log_ml N nexp nlog npi inv slogdet gamma digamma X Y th cov p ard fx ug = @tp_neg_log_ml N nexp nlog npi inv slogdet' gamma digamma X Y th cov p ard fx ug.
Proof. exact tp_ml_corrected. Qed.
Print Assumptions C36_sign_tp.
(** sign -1 and logarithm 7 for one-row arrays, sign 1 and logarithm 3 otherwise *)
Example C36_sign_example : corrected NumR (fun c => match c with [_] => (-1, 7) | _ => (1, 3) end)%R (fun c => match c with [_] => (1, 0) | _ => (1, 3) end)%R.
Proof.
  intros [|a [|b l]]; cbn [fst snd].
  - replace (nle NumR 1%R (nofZ NumR 0)) with false; [reflexivity|]. symmetry. apply Raux.Rle_bool_false. cbn. lra.
  - replace (nle NumR (-1)%R (nofZ NumR 0)) with true; [|symmetry; apply Raux.Rle_bool_true; cbn; lra]. split; [apply Raux.Rle_bool_false; cbn; lra|reflexivity].
  - replace (nle NumR 1%R (nofZ NumR 0)) with false; [reflexivity|]. symmetry. apply Raux.Rle_bool_false. cbn. lra.
Qed.
