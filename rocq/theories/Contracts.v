(** The contracts of the numerical libraries can be met (so theorems that assume them are not vacuous). *)
From Verif Require Import Base Num CovSpec.
From Coq Require Import List Reals ClassicalEpsilon.
Set Implicit Arguments.

Section Choice.
Variable (P : nat -> list (list R) -> list (list R) -> Prop).
Definition choose (a : list (list R)) : res (list (list R)) :=
  match excluded_middle_informative (exists b, P (List.length a) a b) with
  | Coq.Init.Specif.left H => Ok (proj1_sig (constructive_indefinite_description _ H))
  | Coq.Init.Specif.right _ => Raise LinAlgError
  end.
Lemma choose_spec n a : List.length a = n ->
  ((exists b, P n a b) -> exists b, choose a = Ok b /\ P n a b) /\ (~ (exists b, P n a b) -> choose a = Raise LinAlgError).
Proof.
  intros <-. unfold choose. destruct (excluded_middle_informative _) as [H|H].
  - split; [|tauto]. intros _. destruct (constructive_indefinite_description _ H) as [b Hb]. cbn. eauto.
  - split; [tauto|reflexivity].
Qed.
End Choice.
Definition some_inv : list (list R) -> res (list (list R)) := choose (fun n a b => is_inverse n a b).
Definition some_chol : list (list R) -> res (list (list R)) := choose (fun n a b => is_cholesky n a b).
Lemma some_inv_ok : inv_contract some_inv.
Proof. intros n a [L _]. now apply choose_spec. Qed.
Lemma some_chol_ok : chol_contract some_chol.
Proof. intros n a [L _] _. now apply choose_spec. Qed.
