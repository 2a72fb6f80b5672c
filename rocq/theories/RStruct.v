(** The standard library reals as a field of the mathematical components library, so that its matrix
    theory applies.  Choice on R comes from [ClassicalEpsilon] (standard library). *)
From Coq Require Import Reals ClassicalEpsilon.
From mathcomp Require Import ssreflect ssrfun ssrbool eqtype ssrnat choice seq fintype bigop ssralg.
Set Implicit Arguments.
Unset Strict Implicit.
Unset Printing Implicit Defensive.
Import GRing.Theory.

Definition eqr (x y : R) : bool := if Req_EM_T x y then true else false.
Lemma eqrP : Equality.axiom eqr.
Proof. by move=> x y; apply: (iffP idP); rewrite /eqr; case: Req_EM_T. Qed.
Canonical R_eqType := EqType R (EqMixin eqrP).

Lemma inhR : inhabited R. Proof. exact: (inhabits R0). Qed.
Definition pickR (P : pred R) (n : nat) : option R := let x := epsilon inhR P in if P x then Some x else None.
Lemma pickR_some P n x : pickR P n = Some x -> P x.
Proof. by rewrite /pickR; case E : (P _) => //; case=> <-. Qed.
Lemma pickR_ex (P : pred R) : (exists x : R, P x) -> exists n, pickR P n.
Proof. by move=> E; exists 0; rewrite /pickR; have -> := epsilon_spec inhR P E. Qed.
Lemma pickR_ext (P Q : pred R) : P =1 Q -> pickR P =1 pickR Q.
Proof.
move=> PQ n; rewrite /pickR.
have -> : epsilon inhR (fun x : R => P x) = epsilon inhR (fun x : R => Q x); last by rewrite PQ.
congr (epsilon _ _). apply: FunctionalExtensionality.functional_extensionality => x. by rewrite PQ.
Qed.
Definition R_choiceMixin : choiceMixin R := Choice.Mixin pickR_some pickR_ex pickR_ext.
Canonical R_choiceType := ChoiceType R R_choiceMixin.

Lemma RplusA : associative Rplus. Proof. by move=> x y z; rewrite Rplus_assoc. Qed.
Definition R_zmodMixin := ZmodMixin RplusA Rplus_comm Rplus_0_l Rplus_opp_l.
Canonical R_zmodType := ZmodType R R_zmodMixin.

Lemma RmultA : associative Rmult. Proof. by move=> x y z; rewrite Rmult_assoc. Qed.
Lemma RmultDl : left_distributive Rmult Rplus. Proof. by move=> x y z; rewrite Rmult_plus_distr_r. Qed.
Lemma R1_neq0 : R1 != R0. Proof. by apply/eqP; exact: R1_neq_R0. Qed.
Definition R_ringMixin := ComRingMixin RmultA Rmult_comm Rmult_1_l RmultDl R1_neq0.
Canonical R_ringType := RingType R R_ringMixin.
Canonical R_comRingType := ComRingType R Rmult_comm.

Definition Rinvx (x : R) : R := if x != 0%R then Rinv x else x.
Lemma RmultRinvx : forall x : R, x != 0%R -> Rmult (Rinvx x) x = 1%R.
Proof. by move=> x H; rewrite /Rinvx H; apply: Rinv_l; apply/eqP. Qed.
Lemma Rinvx_out : Rinvx 0%R = 0%R. Proof. by rewrite /Rinvx eqxx. Qed.
Definition R_fieldUnitMixin := FieldUnitMixin RmultRinvx Rinvx_out.
Canonical R_unitRingType := UnitRingType R R_fieldUnitMixin.
Canonical R_comUnitRingType := Eval hnf in [comUnitRingType of R].
Lemma R_fieldMixin : GRing.Field.mixin_of [unitRingType of R]. Proof. by done. Qed.
Definition R_idomainMixin := FieldIdomainMixin R_fieldMixin.
Canonical R_idomainType := IdomainType R R_idomainMixin.
Canonical R_fieldType := FieldType R R_fieldMixin.

Lemma RinvE (x : R) : x <> 0%R -> (x^-1)%R = Rinv x :> R.
Proof. by move=> H; rewrite /GRing.inv /= /Rinvx; case: eqP. Qed.
