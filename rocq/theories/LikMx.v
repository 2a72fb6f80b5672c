(** Determinants and derivatives of matrix functions over the standard library reals. *)
From Verif Require Import Base Num UtilsSpec HypsModel CovModel KernelSpec CovSpec RStruct MatLib GPMx LikSpec.
From Coq Require Import Reals Lra Lia.
From mathcomp Require Import all_ssreflect perm all_algebra.
Set Implicit Arguments.
Unset Strict Implicit.
Unset Printing Implicit Defensive.
Import GRing.Theory.
Delimit Scope R_scope with coqR.
Local Open Scope ring_scope.

(** ** the determinant of the specification *)
Lemma pow_exp (x : R) k : (x ^ k)%coqR = x ^+ k.
Proof. elim: k => [|k IH] //=. by rewrite exprS IH. Qed.
Lemma m1E : (-1)%coqR = (-1 : R). Proof. by []. Qed.
Lemma det_funE n (a : nat -> nat -> R) : det_fun n a = \det (\matrix_(i < n, j < n) a i j).
Proof.
elim: n a => [|n IH] a; first by rewrite det_mx00.
rewrite (expand_det_row _ ord0).
etransitivity; first exact: (Rsum_big (fun j => (a 0%nat j * ((-1) ^ j * det_fun n (fun i k => a i.+1 (if PeanoNat.Nat.ltb k j then k else k.+1))))%coqR) n.+1).
apply: eq_bigr => j _. rewrite mxE IH. congr (_ * _). rewrite /cofactor pow_exp m1E /= add0n. congr (_ * _). congr (\det _).
apply/matrixP=> i k. rewrite !mxE lift0 /=. congr (a _ _).
rewrite /bump. case: PeanoNat.Nat.ltb_spec => [/ltP H|/leP H]; first by rewrite leqNgt H.
by rewrite H.
Qed.
Lemma detE n c : det n c = \det (mxof n n c).
Proof. exact: det_funE. Qed.

Lemma det_chol n (C L : list (list R)) : is_cholesky n C L ->
  det n C = (\prod_(i < n) at_ L i i) * (\prod_(i < n) at_ L i i) /\ 0 <R \prod_(i < n) at_ L i i.
Proof.
move=> [SL [TL [PL EL]]].
have E : mxof n n C = mxof n n L *m (mxof n n L)^T.
  apply/matrixP=> i j. rewrite mxE EL; try exact/ltP. rewrite mxE Rsum_big. apply: eq_bigr => k _. by rewrite !mxE.
have D : \det (mxof n n L) = \prod_(i < n) at_ L i i.
  rewrite det_trig. by apply: eq_bigr => i _; rewrite mxE.
  apply/is_trig_mxP => i j H. rewrite mxE. apply: TL; try exact/ltP.
split; first by rewrite detE E det_mulmx det_tr D.
apply: (big_ind (fun x => 0 <R x)) => [|x y A B|i _]; first exact: Rlt_0_1.
- exact: Rmult_lt_0_compat.
- apply: PL. exact/ltP.
Qed.
Lemma ln_prod n (f : nat -> R) : (forall i, lt i n -> 0 <R f i) -> ln (\prod_(i < n) f i) = \sum_(i < n) ln (f i).
Proof.
elim: n => [|n IH] H; first by rewrite !big_ord0; exact: ln_1.
rewrite !big_ord_recr /=.
have P : 0 <R \prod_(i < n) f i.
  apply: (big_ind (fun x => 0 <R x)) => [|x y A B|i _]; first exact: Rlt_0_1.
  - exact: Rmult_lt_0_compat.
  - apply: H. apply/ltP. exact: ltn_trans (ltn_ord i) (ltnSn n).
rewrite mulE ln_mult //; last by apply: H.
rewrite IH // => i Hi. apply: H. by apply: PeanoNat.Nat.lt_lt_succ_r.
Qed.
Lemma ln_det_chol n C L : is_cholesky n C L ->
  0 <R det n C /\ ln (det n C) = (2 * Rsum (List.map (fun i => ln (at_ L i i)) (List.seq 0 n)))%coqR.
Proof.
move=> H. have [E P] := det_chol H. split; first by rewrite E; exact: Rmult_lt_0_compat.
have [_ [_ [PL _]]] := H.
rewrite E mulE ln_mult // Rsum_big -(@ln_prod n (fun i => at_ L i i) PL). by move: (ln _) => p; lraR.
Qed.
Lemma det_definite_pos n C : CovSpec.symmetric n C -> definite n C -> 0 <R det n C.
Proof. move=> Y D. have [L HL] := definite_cholesky Y D. exact: (ln_det_chol HL).1. Qed.
