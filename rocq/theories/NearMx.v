(** Bounds on predictions in matrix form: Cauchy-Schwarz for definite matrices, and the change of
    the mean and the variance between two inputs. *)
From Verif Require Import Base Num UtilsSpec HypsModel CovModel KernelSpec CovSpec PSD RStruct MatLib GPModel GPSpec GPProofs GPMx PredMx.
From Coq Require Import Reals Lra Lia.
From mathcomp Require Import all_ssreflect perm all_algebra.
Set Implicit Arguments.
Unset Strict Implicit.
Unset Printing Implicit Defensive.
Import GRing.Theory.
Delimit Scope R_scope with coqR.
Local Open Scope ring_scope.

Lemma discriminant (a b c : R) : (forall s : R, Rle 0 (a - 2 * s * b + s * s * c)%coqR) -> Rle (b * b)%coqR (a * c)%coqR.
Proof.
move=> H. have Ha := H 0%coqR. have H1 := H 1%coqR. have H2 := H (-1)%coqR.
case: (Rtotal_order c 0) => [Hc|[Hc|Hc]].
- exfalso. pose y := ((1 + Rabs a + Rabs b * 2) / - c)%coqR. pose s := (1 + y)%coqR.
  have P : (0 < y)%coqR. { apply: Rdiv_lt_0_compat; last by lra. have := Rabs_pos a. have := Rabs_pos b. lra. }
  have Q : (y * c = - (1 + Rabs a + Rabs b * 2))%coqR by rewrite /y; field; lra.
  have := H s. have := Rle_abs a. have := Rle_abs (- b)%coqR. rewrite Rabs_Ropp. have := Rabs_pos a. have := Rabs_pos b.
  rewrite /s. move: (Rabs a) (Rabs b) Q => A B Q HB HA Hb Ha' G.
  have E : ((1 + y) * (1 + y) * c = (1 + y) * (c + y * c))%coqR by ring.
  rewrite E Q in G. have : (- (1 + y) * b <= (1 + y) * B)%coqR by nra. have : (0 <= (1 + y) * A - A)%coqR by nra. nra.
- subst c. case: (Req_dec b 0) => [-> | Nb]; first by lra.
  have := H ((a + 1) / (2 * b))%coqR. have -> : (a - 2 * ((a + 1) / (2 * b)) * b + (a + 1) / (2 * b) * ((a + 1) / (2 * b)) * 0 = - 1)%coqR by field. lra.
- have := H (b / c)%coqR. have -> : (a - 2 * (b / c) * b + b / c * (b / c) * c = a - b * b / c)%coqR by field; lra. move=> G.
  have : (b * b / c * c <= a * c)%coqR by apply: Rmult_le_compat_r; lra. have -> : (b * b / c * c = b * b)%coqR by field; lra. by [].
Qed.

Lemma qfZ n (A : 'M[R]_n) (s : R) v : qf A (s *: v) = s * s * qf A v.
Proof. by rewrite /qf trZ -!scalemxAl -scalemxAr !mxE mulrA. Qed.
Lemma bilZ n (A : 'M[R]_n) (s : R) (u v : 'cV[R]_n) : (u^T *m A *m (s *: v)) 0 0 = s * (u^T *m A *m v) 0 0.
Proof. by rewrite -scalemxAr mxE. Qed.
Lemma cs_form n (A : 'M[R]_n) u v : A^T = A -> psdm A ->
  Rle ((u^T *m A *m v) 0 0 * (u^T *m A *m v) 0 0) (qf A u * qf A v).
Proof.
move=> S P. apply: discriminant => s. have := P (u - s *: v). rewrite (qfB _ _ S) qfZ bilZ mulr2n.
move: (qf A u) (qf A v) ((u^T *m A *m v) 0 0) => a c b H. toR. apply: (Rle_trans _ _ _ H). apply: Req_le. toR. ring.
Qed.
Lemma psd_one n : psdm (1%:M : 'M[R]_n).
Proof. move=> v. rewrite qf_scalar mul1r. exact: dot_self_ge0. Qed.
Lemma cs_dot n (u v : 'cV[R]_n) : Rle (dot u v * dot u v) (dot u u * dot v v).
Proof.
have := @cs_form n 1%:M u v (tr_scalar_mx _ _) (@psd_one n). rewrite !qf_scalar !mul1r mulmx1. by [].
Qed.

Section GP.
Context {T : Type} (K : T -> T -> R) (Ksym : forall a b, K a b = K b a) (Kpsd : psd K).
Variables (n : nat) (x : nat -> T) (t : R).
Hypothesis tpos : 0 <R t.
Let A := gram K n x t.
Let SA : A^T = A. Proof. exact: gram_sym. Qed.
Let PA : pd A. Proof. exact: gram_pd. Qed.
Let SI : (invmx A)^T = invmx A. Proof. exact: inv_sym. Qed.
Lemma inv_psd : psdm (invmx A).
Proof. move=> v. exact: qf_inv_ge0. Qed.

Lemma inv_le (r : 'cV[R]_n) : Rle (t * qf (invmx A) r) (dot r r).
Proof.
set w := invmx A *m r. set q := qf (invmx A) r.
have Eq : q = dot w r by rewrite /q /qf /dot /w trmx_mul SI.
have Ea : q = qf A w by rewrite /w qf_inv // ; exact: pd_unit.
have L : Rle (t * dot w w) q. { rewrite Ea /A /gram qfD qf_scalar. have := kmx_psd Kpsd x w. move: (qf _ _) (dot w w) => a b H. lraR. }
have C := cs_dot w r. rewrite -Eq in C. have Q0 : 0 <=R q by exact: inv_psd.
have D0 := dot_self_ge0 r. have W0 := dot_self_ge0 w.
move: q (dot w w) (dot r r) L C Q0 D0 W0 {Eq Ea} => q a b L C Q0 D0 W0. move: C L. toR => C L.
move: tpos Q0 D0 W0. toR => tp Q0 D0 W0.
case: (Rle_lt_or_eq_dec 0 q Q0) => [Qp|<-]; last by lra.
apply: (Rmult_le_reg_r q) => //. nra.
Qed.

Lemma gap_le z z' : Rle (qf (invmx A) (kvec K n x z - kvec K n x z')) (K z z - 2 * K z z' + K z' z')%coqR.
Proof.
pose f (i : nat) := if i is O then z else z'.
have H := @pcovmx_psd _ _ Ksym Kpsd n x t 2 f tpos (\col_i (if val i is O then 1 else -1)).
rewrite qfE !big_ord_recl !big_ord0 /= !mxE /= (pcov_sym Ksym n x t z' z) /pcov !(weights_dot Ksym) -/A in H. move: H.
rewrite (qfB _ _ SI) mulr2n /qf.
move: (_ 0 0) (_ 0 0) (_ 0 0) => a b c. toR. move=> H. lra.
Qed.

Lemma pmean_bil r z : pmean0 K n x t r z = ((kvec K n x z)^T *m invmx A *m colof n r) 0 0.
Proof. by rewrite /pmean0 (weights_dot Ksym). Qed.
Lemma pmean_move r z z' :
  let e := (pmean0 K n x t r z - pmean0 K n x t r z')%coqR in
  Rle (t * (e * e))%coqR ((K z z - 2 * K z z' + K z' z') * dot (colof n r) (colof n r))%coqR.
Proof.
rewrite /= !pmean_bil. set u := kvec K n x z. set v := kvec K n x z'. set c := colof n r.
have -> : Rminus ((u^T *m invmx A *m c) 0 0)%R ((v^T *m invmx A *m c) 0 0)%R = ((u - v)^T *m invmx A *m c) 0 0.
  by rewrite trB !mulmxBl !mxE.
have C := cs_form (u - v) c SI inv_psd. have G := gap_le z z'. have L := inv_le c. have D0 := dot_self_ge0 c.
have Q0 := inv_psd c. have U0 := inv_psd (u - v).
rewrite -/u -/v in G. move: (_ 0 0) (qf _ c) (qf _ (u - v)) (dot c c) C G L D0 Q0 U0 => b q p D. move: (K z z) (K z z') (K z' z') tpos => k1 k2 k3. toR => tp C G L D0 Q0 U0. 
apply: (Rle_trans _ (t * (p * q))); first by apply: Rmult_le_compat_l; lra.
apply: (Rle_trans _ (p * D)); first by nra. apply: Rmult_le_compat_r; lra.
Qed.
Lemma pmean_size r z : let e := pmean0 K n x t r z in Rle (t * (e * e))%coqR (K z z * dot (colof n r) (colof n r))%coqR.
Proof.
rewrite /= !pmean_bil. set u := kvec K n x z. set c := colof n r.
have C := cs_form u c SI inv_psd. have G := pcov_ge0 Ksym Kpsd n x z tpos. rewrite /pcov (weights_dot Ksym) -/A -/u in G.
have L := inv_le c. have D0 := dot_self_ge0 c. have Q0 := inv_psd c. have U0 := inv_psd u. rewrite -/(qf (invmx A) u) in G.
move: (_ 0 0) (qf _ u) (qf _ c) (dot c c) (K z z) C G L D0 Q0 U0 tpos => b p q D k1. toR => C G L D0 Q0 U0 tp. 
apply: (Rle_trans _ (t * (p * q))); first by apply: Rmult_le_compat_l; lra.
apply: (Rle_trans _ (p * D)); first by nra. apply: Rmult_le_compat_r; lra.
Qed.

(** covariances of the posterior satisfy Cauchy-Schwarz, hence the change of the variance *)
Lemma pcov_cs z z' : Rle (pcov K n x t z z' * pcov K n x t z z') (pcov K n x t z z * pcov K n x t z' z').
Proof.
pose f (i : nat) := if i is O then z else z'. apply: discriminant => s.
have := @pcovmx_psd _ _ Ksym Kpsd n x t 2 f tpos (\col_i (if val i is O then 1 else - s)).
rewrite qfE !big_ord_recl !big_ord0 /= !mxE /=. rewrite (pcov_sym Ksym n x t z' z).
move: (pcov _ _ _ _ _ _) (pcov _ _ _ _ _ _) (pcov _ _ _ _ _ _) => a b c. toR. move=> H. lra.
Qed.
Lemma pcov_gap z z' : Rle (pcov K n x t z z - 2 * pcov K n x t z z' + pcov K n x t z' z')%coqR (K z z - 2 * K z z' + K z' z')%coqR.
Proof.
have := inv_psd (kvec K n x z - kvec K n x z'). rewrite (qfB _ _ SI) mulr2n /qf /pcov !(weights_dot Ksym) -/A.
move: (_ 0 0) (_ 0 0) (_ 0 0) => a b c. toR. move=> H. lra.
Qed.
End GP.
