(** Matrix facts: the weights of the posterior mean solve the penalised least squares problem; repeated inputs get equal
    weights. *)
From Verif Require Import Base Num UtilsSpec HypsModel CovModel KernelSpec CovSpec RStruct MatLib GPMx PredMx NearMx.
From Coq Require Import Reals Lra Lia.
From mathcomp Require Import all_ssreflect perm all_algebra.
Set Implicit Arguments.
Unset Strict Implicit.
Unset Printing Implicit Defensive.
Import GRing.Theory.
Delimit Scope R_scope with coqR.
Local Open Scope ring_scope.

Section GP.
Context {T : Type} (K : T -> T -> R) (Ksym : forall a b, K a b = K b a) (Kpsd : psd K).
Variables (n : nat) (x : nat -> T) (t : R).
Hypothesis tpos : 0 <R t.
Let G := kmx K n x.
Let A := gram K n x t.
Let SG : G^T = G. Proof. exact: kmx_sym. Qed.

Definition loss (r c : 'cV[R]_n) : R := dot (r - G *m c) (r - G *m c) + t * qf G c.
Definition coef (r : 'cV[R]_n) : 'cV[R]_n := invmx A *m r.

Lemma coef_eq r : G *m coef r + t *: coef r = r.
Proof.
rewrite -mul_scalar_mx -mulmxDl /coef mulmxA mulmxV ?mul1mx //. exact: gram_unit.
Qed.
Lemma dotB (u v : 'cV[R]_n) : dot (u - v) (u - v) = dot u u - dot u v *+ 2 + dot v v.
Proof.
have := @qfB n 1%:M u v (tr_scalar_mx _ _). by rewrite !qf_scalar !mul1r mulmx1.
Qed.
(** the loss is that of the coefficients plus that of the difference *)
Lemma loss_split r c : loss r c = loss r (coef r) + (dot (G *m (c - coef r)) (G *m (c - coef r)) + t * qf G (c - coef r)).
Proof.
set a := coef r. have E : r - G *m a = t *: a by rewrite -{1}(coef_eq r) -/a addrC addKr.
rewrite /loss E. clearbody a. have -> : r - G *m c = t *: a - G *m (c - a).
  by rewrite -E mulmxBr opprB addrA subrK.
rewrite dotB (qfB _ _ SG).
have X1 : dot (t *: a) (G *m (c - a)) = t * ((c^T *m G *m a) 0 0 - qf G a).
  rewrite dotZl. congr (_ * _). rewrite /dot mulmxBr mulmxBr !mulmxA addmxE oppmxE. congr (_ - _). exact: (bil_sym a c SG).
rewrite X1 !mulr2n. move: (dot (t *: a) _) (dot (G *m _) _) (qf G a) (qf G c) ((_ *m a) 0 0) => p q u v w. ringR.
Qed.
Lemma loss_min r c : loss r (coef r) <=R loss r c.
Proof.
rewrite (loss_split r c). have P := dot_self_ge0 (G *m (c - coef r)). have Q := kmx_psd Kpsd x (c - coef r).
move: (loss _ _) (dot _ _) (qf _ _) P Q => a b c' P Q. rewrite -/G in Q *. toR. have := Rmult_le_pos t c' (Rlt_le _ _ tpos) Q. lra.
Qed.
Lemma kvec_qf c z : (dot c (kvec K n x z) * dot c (kvec K n x z) <=R K z z * qf G c).
Proof.
have P : psdm (block_mx G (kvec K n x z) (kvec K n x z)^T ((K z z)%:M : 'M_1)).
  have C1 : kvec K n x z = cross K n 1 x (fun _ => z) by apply/matrixP=> i j; rewrite !mxE.
  have C2 : ((K z z)%:M : 'M_1) = kmx K 1 (fun _ => z) by apply/matrixP=> i j; rewrite !mxE !ord1 eqxx mulr1n.
  rewrite C1 C2. exact: joint.
have H : Rle (dot c (kvec K n x z) * dot c (kvec K n x z))%coqR (qf G c * K z z)%coqR.
  apply: discriminant => s. have := P (col_mx c ((- s)%:M : 'cV_1)). rewrite qf_block_mx qf_scalar dot1 /dot.
  rewrite -mulmxA mul_mx_scalar -scalemxAr. rewrite (_ : (- s *: (c^T *m kvec K n x z)) 0 0 = - s * (c^T *m kvec K n x z) 0 0) ?mulr2n; last by rewrite mxE. move: (qf G c) ((c^T *m _) 0 0) (K z z) => p q r Q. lraR.
move: H. move: (dot _ _) (K z z) (qf _ _) => p q r H. lraR.
Qed.
Lemma loss_unique r c z : loss r c = loss r (coef r) -> dot c (kvec K n x z) = dot (coef r) (kvec K n x z).
Proof.
rewrite (loss_split r c) => E. have P := dot_self_ge0 (G *m (c - coef r)). have Q := kmx_psd Kpsd x (c - coef r). rewrite -/G in Q.
have H := kvec_qf (c - coef r) z.
have Z : dot (c - coef r) (kvec K n x z) = 0.
  move: (loss _ _) (dot (G *m _) _) (qf G _) (dot (_ - _) (kvec _ _ _ _)) (K z z) E P Q H => a b c' w k E P Q H.
  move: E P Q H tpos. toR => E P Q H tp. have TQ := Rmult_le_pos t c' (Rlt_le _ _ tp) Q.
  have C0 : c' = 0%coqR by apply: (Rmult_eq_reg_l t); lra.
  rewrite C0 in H. nra.
have : dot (c - coef r + coef r) (kvec K n x z) = dot (coef r) (kvec K n x z) by rewrite dotDl Z add0r.
by rewrite subrK.
Qed.
Lemma coef_mean r z : dot (coef (colof n r)) (kvec K n x z) = pmean0 K n x t r z.
Proof. by rewrite /pmean0 (weights_dot Ksym) // dotC /dot mulmxA. Qed.

(** the weight of an output is a function of its input *)
Lemma weight_fun z (i : 'I_n) : weights K n x t z i 0 = (K (x i) z - \sum_(j < n) K (x i) (x j) * weights K n x t z j 0) / t.
Proof.
have /matrixP/(_ i 0) := @weights_eq _ _ Kpsd n x t z tpos.
rewrite /gram mulmxDl addmxE mul_scalar_mx mxE [X in _ + X]mxE [X in _ = X]mxE => <-.
have -> : \sum_(j < n) kmx K n x i j * weights K n x t z j 0 = \sum_(j < n) K (x i) (x j) * weights K n x t z j 0 by apply: eq_bigr => j _; rewrite mxE.
move: (\sum_(j < n) _) (weights _ _ _ _ _ _ _) => a w. have N : t != 0 by apply/eqP => E; move: tpos; rewrite E; exact: Rlt_irrefl.
have -> : a + t * w - a = t * w by ringR. by rewrite mulrC mulKf.
Qed.
End GP.
