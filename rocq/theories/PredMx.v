(** Matrix facts behind the further regression properties: optimal weights, one more observation,
    the determinant of a bordered matrix, kernels that agree on the data. *)
From Verif Require Import Base Num UtilsSpec HypsModel CovModel KernelSpec CovSpec RStruct MatLib GPMx.
From Coq Require Import Reals Lra Lia.
From mathcomp Require Import all_ssreflect perm all_algebra.
Set Implicit Arguments.
Unset Strict Implicit.
Unset Printing Implicit Defensive.
Import GRing.Theory.
Delimit Scope R_scope with coqR.
Local Open Scope ring_scope.

Lemma dotDl n (u v w : 'cV[R]_n) : dot (u + v) w = dot u w + dot v w.
Proof. by rewrite /dot trD mulmxDl mxE. Qed.
Lemma dotZl n (a : R) (u w : 'cV[R]_n) : dot (a *: u) w = a * dot u w.
Proof. by rewrite /dot trZ -scalemxAl mxE. Qed.
Lemma dot_col n p (u : 'cV[R]_n) (v : 'cV[R]_p) a b : dot (col_mx u v) (col_mx a b) = dot u a + dot v b.
Proof. by rewrite /dot tr_col_mx mul_row_col mxE. Qed.
Lemma dot1 (a b : R) : dot (a%:M : 'cV[R]_1) (b%:M : 'cV[R]_1) = a * b.
Proof. by rewrite dotE big_ord1 !mxE /= !mulr1n. Qed.

Section GP.
Variables (T : Type) (K : T -> T -> R).
Hypotheses (Ksym : forall a b, K a b = K b a) (Kpsd : psd K).

(** the optimal weights are unique *)
Lemma pcov_opt_strict n x t z (a : 'cV_n) : 0 <R t -> a <> weights K n x t z ->
  pcov K n x t z z <R K z z - dot a (kvec K n x z) *+ 2 + qf (gram K n x t) a.
Proof.
move=> H N. set A := gram K n x t. set k := kvec K n x z. set w := weights K n x t z.
have SA : A^T = A by exact: gram_sym. have PA : pd A by exact: gram_pd.
have P : 0 <R qf A (a - w) by apply: PA; rewrite subr_eq0; apply/eqP.
have Ew : A *m w = k by exact: weights_eq.
rewrite (pcov_opt_eq Ksym Kpsd) // -/A -/w -/k.
have E1 : (a^T *m A *m w) 0 0 = dot a k by rewrite /dot -mulmxA Ew.
have E2 : qf A w = dot w k by rewrite /qf -mulmxA Ew.
move: P. rewrite (qfB _ _ SA) E1 E2. move: (qf A a) (dot a k) (dot w k) (K z z) => p q r s. rewrite !mulr2n => P. lraR.
Qed.

(** ** one more observation *)
Variables (n : nat) (x : nat -> T) (t : R).
Hypothesis tpos : 0 <R t.
Notation e := (x n).
Notation v := (pcov K n x t e e + t).
Lemma v_pos : 0 <R v.
Proof. have := pcov_ge0 Ksym Kpsd n x e tpos. move: (pcov _ _ _ _ _ _) => p P. lraR. Qed.
Lemma v_neq0 : v != 0.
Proof. apply/eqP => E. have := v_pos. rewrite E. exact: Rlt_irrefl. Qed.

Lemma gram_border : gram K (n + 1) x t = block_mx (gram K n x t) (kvec K n x e) (kvec K n x e)^T ((K e e + t)%:M : 'M_1).
Proof.
apply/matrixP=> i j. rewrite gramE. case: (split_ordP i) => i' ->; case: (split_ordP j) => j' ->.
- rewrite block_mxEul gramE /=. by rewrite (inj_eq (@lshift_inj _ _)).
- rewrite block_mxEur mxE ord1 /= addn0 eq_lrshift addr0. by [].
- rewrite block_mxEdl !mxE ord1 /= addn0 eq_rlshift addr0. exact: Ksym.
- rewrite block_mxEdr !mxE !ord1 /= addn0 eqxx. by rewrite mulr1n.
Qed.
Lemma kvec_border z : kvec K (n + 1) x z = col_mx (kvec K n x z) ((K e z)%:M : 'cV_1).
Proof.
apply/matrixP=> i j. rewrite mxE. case: (split_ordP i) => i' ->.
- by rewrite col_mxEu mxE.
- by rewrite col_mxEd !mxE !ord1 /= addn0 mulr1n.
Qed.
Lemma colof_border (r : nat -> R) : colof (n + 1) r = col_mx (colof n r) ((r n)%:M : 'cV_1).
Proof.
apply/matrixP=> i j. rewrite mxE. case: (split_ordP i) => i' ->.
- by rewrite col_mxEu mxE.
- by rewrite col_mxEd !mxE !ord1 /= addn0 mulr1n.
Qed.
(** a system with the bordered matrix *)
Lemma border_solve (b : 'cV[R]_n) (y : R) :
  let u := invmx (gram K n x t) *m b in let g := (y - dot u (kvec K n x e)) / v in
  gram K (n + 1) x t *m col_mx (u - g *: weights K n x t e) (g%:M : 'cV_1) = col_mx b (y%:M : 'cV_1).
Proof.
move=> u g. rewrite gram_border mul_block_col. have U := gram_unit Kpsd n x tpos. congr col_mx.
- rewrite mulmxBr -scalemxAr (weights_eq Kpsd) // /u mulKVmx //.
  rewrite mul_mx_scalar. by rewrite subrK.
- rewrite mulmxBr -scalemxAr -scalar_mxM. apply/matrixP=> i j. rewrite !ord1 !mxE !mulr1n.
  have -> : \sum_k (kvec K n x e)^T 0 k * u k 0 = dot u (kvec K n x e) by rewrite dotE; apply: eq_bigr => k _; rewrite [X in X * _]mxE mulrC.
  have -> : \sum_k (kvec K n x e)^T 0 k * weights K n x t e k 0 = dot (weights K n x t e) (kvec K n x e)
    by rewrite dotE; apply: eq_bigr => k _; rewrite [X in X * _]mxE mulrC.
  have G : g * v = y - dot u (kvec K n x e) by rewrite /g mulfVK // v_neq0.
  move: G. rewrite /pcov. move: (dot u _) (dot _ _) (K e e) => p q k G.
  have -> : y = g * (k - q + t) + p by rewrite G subrK.
  ringR.
Qed.
Definition gain (z : T) := (pcov K n x t z e * v^-1)%R.
Lemma weights_border z : weights K (n + 1) x t z = col_mx (weights K n x t z - gain z *: weights K n x t e) ((gain z)%:M : 'cV_1).
Proof.
symmetry. apply: (weights_unique Kpsd) => //. rewrite kvec_border.
have E := border_solve (kvec K n x z) (K e z). rewrite -/(weights K n x t z) /= in E.
have G : gain z = (K e z - dot (weights K n x t z) (kvec K n x e)) / v.
  have P : pcov K n x t z e = K e z - dot (weights K n x t z) (kvec K n x e) by rewrite /pcov (Ksym z e).
  by rewrite /gain P.
by rewrite G.
Qed.
Lemma pmean_border (r : nat -> R) z :
  pmean0 K (n + 1) x t r z = pmean0 K n x t r z + gain z * (r n - pmean0 K n x t r e).
Proof.
rewrite /pmean0 weights_border colof_border dot_col dot1 dotDl -scaleNr dotZl.
move: (dot _ _) (dot _ _) (gain z) (r n) => p q g y. ringR.
Qed.
Lemma pcov_border z z' : pcov K (n + 1) x t z z' = pcov K n x t z z' - gain z * pcov K n x t e z'.
Proof.
rewrite /pcov -/(gain z) weights_border kvec_border dot_col dot1 dotDl -scaleNr dotZl.
move: (dot _ _) (dot _ _) (gain z) (K z z') (K e z') => p q g k l. ringR.
Qed.
(** the determinant and the quadratic form of the likelihood *)
Lemma det_border : \det (gram K (n + 1) x t) = \det (gram K n x t) * v.
Proof.
rewrite gram_border.
have -> : block_mx (gram K n x t) (kvec K n x e) (kvec K n x e)^T ((K e e + t)%:M : 'M_1)
  = block_mx (gram K n x t) 0 (kvec K n x e)^T 1%:M *m block_mx 1%:M (weights K n x t e) 0 (v%:M : 'M_1).
  rewrite mulmx_block !mulmx1 !mulmx0 !mul0mx !addr0 !mul1mx (weights_eq Kpsd) //. congr block_mx.
  apply/matrixP=> i j. rewrite !ord1 !mxE !mulr1n.
  have -> : \sum_k (kvec K n x e)^T 0 k * weights K n x t e k 0 = dot (weights K n x t e) (kvec K n x e)
    by rewrite dotE; apply: eq_bigr => k _; rewrite [X in X * _]mxE mulrC.
  rewrite /pcov. move: (dot _ _) (K e e) => p q. ringR.
by rewrite det_mulmx det_lblock det_ublock !det1 mul1r mulr1 det_scalar1.
Qed.
Lemma quad_border (r : nat -> R) :
  qf (invmx (gram K (n + 1) x t)) (colof (n + 1) r) =
  qf (invmx (gram K n x t)) (colof n r) + (r n - pmean0 K n x t r e) * (r n - pmean0 K n x t r e) / v.
Proof.
have E := border_solve (colof n r) (r n). rewrite /= in E.
set u := invmx (gram K n x t) *m colof n r in E. set g := (_ / _) in E.
have Em : dot u (kvec K n x e) = pmean0 K n x t r e by rewrite /u /pmean0 weights_dot // dotC /dot mulmxA.
have Eg : g = (r n - pmean0 K n x t r e) / v by rewrite /g Em.
have Es : invmx (gram K (n + 1) x t) *m colof (n + 1) r = col_mx (u - g *: weights K n x t e) (g%:M : 'cV_1).
  by rewrite colof_border -E mulKmx // gram_unit.
have Q : forall (k : nat) (A : 'M[R]_k) b, qf A b = dot b (A *m b) by move=> k A b; rewrite /qf /dot mulmxA.
rewrite !Q Es colof_border dot_col dot1. rewrite dotC dotDl -scaleNr dotZl (dotC _ (colof n r)).
rewrite -/(pmean0 K n x t r e) Eg. rewrite -/u.
move: (dot _ _) (pmean0 _ _ _ _ _ _) (r n) (v^-1) => p q y w. ringR.
Qed.
End GP.

(** kernels that agree on the data *)
Section Agree.
Variables (T T' : Type) (K : T -> T -> R) (K' : T' -> T' -> R) (n : nat) (x : nat -> T) (x' : nat -> T').
Hypothesis AG : forall i j : 'I_n, K' (x' i) (x' j) = K (x i) (x j).
Lemma gram_agree t : gram K' n x' t = gram K n x t.
Proof. by apply/matrixP=> i j; rewrite !gramE AG. Qed.
Lemma kvec_agree z z' : (forall i : 'I_n, K' (x' i) z' = K (x i) z) -> kvec K' n x' z' = kvec K n x z.
Proof. by move=> H; apply/matrixP=> i j; rewrite !mxE H. Qed.
Lemma pmean_agree t (r r' : nat -> R) z z' : (forall i : 'I_n, K' (x' i) z' = K (x i) z) -> (forall i : 'I_n, r' i = r i) ->
  pmean0 K' n x' t r' z' = pmean0 K n x t r z.
Proof.
move=> H E. rewrite /pmean0 /weights gram_agree (kvec_agree H). congr dot. by apply/matrixP=> i j; rewrite !mxE.
Qed.
Lemma pcov_agree t z1 z2 z1' z2' : (forall i : 'I_n, K' (x' i) z1' = K (x i) z1) -> (forall i : 'I_n, K' (x' i) z2' = K (x i) z2) ->
  K' z1' z2' = K z1 z2 -> pcov K' n x' t z1' z2' = pcov K n x t z1 z2.
Proof. by move=> H1 H2 E; rewrite /pcov /weights gram_agree (kvec_agree H1) (kvec_agree H2) E. Qed.
End Agree.
