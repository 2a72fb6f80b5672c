(** How the quadratic form in the scale of the Student-t process depends on the responses. *)
From Verif Require Import Base Num UtilsSpec HypsModel CovModel KernelSpec CovSpec PSD CovProofs CovProofs2 RStruct MatLib GPModel GPSpec GPProofs GPMx GPProofs2 GPProofs3
  LikModel LikSpec PredSpec PredMx PredProofs NearSpec NearMx NearProofs StudentProofs RegretSpec.
From Coq Require Import Reals Lra Lia List.
From mathcomp Require Import all_ssreflect perm all_algebra.
Set Implicit Arguments.
Unset Strict Implicit.
Unset Printing Implicit Defensive.
Import GRing.Theory.
Delimit Scope R_scope with coqR.
Local Open Scope ring_scope.

Section TDamp.
Variables (name : String.string) (h : dict NumR) (d : nat) (ls : pyval NumR) (s nz : R) (K : elem -> elem -> R) (pm : prior NumR) (m : elem -> R).
Hypotheses (RG : regression name h d ls s nz K pm m).
Let KS : forall a b, K a b = K b a := K_sym RG.
Let KP : psd K := K_psd RG.
Let T : 0 <R shift nz := shift_pos nz.

Lemma tbeta_ge0 X Y : Rle 0 (tbeta nz K m X Y).
Proof. exact: inv_psd. Qed.
Lemma tbeta_le X Y : Rle ((nz * nz + jitter_cov) * tbeta nz K m X Y)%coqR (deviation_sq m X Y).
Proof. rewrite -shift_eq (deviation_mx m X Y). exact: inv_le. Qed.
Lemma tbeta_change X Y Y' :
  exists c, Rle (c * c)%coqR (tbeta nz K m X Y * tbeta nz K m X Y')%coqR /\
  Rle ((nz * nz + jitter_cov) * (tbeta nz K m X Y - 2 * c + tbeta nz K m X Y'))%coqR
   (Rsum (List.map (fun i => (out Y i - out Y' i) * (out Y i - out Y' i))%coqR (List.seq 0 (alen X)))).
Proof.
set A := invmx (gram K (alen X) (elem_nth X) (shift nz)).
set u := colof (alen X) (resid m X Y). set v := colof (alen X) (resid m X Y').
have SI : A^T = A by apply: inv_sym; exact: gram_sym.
have P : psdm A by exact: inv_psd.
exists ((u^T *m A *m v) 0 0). split; first exact: cs_form.
have L := inv_le KS KP (elem_nth X) T (u - v). rewrite -/A (qfB _ _ SI) mulr2n in L.
have -> : Rsum (List.map (fun i => (out Y i - out Y' i) * (out Y i - out Y' i))%coqR (List.seq 0 (alen X))) = dot (u - v) (u - v).
  rewrite Rsum_big dotE. apply: eq_bigr => i _. rewrite !mxE /resid. move: (out Y i) (out Y' i) (m _) => a b e. toR. ring.
apply: Rle_trans L. rewrite -shift_eq /tbeta -/A -/u -/v. move: (qf A u) (qf A v) ((u^T *m A *m v) 0 0) => a b c. toR. apply: Req_le. ring.
Qed.
(** responses of a function of the kernel's space *)
Lemma tbeta_ball X Y B f : in_ball K m B f -> (forall i, lt i (alen X) -> out Y i = f (elem_nth X i)) -> Rle (tbeta nz K m X Y) (B * B)%coqR.
Proof.
move=> HB HE. set n := alen X. set G := gram K n (elem_nth X) (shift nz). set r := colof n (resid m X Y). set w := invmx G *m r.
have SG : G^T = G by exact: gram_sym.
have UG : G \in unitmx by exact: gram_unit.
have SI : (invmx G)^T = invmx G by exact: inv_sym.
have E1 : tbeta nz K m X Y = dot w r by rewrite /tbeta -/n -/G -/r /qf /dot /w trmx_mul SI.
have E2 : tbeta nz K m X Y = qf G w by rewrite /w qf_inv.
have L : Rle (qf (kmx K n (elem_nth X)) w) (tbeta nz K m X Y).
  rewrite E2 /G /gram qfD qf_scalar. have := dot_self_ge0 w. have := T. move: (qf _ _) (dot w w) (shift nz) => a b c. toR => c0 b0. have := Rmult_le_pos c b. lra.
have := HB (List.map (fun i => (if insub i is Some k then w k 0 else 0, elem_nth X i)) (List.seq 0 n)).
have QF (v : 'cV[R]_n) : qform K (List.map (fun i => (if insub i is Some k then v k 0 else 0, elem_nth X i)) (List.seq 0 n)) = qf (kmx K n (elem_nth X)) v.
  rewrite /qform List.map_map Rsum_big qfE. apply: eq_bigr => i _. rewrite List.map_map Rsum_big. apply: eq_bigr => j _. by rewrite /= !valK mxE.
have QD (v : 'cV[R]_n) : Rsum (List.map (fun p : R * elem => (p.1 * (f p.2 - m p.2))%coqR) (List.map (fun i => (if insub i is Some k then v k 0 else 0, elem_nth X i)) (List.seq 0 n))) = dot v r.
  rewrite List.map_map Rsum_big dotE. apply: eq_bigr => i _. rewrite /= valK /r mxE /resid HE //. exact/ltP.
rewrite /= QF QD. rewrite -E1 => H. have Q0 := tbeta_ge0 X Y. move: (tbeta _ _ _ _ _) (qf _ _) H Q0 L => b q H Q0 L.
case: (Rle_lt_or_eq_dec 0 b Q0) => [Qp|<-]; last exact: Rle_0_sqr.
apply: (Rmult_le_reg_r b) => //. apply: Rle_trans H _. apply: Rmult_le_compat_l => //. exact: Rle_0_sqr.
Qed.
End TDamp.
