(** Predictions near measured inputs and under small moves of the input, in terms of the returned arrays. *)
From Verif Require Import Base Num UtilsSpec HypsModel CovModel KernelSpec CovSpec PSD CovProofs CovProofs2 RStruct MatLib GPModel GPSpec GPProofs GPMx GPProofs2 GPProofs3 PredSpec PredMx PredProofs NearSpec NearMx.
From Coq Require Import Reals Lra Lia List.
From mathcomp Require Import all_ssreflect perm all_algebra.
Set Implicit Arguments.
Unset Strict Implicit.
Unset Printing Implicit Defensive.
Import GRing.Theory.
Delimit Scope R_scope with coqR.
Local Open Scope ring_scope.

Section Near.
Variables (name : String.string) (h : dict NumR) (d : nat) (ls : pyval NumR) (s nz : R) (K : elem -> elem -> R) (pm : prior NumR) (m : elem -> R).
Variable inv : list (list R) -> res (list (list R)).
Hypotheses (RG : regression name h d ls s nz K pm m) (HI : inv_contract inv).
Notation predict := (@predict_with_hyps NumR exp inv).
Let KS : forall a b, K a b = K b a := K_sym RG.
Let KP : psd K := K_psd RG.
Let T : 0 <R shift nz := shift_pos nz.

Lemma deviation_mx X Y : deviation_sq m X Y = dot (colof (alen X) (resid m X Y)) (colof (alen X) (resid m X Y)).
Proof. rewrite /deviation_sq Rsum_big dotE. apply: eq_bigr => i _. by rewrite !mxE. Qed.

Lemma move X Xs Y mu sd S j k : fits name X d -> fits name Xs d -> column (alen X) Y -> predict X Y Xs h name pm = Ok (mu, sd, S) ->
  lt j (alen Xs) -> lt k (alen Xs) ->
  let zj := elem_nth Xs j in let zk := elem_nth Xs k in
  let e := ((at_ mu j 0 - m zj) - (at_ mu k 0 - m zk))%coqR in
  Rle ((nz * nz + jitter_cov) * (e * e))%coqR (kernel_gap K zj zk * deviation_sq m X Y)%coqR /\
  Rle ((nz * nz + jitter_cov) * ((at_ mu j 0 - m zj) * (at_ mu j 0 - m zj)))%coqR (K zj zj * deviation_sq m X Y)%coqR /\
  Rle ((at_ sd j 0 - at_ sd k 0) * (at_ sd j 0 - at_ sd k 0))%coqR (kernel_gap K zj zk).
Proof.
move=> F Fs HY E Hj Hk zj zk e. have [m1 [d1 [s1 [E1 [A1 [B1 [C1 [M1 [D1 P1]]]]]]]]] := predict_ok RG HI F Fs HY.
move: E1. rewrite E => [[? ? ?]]; subst m1 d1 s1.
have Em i (Hi : lt i (alen Xs)) : (at_ mu i 0 - m (elem_nth Xs i))%coqR = pmean0 K (alen X) (elem_nth X) (shift nz) (resid m X Y) (elem_nth Xs i).
  rewrite M1 // /mean_at. by rewrite /Rminus Rplus_assoc Rplus_opp_r Rplus_0_r.
rewrite /e !Em // -!shift_eq deviation_mx. split; first exact: pmean_move. split; first exact: pmean_size.
rewrite !D1 // !P1 // !PeanoNat.Nat.eqb_refl. have J := jitter_pos. rewrite -/zj -/zk.
have C := pcov_cs KS KP (alen X) (elem_nth X) T zj zk. have G := pcov_gap KS KP (alen X) (elem_nth X) T zj zk.
have A0 := cov_diag_ge0 RG X zj. have B0 := cov_diag_ge0 RG X zk. rewrite /kernel_gap. 
rewrite /cov_at2 in A0 B0 *.
move: (pcov _ _ _ _ zj zj) (pcov _ _ _ _ zj zk) (pcov _ _ _ _ zk zk) (K zj zj) (K zj zk) (K zk zk) jitter_cov J C G A0 B0 => a c b k1 k2 k3 jt J C G A0 B0.
toR. move: J C G A0 B0. toR => J C G A0 B0. apply: Rle_trans G.
have Sa := sqrt_sqrt (a + jt) ltac:(lra). have Sb := sqrt_sqrt (b + jt) ltac:(lra).
suff H : Rle (c + jt) (sqrt (a + jt) * sqrt (b + jt)) by lra.
rewrite -sqrt_mult; try lra. apply: Rle_trans (Rle_abs _) _. rewrite -sqrt_Rsqr_abs. apply: sqrt_le_1_alt. rewrite /Rsqr.
case: (Rle_lt_dec c 0) => Hc; first by nra.
have Q : Rle c ((a + b) / 2).
{ apply: Rnot_lt_le => L. have D := Rle_0_sqr (a - b). rewrite /Rsqr in D. have : Rlt ((a + b) / 2 * ((a + b) / 2)) (c * c) by apply: Rmult_le_0_lt_compat; lra. lra. }
nra.
Qed.
End Near.
