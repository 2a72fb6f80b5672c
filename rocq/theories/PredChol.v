(** Units and one-step-ahead predictions for the likelihood computed with the Cholesky factor (the default). *)
From Verif Require Import Base Num UtilsSpec HypsModel CovModel KernelSpec CovSpec PSD CovProofs CovProofs2 RStruct MatLib GPModel GPSpec GPProofs GPMx GPProofs2 GPProofs3
  LikModel LikSpec LikMx LikProofs LikProofs2 PredSpec PredMx PredProofs PredUnits PredInv PredLik.
From Coq Require Import Reals Lra Lia Permutation.
From mathcomp Require Import all_ssreflect perm all_algebra.
Set Implicit Arguments.
Unset Strict Implicit.
Unset Printing Implicit Defensive.
Import GRing.Theory.
Delimit Scope R_scope with coqR.
Local Open Scope ring_scope.

(** ** leading blocks of Cholesky factors *)
Lemma prod_pos n (f : nat -> R) : (forall i, lt i n -> 0 <R f i) -> 0 <R \prod_(i < n) f i.
Proof.
move=> H. apply: (big_ind (fun x => 0 <R x)) => [|x y A B|i _]; first exact: Rlt_0_1.
- exact: Rmult_lt_0_compat.
- apply: H. exact/ltP.
Qed.
Lemma big_lead k n (f : nat -> R) : (k <= n)%N -> (forall q, (k <= q < n)%N -> f q = 0) -> \sum_(q < n) f q = \sum_(q < k) f q.
Proof.
move=> Hk Z. rewrite (big_ord_widen n f Hk) [RHS]big_mkcond /=. apply: eq_bigr => q _. case: ltnP => // H. by apply: Z; rewrite H ltn_ord.
Qed.
Lemma chol_lead n C L k : is_cholesky n C L -> (k <= n)%N ->
  det k C = (\prod_(i < k) at_ L i i) * (\prod_(i < k) at_ L i i) /\ 0 <R \prod_(i < k) at_ L i i.
Proof.
move=> [_ [TL [PL EL]]] Hk.
have B : forall i : 'I_k, lt i n by move=> i; apply/ltP; exact: leq_trans (ltn_ord i) Hk.
have E : mxof k k C = mxof k k L *m (mxof k k L)^T.
  apply/matrixP=> i j. rewrite mxE EL //. rewrite mxE Rsum_big.
  rewrite (@big_lead k n (fun q => at_ L i q * at_ L j q)%coqR Hk); first by apply: eq_bigr => q _; rewrite !mxE.
  move=> q /andP [Hq Hqn]. rewrite (TL i q) ?Rmult_0_l //; apply/ltP => //. exact: leq_trans (ltn_ord i) Hq.
have D : \det (mxof k k L) = \prod_(i < k) at_ L i i.
  rewrite det_trig. by apply: eq_bigr => i _; rewrite mxE.
  apply/is_trig_mxP => i j H. rewrite mxE. apply: TL => //. exact/ltP.
split; first by rewrite detE E det_mulmx det_tr D.
apply: (@prod_pos k (fun i => at_ L i i)) => i Hi. apply: PL. move/leP: Hk. lia.
Qed.
Lemma sq_inj (a b : R) : 0 <R a -> 0 <R b -> a * a = b * b -> a = b.
Proof. move=> A B E. apply: Rsqr_inj; [exact: Rlt_le|exact: Rlt_le|exact: E]. Qed.
Lemma chol_diag n n' C C' L L' : is_cholesky n C L -> is_cholesky n' C' L' -> (n <= n')%N ->
  (forall i j, lt i n -> lt j n -> at_ C' i j = at_ C i j) -> forall k, lt k n -> at_ L' k k = at_ L k k.
Proof.
move=> H H' Hn EC k Hk.
have D : forall q, (q <= n)%N -> det q C' = det q C.
  move=> q Hq. rewrite !detE. congr (\det _). apply/matrixP=> i j. rewrite !mxE. apply: EC; apply/ltP; exact: leq_trans (ltn_ord _) Hq.
have P : forall q, (q <= n)%N -> \prod_(i < q) at_ L' i i = \prod_(i < q) at_ L i i.
  move=> q Hq. have [E1 P1] := chol_lead H Hq. have [E2 P2] := chol_lead H' (leq_trans Hq Hn).
  apply: sq_inj => //. by rewrite -E1 -E2 D.
have Hk1 : (k.+1 <= n)%N by apply/ltP. have := P k.+1 Hk1. rewrite !big_ord_recr /= (P k (ltnW Hk1)).
have [_ P1] := chol_lead H (ltnW Hk1). move=> E. apply: Rmult_eq_reg_l E _. move=> Z. rewrite Z in P1. exact: (Rlt_irrefl _ P1).
Qed.
Lemma chol_last n C L : is_cholesky n.+1 C L -> (det n.+1 C = det n C * (at_ L n n * at_ L n n))%coqR /\ 0 <R at_ L n n.
Proof.
move=> H. have [E1 _] := chol_lead H (leqnn n.+1). have [E2 _] := chol_lead H (leqnSn n).
have [_ [_ [PL _]]] := H. split; last by apply: PL; lia.
rewrite E1 E2 big_ord_recr /=. move: (\prod_(i < n) _) (at_ L n n) => a b. ringR.
Qed.

(** ** units *)
Section Units.
Variables (name : string) (h h' : dict NumR) (d : nat) (ls ls' : pyval NumR) (s nz : R) (K K' : elem -> elem -> R)
  (pm pm' : prior NumR) (m m' : elem -> R).
Hypotheses (RG : regression name h d ls s nz K pm m) (RG' : regression name h' d ls' s nz K' pm' m').
Variables (p : list nat) (sc tr : nat -> R).
Hypotheses (HP : Permutation p (List.seq 0 d)) (HS : forall i, lt i d -> sc i <> R0)
  (HL : recoord_ls d p sc ls ls') (HN : ls_nonzero ls d).
Notation re := (recoord_arr d p sc tr).
Lemma mlc_recoord X Y q th th' ard ard' fx fx' inv sinv (HI : inv_contract sinv) chol cho_solve slogdet ug ug' v g v' g' : fits name X d -> column (alen X) Y -> column (alen X) q ->
  chol_contract chol -> cho_solve_contract cho_solve -> (0 < alen X)%N ->
  @restore_hyps NumR name th true ard fx (GP_NOISE NumR) = Ok h ->
  @restore_hyps NumR name th' true ard' fx' (GP_NOISE NumR) = Ok h' ->
  @neg_log_ml NumR exp ln PI inv chol cho_solve slogdet X Y th name q ard fx true ug = Ok (v, g) ->
  @neg_log_ml NumR exp ln PI inv chol cho_solve slogdet (re X) Y th' name q ard' fx' true ug' = Ok (v', g') -> v' = v.
Proof.
move=> F HY Hq HC HSo Hn ER ER' E E'. have F' := recoord_fits p sc tr F. have LX : alen (re X) = alen X by exact: recoord_alen.
have HY' : column (alen (re X)) Y by rewrite LX. have Hq' : column (alen (re X)) q by rewrite LX.
have Hn' : (0 < alen (re X))%N by rewrite LX.
have [C [B [L [EC [HB [HL0 [EL V]]]]]]] := @ml_cholesky name h d ls s nz K X F (reg_hyps RG) (reg_cov RG) Y q HY Hq th ard fx sinv chol cho_solve slogdet HI HC HSo ug v g Hn ER E.
have [C' [B' [L' [EC' [HB' [HL' [EL' V']]]]]]] := @ml_cholesky name h' d ls' s nz K' (re X) F' (reg_hyps RG') (reg_cov RG') Y q HY' Hq' th' ard' fx' sinv chol cho_solve slogdet HI HC HSo ug' v' g' Hn' ER' E'.
rewrite (train_recoord RG RG' tr HP HS HL HN F) EC in EC'. case: EC' => ?; subst C'. rewrite EL in EL'. case: EL' => ?; subst L'.
rewrite LX in HB' V'. rewrite V V'. by rewrite (inverse_unique HB' HB).
Qed.
End Units.

(** ** one more observation *)
Section Step.
Variables (name : string) (h : dict NumR) (d : nat) (ls : pyval NumR) (s nz : R) (K : elem -> elem -> R)
  (pm : prior NumR) (m : elem -> R) (inv : list (list R) -> res (list (list R))).
Hypotheses (RG : regression name h d ls s nz K pm m) (HI : inv_contract inv).
Variables (X X' Xs : arr NumR) (Y Y' : mat NumR) (p p' : mat NumR) (k : nat).
Hypotheses (F : fits name X d) (F' : fits name X' d) (Fs : fits name Xs d) (H : column (alen X) Y) (H' : column (alen X') Y') (Hk : lt k (alen Xs))
  (EX : elems X' = elems X ++ [:: elem_nth Xs k]) (EY : forall i, lt i (alen X) -> out Y' i = out Y i)
  (Ep : @get_prior_mu NumR pm X = Ok p) (Ep' : @get_prior_mu NumR pm X' = Ok p').
Lemma train_lead C C' i j : @train_cov NumR exp X h name = Ok C -> @train_cov NumR exp X' h name = Ok C' ->
  lt i (alen X) -> lt j (alen X) -> at_ C' i j = at_ C i j.
Proof.
move=> EC EC' Hi Hj. have [C0 [E0 [_ V]]] := train_cov_ok F (reg_hyps RG) (reg_cov RG). have [C1 [E1 [_ V']]] := train_cov_ok F' (reg_hyps RG) (reg_cov RG).
rewrite EC in E0. rewrite EC' in E1. case: E0 => ?; subst C0. case: E1 => ?; subst C1.
have LX : alen X' = (alen X + 1)%N by exact: (step_len EX).
have Hi' : lt i (alen X') by rewrite LX; apply/ltP; rewrite addn1; apply: leqW; exact/ltP.
have Hj' : lt j (alen X') by rewrite LX; apply/ltP; rewrite addn1; apply: leqW; exact/ltP.
rewrite V // V' //. have Oi : (i < alen X)%N by exact/ltP. have Oj : (j < alen X)%N by exact/ltP.
by rewrite (step_old EX (Ordinal Oi)) (step_old EX (Ordinal Oj)).
Qed.
Lemma chol_chain th ard fx inv' chol cho_solve slogdet ug ug' mu sd S v1 g1 v2 g2 : chol_contract chol -> cho_solve_contract cho_solve -> (0 < alen X)%N ->
  @restore_hyps NumR name th true ard fx (GP_NOISE NumR) = Ok h ->
  @predict_with_hyps NumR exp inv X Y Xs h name pm = Ok (mu, sd, S) ->
  @neg_log_ml NumR exp ln PI inv' chol cho_solve slogdet X Y th name p ard fx true ug = Ok (v1, g1) ->
  @neg_log_ml NumR exp ln PI inv' chol cho_solve slogdet X' Y' th name p' ard fx true ug' = Ok (v2, g2) ->
  let v := (at_ S k k + nz * nz)%coqR in
  (0 < v)%coqR /\
  (INR (alen X') * v2 = INR (alen X) * v1 + normal_nll (at_ mu k 0) v (out Y' (alen X)) + ln (1 + / 10000000 / sqrt v))%coqR.
Proof.
move=> HC HS Hn ER E E1 E2 v.
have [Hp _] := residual_prior Y (reg_prior RG) Ep. have [Hp' _] := residual_prior Y' (reg_prior RG) Ep'.
have LX : alen X' = (alen X).+1 by rewrite (step_len EX) addn1.
have Hn' : (0 < alen X')%N by rewrite LX.
have [C [B [L [EC [HB [HL0 [EL V]]]]]]] := @ml_cholesky name h d ls s nz K X F (reg_hyps RG) (reg_cov RG) Y p H Hp th ard fx inv chol cho_solve slogdet HI HC HS ug v1 g1 Hn ER E1.
have [C' [B' [L' [EC' [HB' [HL' [EL' V']]]]]]] := @ml_cholesky name h d ls s nz K X' F' (reg_hyps RG) (reg_cov RG) Y' p' H' Hp' th ard fx inv chol cho_solve slogdet HI HC HS ug' v2 g2 Hn' ER E2.
have [VP [ED EQ]] := step_terms RG HI F F' Fs H Hk EX EY Ep Ep' EC HB EC' HB' E. rewrite -/v in VP ED EQ.
split=> //.
have DP := (ln_det_chol HL0).1.
have DG : forall i, lt i (alen X) -> at_ L' i i = at_ L i i.
  move=> i Hi. apply: (chol_diag HL0 HL') => //; first by rewrite LX leqnSn. move=> a b Ha Hb. exact: train_lead.
rewrite LX in HL' ED EQ V'. have [DL PL] := chol_last HL'.
have D0 : det (alen X) C' = det (alen X) C.
  rewrite !detE. congr (\det _). apply/matrixP=> i j. rewrite !mxE. by apply: train_lead EC EC' _ _; exact/ltP.
rewrite ED D0 in DL. set w := at_ L' (alen X) (alen X) in DL PL.
have EW : (w * w = v)%coqR by apply: (Rmult_eq_reg_l (det (alen X) C)); [symmetry; exact: DL|exact: Rgt_not_eq].
have SW : sqrt v = w by rewrite -EW; exact: sqrt_square (Rlt_le _ _ PL).
have SUM : Rsum (List.map (fun i => ln (at_ L' i i + / 10000000) - ln (at_ L' i i)) (List.seq 0 (alen X).+1))%coqR
   = (Rsum (List.map (fun i => ln (at_ L i i + / 10000000) - ln (at_ L i i)) (List.seq 0 (alen X))) + (ln (w + / 10000000) - ln w))%coqR.
  rewrite List.seq_S List.map_app UtilsRProofs.Rsum_app /= Rplus_0_r. congr (_ + _)%coqR.
  apply: UtilsRProofs.Rsum_map_ext => i /List.in_seq Hi. rewrite DG //. lia.
have G := @gauss_step (alen X) (quad (alen X) B (residual Y p)) (det (alen X) C) (out Y' (alen X) - at_ mu k 0)%coqR v DP VP Hn.
have Q1 : (INR (alen X) * v1 = INR (alen X) * gauss_nll (alen X) C B (residual Y p)
    + Rsum (List.map (fun i => ln (at_ L i i + / 10000000) - ln (at_ L i i)) (List.seq 0 (alen X))))%coqR.
  rewrite V. have : INR (alen X) <> 0%coqR by apply: not_0_INR; move: Hn; case: (alen X).
  move: (gauss_nll _ _ _ _) (Rsum _) (INR _) => a b c Hc. match goal with |- @eq _ ?x ?y => change (@eq R x y) end. field. exact: Hc.
have Q2 : (INR (alen X).+1 * v2 = INR (alen X).+1 * gauss_nll (alen X).+1 C' B' (residual Y' p')
    + Rsum (List.map (fun i => ln (at_ L' i i + / 10000000) - ln (at_ L' i i)) (List.seq 0 (alen X).+1)))%coqR.
  rewrite V'. have : INR (alen X).+1 <> 0%coqR by apply: not_0_INR.
  move: (gauss_nll _ _ _ _) (Rsum _) (INR _) => a b c Hc. match goal with |- @eq _ ?x ?y => change (@eq R x y) end. field. exact: Hc.
have LG : (ln (1 + / 10000000 / sqrt v) = ln (w + / 10000000) - ln w)%coqR.
  rewrite SW -ln_div //; last by toRs; lra. congr ln. field. toRs; lra.
rewrite LX Q1 Q2 SUM LG /gauss_nll EQ ED. rewrite addn1 in G. move: G. rewrite /normal_nll.
move: (Rsum _) (ln (w + _)) (ln w) => a b c G.
match goal with |- @eq _ ?x ?y => change (@eq R x y) end.
rewrite G. ring.
Qed.
End Step.

Lemma ln_small (e : R) : (0 < e)%coqR -> (0 < ln (1 + e) <= e)%coqR.
Proof.
intros P. split; [rewrite <- ln_1; apply ln_increasing; lra|]. rewrite <- (ln_exp e) at 2. apply Rlt_le, ln_increasing; [lra|].
apply exp_ineq1. lra.
Qed.
Section Bound.
Variables (name : string) (h : dict NumR) (d : nat) (ls : pyval NumR) (s nz : R) (K : elem -> elem -> R)
  (pm : prior NumR) (m : elem -> R) (inv : list (list R) -> res (list (list R))).
Hypotheses (RG : regression name h d ls s nz K pm m) (HI : inv_contract inv).
Variables (X X' Xs : arr NumR) (Y Y' : mat NumR) (p p' : mat NumR) (k : nat).
Hypotheses (F : fits name X d) (F' : fits name X' d) (Fs : fits name Xs d) (H : column (alen X) Y) (H' : column (alen X') Y') (Hk : lt k (alen Xs))
  (EX : elems X' = elems X ++ [:: elem_nth Xs k]) (EY : forall i, lt i (alen X) -> out Y' i = out Y i)
  (Ep : @get_prior_mu NumR pm X = Ok p) (Ep' : @get_prior_mu NumR pm X' = Ok p').
Lemma chol_chain_bound th ard fx inv' chol cho_solve slogdet ug ug' mu sd S v1 g1 v2 g2 : chol_contract chol -> cho_solve_contract cho_solve -> (0 < alen X)%N ->
  @restore_hyps NumR name th true ard fx (GP_NOISE NumR) = Ok h ->
  @predict_with_hyps NumR exp inv X Y Xs h name pm = Ok (mu, sd, S) ->
  @neg_log_ml NumR exp ln PI inv' chol cho_solve slogdet X Y th name p ard fx true ug = Ok (v1, g1) ->
  @neg_log_ml NumR exp ln PI inv' chol cho_solve slogdet X' Y' th name p' ard fx true ug' = Ok (v2, g2) ->
  let v := (at_ S k k + nz * nz)%coqR in let extra := ln (1 + / 10000000 / sqrt v)%coqR in
  (0 < v /\ INR (alen X') * v2 = INR (alen X) * v1 + normal_nll (at_ mu k 0) v (out Y' (alen X)) + extra /\ 0 < extra <= / 10000000 / sqrt v)%coqR.
Proof.
move=> HC HS Hn ER E E1 E2 v extra.
have [VP EV] := chol_chain RG HI F F' Fs H H' Hk EX EY Ep Ep' HC HS Hn ER E E1 E2. split=> //. split=> //.
apply: ln_small. apply: Rdiv_lt_0_compat; [lra|exact: sqrt_lt_R0].
Qed.
End Bound.
