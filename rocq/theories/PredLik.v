(** The likelihoods and the predictions fit together: the likelihood of one more observation is the density
    the prediction gives to it. *)
From Verif Require Import Base Num UtilsSpec HypsModel CovModel KernelSpec CovSpec PSD CovProofs CovProofs2 RStruct MatLib GPModel GPSpec GPProofs GPMx GPProofs2 GPProofs3
  LikModel LikSpec LikMx LikProofs GradSpec TPGrad PredSpec PredMx PredProofs.
From Coq Require Import Reals Lra Lia Permutation.
From mathcomp Require Import all_ssreflect perm all_algebra.
Set Implicit Arguments.
Unset Strict Implicit.
Unset Printing Implicit Defensive.
Import GRing.Theory.
Delimit Scope R_scope with coqR.
Local Open Scope ring_scope.

(** scalar facts *)
Lemma ln_div (a b : R) : (0 < a)%coqR -> (0 < b)%coqR -> (ln (a / b) = ln a - ln b)%coqR.
Proof. move=> A B. rewrite /Rdiv ln_mult //; last exact: Rinv_0_lt_compat. by rewrite ln_Rinv. Qed.
Lemma gauss_step (n : nat) (q dt r v : R) : (0 < dt)%coqR -> (0 < v)%coqR -> (0 < n)%N ->
  (INR (n + 1) * (((q + r * r / v) / 2 + ln (dt * v) / 2 + INR (n + 1) / 2 * ln (2 * PI)) / INR (n + 1))
   = INR n * ((q / 2 + ln dt / 2 + INR n / 2 * ln (2 * PI)) / INR n)
     + (ln v / 2 + r * r / (2 * v) + ln (2 * PI) / 2))%coqR.
Proof.
move=> D V Hn. have N0 : (0 < INR n)%coqR by apply: lt_0_INR; exact/ltP.
have -> : INR (n + 1) = (INR n + 1)%coqR by rewrite plus_INR.
rewrite ln_mult //. field. split; [|split]; lra.
Qed.
Lemma student_step (gamma : R -> R) (n : nat) (nu q dt r v : R) : (0 < dt)%coqR -> (0 < v)%coqR -> (0 < n)%N -> (2 < nu)%coqR -> (0 <= q)%coqR ->
  (forall x, 0 < x -> 0 < gamma x)%coqR ->
  let f := t_factor nu q n in
  (INR (n + 1) * ((INR (n + 1) / 2 * ln ((nu - 2) * PI) + ln (dt * v) / 2 - ln (gamma ((nu + INR (n + 1)) / 2) / gamma (nu / 2))
     + (nu + INR (n + 1)) / 2 * ln (1 + (q + r * r / v) / (nu - 2))) / INR (n + 1))
   = INR n * ((INR n / 2 * ln ((nu - 2) * PI) + ln dt / 2 - ln (gamma ((nu + INR n) / 2) / gamma (nu / 2))
     + (nu + INR n) / 2 * ln (1 + q / (nu - 2))) / INR n)
     + (ln ((nu + INR n - 2) * PI) / 2 + ln (f * v) / 2 - ln (gamma ((nu + INR n + 1) / 2) / gamma ((nu + INR n) / 2))
        + (nu + INR n + 1) / 2 * ln (1 + r * r / (f * v) / (nu + INR n - 2))))%coqR.
Proof.
move=> D V Hn N2 Q G f. have N0 : (0 < INR n)%coqR by apply: lt_0_INR; exact/ltP.
have E1 : INR (n + 1) = (INR n + 1)%coqR by rewrite plus_INR.
have P0 := PI_RGT_0.
have A : (0 < nu - 2)%coqR by lra. have B : (0 < nu + INR n - 2)%coqR by lra.
have C : (0 < nu - 2 + q)%coqR by lra.
have F : (0 < f)%coqR by rewrite /f /t_factor; apply: Rdiv_lt_0_compat; lra.
have RV : (0 <= r * r / v)%coqR by apply: Rmult_le_pos; [exact: Rle_0_sqr|left; exact: Rinv_0_lt_compat].
have D2 : (0 < nu - 2 + (q + r * r / v))%coqR by lra.
have L1 : (ln (1 + (q + r * r / v) / (nu - 2)) = ln (nu - 2 + (q + r * r / v)) - ln (nu - 2))%coqR.
  rewrite -ln_div //. congr ln. field. split; lra.
have L2 : (ln (1 + q / (nu - 2)) = ln (nu - 2 + q) - ln (nu - 2))%coqR.
  rewrite -ln_div //. congr ln. field. lra.
have L3 : (ln (1 + r * r / (f * v) / (nu + INR n - 2)) = ln (nu - 2 + (q + r * r / v)) - ln (nu - 2 + q))%coqR.
  rewrite -ln_div //. congr ln. rewrite /f /t_factor. field. repeat split; lra.
have L4 : (ln (f * v) = ln (nu - 2 + q) - ln (nu + INR n - 2) + ln v)%coqR.
  rewrite ln_mult // -ln_div //. congr (ln _ + _)%coqR. rewrite /f /t_factor. congr (_ / _)%coqR. ring.
have G1 : (0 < gamma (nu / 2))%coqR by apply: G; lra.
have G2 : (0 < gamma ((nu + INR n) / 2))%coqR by apply: G; lra.
have G3 : (0 < gamma ((nu + INR n + 1) / 2))%coqR by apply: G; lra.
have -> : ((nu + INR (n + 1)) / 2 = (nu + INR n + 1) / 2)%coqR by rewrite E1; field.
rewrite L1 L2 L3 L4 E1 !ln_div // (ln_mult _ _ A P0) (ln_mult _ _ B P0) (ln_mult _ _ D V). field. split; lra.
Qed.

Section Lik.
Variables (name : string) (h : dict NumR) (d : nat) (ls : pyval NumR) (s nz : R) (K : elem -> elem -> R)
  (pm : prior NumR) (m : elem -> R) (inv : list (list R) -> res (list (list R))).
Hypotheses (RG : regression name h d ls s nz K pm m) (HI : inv_contract inv).
Notation predict := (@predict_with_hyps NumR exp inv).
Let KS := K_sym RG.
Let KP := K_psd RG.
Let T := shift_pos nz.

Lemma residual_prior X Y p : prior_is pm m -> @get_prior_mu NumR pm X = Ok p -> column (alen X) p /\ forall i, lt i (alen X) -> residual Y p i = resid m X Y i.
Proof.
move=> P E. have [q [Eq [Hq V]]] := prior_ok X P. move: Eq. rewrite E => [[?]]; subst q. split=> // i Hi.
by rewrite /residual /resid /out V.
Qed.
Lemma quad_gram X C B (r r' : nat -> R) : fits name X d -> @train_cov NumR exp X h name = Ok C -> is_inverse (alen X) C B ->
  (forall i, lt i (alen X) -> r i = r' i) ->
  quad (alen X) B r = qf (invmx (gram K (alen X) (elem_nth X) (shift nz))) (colof (alen X) r').
Proof.
move=> F EC HB E. rewrite quad_qf (inverse_mx F (reg_hyps RG) (reg_cov RG) EC HB). congr qf. apply/matrixP=> i j. rewrite !mxE E //. exact/ltP.
Qed.
Lemma det_gram X C : fits name X d -> @train_cov NumR exp X h name = Ok C ->
  det (alen X) C = \det (gram K (alen X) (elem_nth X) (shift nz)).
Proof. by move=> F EC; rewrite detE (train_gram F (reg_hyps RG) (reg_cov RG) EC).2. Qed.

Section Step.
Variables (X X' Xs : arr NumR) (Y Y' : mat NumR) (p p' : mat NumR) (k : nat).
Hypotheses (F : fits name X d) (F' : fits name X' d) (Fs : fits name Xs d) (H : column (alen X) Y) (H' : column (alen X') Y') (Hk : lt k (alen Xs))
  (EX : elems X' = elems X ++ [:: elem_nth Xs k]) (EY : forall i, lt i (alen X) -> out Y' i = out Y i)
  (Ep : @get_prior_mu NumR pm X = Ok p) (Ep' : @get_prior_mu NumR pm X' = Ok p').
Lemma step_len : alen X' = (alen X + 1)%N.
Proof. rewrite -!elems_len EX. have := List.app_length (elems X) [:: elem_nth Xs k]. by []. Qed.
Lemma step_old (i : 'I_(alen X)) : elem_nth X' i = elem_nth X i.
Proof.
rewrite /elem_nth EX. have := @List.app_nth1 _ (elems X) [:: elem_nth Xs k] (EPoint [::]) i. apply. rewrite elems_len. exact/ltP.
Qed.
Lemma step_new : elem_nth X' (alen X) = elem_nth Xs k.
Proof.
rewrite {1}/elem_nth EX. have := @List.app_nth2 _ (elems X) [:: elem_nth Xs k] (EPoint [::]) (alen X).
rewrite elems_len PeanoNat.Nat.sub_diag /=. by apply.
Qed.
Lemma step_terms C B C' B' mu sd S : @train_cov NumR exp X h name = Ok C -> is_inverse (alen X) C B ->
  @train_cov NumR exp X' h name = Ok C' -> is_inverse (alen X') C' B' -> predict X Y Xs h name pm = Ok (mu, sd, S) ->
  let v := (at_ S k k + nz * nz)%coqR in let r := (out Y' (alen X) - at_ mu k 0)%coqR in
  (0 <R v) /\ det (alen X') C' = (det (alen X) C * v)%coqR /\
  quad (alen X') B' (residual Y' p') = (quad (alen X) B (residual Y p) + r * r / v)%coqR.
Proof.
move=> EC HB EC' HB' E v r.
have [m1 [d1 [s1 [E1' [A1 [B1 [C1 [M1 [D1 P1]]]]]]]]] := predict_ok RG HI F Fs H.
move: E1'. rewrite E => [[? ? ?]]; subst m1 d1 s1.
have [_ V1] := residual_prior Y (reg_prior RG) Ep. have [_ V2] := residual_prior Y' (reg_prior RG) Ep'.
have Ev : v = pcov K (alen X) (elem_nth X') (shift nz) (elem_nth X' (alen X)) (elem_nth X' (alen X)) + shift nz.
  rewrite /v P1 // PeanoNat.Nat.eqb_refl /cov_at2 step_new (pcov_ext K (shift nz) _ _ step_old) shift_eq.
  move: (pcov _ _ _ _ _ _) => q. toR. match goal with |- @eq _ ?x ?y => change (@eq R x y) end. ring.
have V := v_pos KS KP (alen X) (elem_nth X') T. rewrite -Ev in V.
have Er : r = resid m X' Y' (alen X) - pmean0 K (alen X) (elem_nth X') (shift nz) (resid m X' Y') (elem_nth X' (alen X)).
  have -> : pmean0 K (alen X) (elem_nth X') (shift nz) (resid m X' Y') (elem_nth X' (alen X)) = pmean0 K (alen X) (elem_nth X) (shift nz) (resid m X Y) (elem_nth X' (alen X)).
    apply: pmean_ext; first exact: step_old. move=> i. rewrite /resid step_old EY //. exact/ltP.
  rewrite /r M1 // /mean_at /resid step_new.
  move: (pmean0 _ _ _ _ _ _) (m _) (out _ _) => a b c. toR. match goal with |- @eq _ ?x ?y => change (@eq R x y) end. ring.
split=> //. split.
- rewrite (det_gram F' EC') (det_gram F EC) step_len (@det_border _ _ KS KP _ _ _ T) -Ev. by rewrite (gram_ext K (shift nz) step_old).
- rewrite (quad_gram F' EC' HB' V2) (quad_gram F EC HB V1) step_len (@quad_border _ _ KS KP _ _ _ T) -Er -Ev RinvE; last by move=> Z; rewrite Z in V; exact: (Rlt_irrefl _ V).
  rewrite (gram_ext K (shift nz) step_old).
  have -> : colof (alen X) (resid m X' Y') = colof (alen X) (resid m X Y).
    apply/matrixP=> i j. rewrite !mxE /resid step_old EY //. exact/ltP.
  by [].
Qed.

Lemma gauss_chain th ard fx chol cho_solve slogdet ug ug' mu sd S v1 g1 v2 g2 : slogdet_contract slogdet -> (0 < alen X)%N ->
  @restore_hyps NumR name th true ard fx (GP_NOISE NumR) = Ok h ->
  predict X Y Xs h name pm = Ok (mu, sd, S) ->
  @neg_log_ml NumR exp ln PI inv chol cho_solve slogdet X Y th name p ard fx false ug = Ok (v1, g1) ->
  @neg_log_ml NumR exp ln PI inv chol cho_solve slogdet X' Y' th name p' ard fx false ug' = Ok (v2, g2) ->
  (INR (alen X') * v2 = INR (alen X) * v1 + normal_nll (at_ mu k 0) (at_ S k k + nz * nz) (out Y' (alen X)))%coqR.
Proof.
move=> HD Hn ER E E1 E2.
have [Hp _] := residual_prior Y (reg_prior RG) Ep. have [Hp' _] := residual_prior Y' (reg_prior RG) Ep'.
have [C [B [EC [HB [DP EV]]]]] := ml_inverse F (reg_hyps RG) (reg_cov RG) H Hp chol cho_solve HI HD ug ER.
have [C' [B' [EC' [HB' [DP' EV']]]]] := ml_inverse F' (reg_hyps RG) (reg_cov RG) H' Hp' chol cho_solve HI HD ug' ER.
rewrite E1 in EV. rewrite E2 in EV'. case: EV => -> _. case: EV' => -> _.
have [V [ED EQ]] := step_terms EC HB EC' HB' E. rewrite /gauss_nll EQ ED step_len.
exact: gauss_step.
Qed.

Lemma student_chain th ard fx slogdet gamma digamma nu mu sd S r v1 g1 v2 g2 : slogdet_contract slogdet -> (0 < alen X)%N ->
  (forall x, 0 < x -> 0 < gamma x)%coqR -> (2 < nu)%coqR -> dget h "dof" = Some (PFloat NumR nu) ->
  @restore_hyps NumR name th false ard fx (GP_NOISE NumR) = Ok h ->
  @tp_predict_with_hyps NumR exp inv X Y Xs h name pm = Ok (r, mu, sd, S) ->
  @tp_neg_log_ml NumR exp ln PI inv slogdet gamma digamma X Y th name p ard fx false = Ok (v1, g1) ->
  @tp_neg_log_ml NumR exp ln PI inv slogdet gamma digamma X' Y' th name p' ard fx false = Ok (v2, g2) ->
  exists C B, @get_kernel_inverse NumR exp inv X h name true false = Ok (C, B, None) /\
  let f := t_factor nu (beta_of m X Y B) (alen X) in
  (INR (alen X') * v2 = INR (alen X) * v1 + student_nll1 gamma (at_ mu k 0) (at_ S k k + f * (nz * nz)) r (out Y' (alen X)))%coqR.
Proof.
move=> HD Hn G N2 ND ER E E1 E2.
have [Hp V1] := residual_prior Y (reg_prior RG) Ep. have [Hp' _] := residual_prior Y' (reg_prior RG) Ep'.
have [C [B [EC [HB [DP [_ [_ EV]]]]]]] := tp_value F (reg_hyps RG) (reg_cov RG) H Hp gamma digamma HI HD ER ND.
have [C' [B' [EC' [HB' [DP' [_ [_ EV']]]]]]] := tp_value F' (reg_hyps RG) (reg_cov RG) H' Hp' gamma digamma HI HD ER ND.
rewrite E1 in EV. rewrite E2 in EV'. case: EV => -> _. case: EV' => -> _.
have [mu0 [sd0 [S0 [B0 [C0 [sd1 [S1 [EI [E0 [ET [_ [_ [BG [VS _]]]]]]]]]]]]]] := tp_predict_ok RG HI F Fs H ND.
move: ET. rewrite E => [[? ? ? ?]]; subst r mu0 sd1 S1.
have [C1 [B1 [EI1 [EC1 [SC [HB1 _]]]]]] := inverse_ok F (reg_hyps RG) (reg_cov RG) HI.
move: EI1. rewrite EI => [[? ?]]; subst C1 B1. rewrite EC in EC1. case: EC1 => ?; subst C0.
have ? := inverse_unique HB HB1. subst B0.
exists C, B. split=> //.
have EB : beta_of m X Y B = quad (alen X) B (residual Y p).
  rewrite /beta_of /quad !Rsum_big. apply: eq_bigr => i _. rewrite !Rsum_big. apply: eq_bigr => j _.
  rewrite !V1 /resid; try exact/ltP. move: (out _ _) (out _ _) (m _) (m _) (at_ _ _ _) => a b c e z.
  match goal with |- @eq _ ?x ?y => change (@eq R x y) end. ring.
have [V [ED EQ]] := step_terms EC HB EC' HB' E0.
rewrite (VS k k Hk Hk) EB /student_nll /student_nll1 EQ ED step_len. move: BG. rewrite EB.
rewrite -Rmult_plus_distr_l => BG. exact: (@student_step gamma (alen X) nu _ _ (out Y' (alen X) - at_ mu k 0)%coqR _ DP V Hn N2 BG G).
Qed.
End Step.
End Lik.
