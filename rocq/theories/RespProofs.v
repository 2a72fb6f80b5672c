(** Regression under a change of the unit and the origin of the responses. *)
From Verif Require Import Base Num UtilsSpec UtilsRProofs HypsModel CovModel KernelSpec CovSpec PSD CovMx CovProofs CovProofs2 RStruct MatLib GPModel GPSpec GPProofs GPMx GPProofs2 GPProofs3
  LikModel LikSpec LikMx LikProofs GradSpec GradReal TPGrad PredSpec PredMx PredProofs PredUnits PredInv PredLik StudentProofs OrderProofs.
From Coq Require Import Reals Lra Lia.
From mathcomp Require Import all_ssreflect perm all_algebra.
Set Implicit Arguments.
Unset Strict Implicit.
Unset Printing Implicit Defensive.
Import GRing.Theory.
Delimit Scope R_scope with coqR.
Local Open Scope ring_scope.

(** the kernel with the signal in the new unit *)
Lemma cov_scaled name ls s c d K K' : cov_of name ls s d = Some K -> cov_of name ls (c * s)%coqR d = Some K' ->
  forall e e', K' e e' = (c * c * K e e')%coqR.
Proof.
have B : forall pr x y, base_kernel pr ls (c * s)%coqR d x y = (c * c * base_kernel pr ls s d x y)%coqR by move=> pr x y; rewrite /base_kernel; toRs; ring.
rewrite /cov_of. case: (profile_of name) => [pr|].
  by move=> [<-] [<-] e e'.
case: (set_profile_of name) => [pr|] // [<-] [<-] e e'. rewrite /set_average.
have E : forall xs ys, Rsum (List.map (fun x => Rsum (List.map (fun y => base_kernel pr ls (c * s)%coqR d x y) ys)) xs)
   = (c * c * Rsum (List.map (fun x => Rsum (List.map (fun y => base_kernel pr ls s d x y) ys)) xs))%coqR.
  move=> xs ys. rewrite -Rsum_map_scal. congr Rsum. apply: List.map_ext => x. rewrite -Rsum_map_scal. congr Rsum. apply: List.map_ext => y. exact: B.
rewrite E. rewrite /Rdiv. toRs. ring.
Qed.

Section Scale.
Variables (T : Type) (K K' : T -> T -> R) (c t t' : R).
Hypotheses (KS : forall a b, K a b = K b a) (KP : psd K) (KS' : forall a b, K' a b = K' b a) (KP' : psd K') (HT : 0 <R t) (HT' : 0 <R t')
  (HC : c <> R0) (HK : forall a b, K' a b = (c * c * K a b)%coqR) (ET : t' = (c * c * t)%coqR).
Lemma gram_scaled n x : gram K' n x t' = (c * c) *: gram K n x t.
Proof. apply/matrixP=> i j. rewrite [RHS]mxE !gramE HK ET. case: (i == j); move: (K _ _) => k; toRs; ring. Qed.
Lemma kvec_scaled n x z : kvec K' n x z = (c * c) *: kvec K n x z.
Proof. apply/matrixP=> i j. rewrite !mxE. exact: HK. Qed.
Lemma weights_scaled n x z : weights K' n x t' z = weights K n x t z.
Proof.
symmetry. apply: (weights_unique KP') => //. by rewrite gram_scaled -scalemxAl weights_eq // kvec_scaled.
Qed.
Lemma pmean_scaled n x (r r' : nat -> R) z : (forall i : 'I_n, r' i = (c * r i)%coqR) -> pmean0 K' n x t' r' z = (c * pmean0 K n x t r z)%coqR.
Proof.
move=> E. rewrite /pmean0 weights_scaled !dotE. change (c * \sum_i _)%coqR with (c * \sum_i weights K n x t z i 0 * colof n r i 0). rewrite mulr_sumr.
apply: eq_bigr => i _. rewrite [colof n r' i 0]mxE [colof n r i 0]mxE E. move: (weights _ _ _ _ _ _ _) (r i) => a b. toRs. ring.
Qed.
Lemma pcov_scaled n x z z' : pcov K' n x t' z z' = (c * c * pcov K n x t z z')%coqR.
Proof.
rewrite /pcov weights_scaled kvec_scaled HK !dotE.
have -> : \sum_i weights K n x t z i 0 * (c * c *: kvec K n x z') i 0 = (c * c) * \sum_i weights K n x t z i 0 * kvec K n x z' i 0.
  rewrite mulr_sumr. apply: eq_bigr => i _. rewrite [(c * c *: kvec K n x z') i 0]mxE. by rewrite mulrCA.
move: (\sum_i _) (K _ _) => a b. toRs. ring.
Qed.
Lemma quad_scaled n x (r r' : nat -> R) : (forall i : 'I_n, r' i = (c * r i)%coqR) ->
  qf (invmx (gram K' n x t')) (colof n r') = qf (invmx (gram K n x t)) (colof n r).
Proof.
move=> E. have U := gram_unit KP n x HT. have U' := gram_unit KP' n x HT'.
pose u := invmx (gram K n x t) *m colof n r.
have Q : forall (A : 'M[R]_n) b, qf A b = dot b (A *m b) by move=> A b; rewrite /qf /dot mulmxA.
have ER : colof n r' = c *: colof n r by apply/matrixP=> i j; rewrite !mxE.
have EU : invmx (gram K' n x t') *m colof n r' = c^-1 *: u.
  have -> : colof n r' = gram K' n x t' *m (c^-1 *: u); last by rewrite mulKmx.
  rewrite gram_scaled -scalemxAl -scalemxAr /u mulKVmx // scalerA ER. congr (_ *: _). have CN : c != 0 by apply/eqP.
  by rewrite -mulrA mulfV // mulr1.
rewrite !Q EU ER -/u !dotE. apply: eq_bigr => i _. rewrite [(c *: colof n r) i 0]mxE [(c^-1 *: u) i 0]mxE. have CN : c != 0 by apply/eqP.
rewrite mulrACA mulfV // mul1r. by [].
Qed.
Lemma det_scaled n x : \det (gram K' n x t') = (c * c) ^+ n * \det (gram K n x t).
Proof. by rewrite gram_scaled detZ. Qed.
End Scale.

Section Units.
Variables (name : string) (h h' : dict NumR) (d : nat) (ls : pyval NumR) (s nz nz' c b : R) (K K' : elem -> elem -> R)
  (pm pm' : prior NumR) (m m' : elem -> R) (inv : list (list R) -> res (list (list R))).
Hypotheses (RG : regression name h d ls s nz K pm m) (RG' : regression name h' d ls (c * s)%coqR nz' K' pm' m') (HI : inv_contract inv).
Hypotheses (HC : c <> R0) (HN : (nz' * nz' + jitter_cov = c * c * (nz * nz + jitter_cov))%coqR) (HM : forall e, m' e = (c * m e + b)%coqR).
Notation predict := (@predict_with_hyps NumR exp inv).
Notation tpredict := (@tp_predict_with_hyps NumR exp inv).
Let HK : forall e e', K' e e' = (c * c * K e e')%coqR := cov_scaled (reg_cov RG) (reg_cov RG').
Let ET : shift nz' = (c * c * shift nz)%coqR.
Proof. move: HN. rewrite /shift /jitter_cov => E. toRs. lra. Qed.
Variables (X : arr NumR) (Y Y' : mat NumR).
Hypotheses (F : fits name X d) (HY : column (alen X) Y) (HY' : column (alen X) Y')
  (EY : forall i, lt i (alen X) -> out Y' i = (c * out Y i + b)%coqR).
Let ER : forall i : 'I_(alen X), resid m' X Y' i = (c * resid m X Y i)%coqR.
Proof. move=> i. rewrite /resid HM EY; last exact/ltP. move: (out _ _) (m _) => p q. toRs. ring. Qed.

Lemma predict_scaled Xs mu sd S : fits name Xs d -> predict X Y Xs h name pm = Ok (mu, sd, S) ->
  exists mu' sd' S', predict X Y' Xs h' name pm' = Ok (mu', sd', S') /\
    (forall j, lt j (alen Xs) -> at_ mu' j 0 = (c * at_ mu j 0 + b)%coqR) /\
    (forall j k, lt j (alen Xs) -> lt k (alen Xs) -> let e := if PeanoNat.Nat.eqb j k then jitter_cov else R0 in
       (at_ S' j k - e = c * c * (at_ S j k - e))%coqR) /\
    (forall j, lt j (alen Xs) -> (at_ sd' j 0 * at_ sd' j 0 - jitter_cov = c * c * (at_ sd j 0 * at_ sd j 0 - jitter_cov))%coqR).
Proof.
move=> Fs E.
have [m1 [d1 [s1 [E1 [A1 [B1 [C1 [M1 [D1 P1]]]]]]]]] := predict_ok RG HI F Fs HY.
have [m2 [d2 [s2 [E2 [A2 [B2 [C2 [M2 [D2 P2]]]]]]]]] := predict_ok RG' HI F Fs HY'.
move: E1. rewrite E => [[? ? ?]]; subst m1 d1 s1. exists m2, d2, s2. split=> //.
have SS : forall j k, lt j (alen Xs) -> lt k (alen Xs) -> let e := if PeanoNat.Nat.eqb j k then jitter_cov else R0 in (at_ s2 j k - e = c * c * (at_ S j k - e))%coqR.
  move=> j k Hj Hk e. rewrite P1 // P2 // -/e /cov_at2 (pcov_scaled (K_psd RG) (K_psd RG') (shift_pos nz) (shift_pos nz') HK ET).
  move: (pcov _ _ _ _ _ _) e => p e. toRs. ring.
split; [|split=> //].
- move=> j Hj. rewrite M1 // M2 // /mean_at (pmean_scaled (K_psd RG) (K_psd RG') (shift_pos nz) (shift_pos nz') HK ET (elem_nth X) _ ER) HM.
  move: (pmean0 _ _ _ _ _ _) (m _) => p q. toRs. ring.
- move=> j Hj. have SJ := SS j j Hj Hj. move: SJ. rewrite PeanoNat.Nat.eqb_refl /=. rewrite D1 // D2 //.
  have G := cov_diag_ge0 RG X (elem_nth Xs j). have G' := cov_diag_ge0 RG' X (elem_nth Xs j). have J := jitter_pos.
  rewrite !sqrt_sqrt //.
  + rewrite P1 // PeanoNat.Nat.eqb_refl. move: G J. move: (cov_at2 _ _ _ _ _) jitter_cov => p q. toRs. lra.
  + rewrite P2 // PeanoNat.Nat.eqb_refl. move: G' J. move: (cov_at2 _ _ _ _ _) jitter_cov => p q. toRs. lra.
Qed.

Lemma tpredict_scaled Xs nu r mu sd S : fits name Xs d -> dget h "dof" = Some (PFloat NumR nu) -> dget h' "dof" = Some (PFloat NumR nu) ->
  tpredict X Y Xs h name pm = Ok (r, mu, sd, S) ->
  exists mu' sd' S' f m0 d0 S0 m0' d0' S0', tpredict X Y' Xs h' name pm' = Ok (r, mu', sd', S') /\
    (forall j, lt j (alen Xs) -> at_ mu' j 0 = (c * at_ mu j 0 + b)%coqR) /\
    predict X Y Xs h name pm = Ok (m0, d0, S0) /\ predict X Y' Xs h' name pm' = Ok (m0', d0', S0') /\
    (forall j k, lt j (alen Xs) -> lt k (alen Xs) -> at_ S j k = (f * at_ S0 j k)%coqR /\ at_ S' j k = (f * at_ S0' j k)%coqR).
Proof.
move=> Fs ND ND' E.
have [m1 [d1 [s1 [d1' [s1' [E1 [T1 [A1 [B1 [_ [V1 W1]]]]]]]]]]] := tp_ok RG HI ND F Fs HY.
have [m2 [d2 [s2 [d2' [s2' [E2 [T2 [A2 [B2 [_ [V2 W2]]]]]]]]]]] := tp_ok RG' HI ND' F Fs HY'.
move: T1. rewrite E => [[? ? ? ?]]; subst r m1 d1' s1'.
have [m3 [d3 [s3 [E3 [M3 [S3 _]]]]]] := predict_scaled Fs E1. move: E3. rewrite E2 => [[? ? ?]]; subst m3 d3 s3.
have EB : tbeta nz' K' m' X Y' = tbeta nz K m X Y.
  exact: (quad_scaled (K_psd RG) (K_psd RG') (shift_pos nz) (shift_pos nz') HC HK ET (elem_nth X) ER).
exists m2, d2', s2', (t_factor nu (tbeta nz K m X Y) (alen X)), mu, d1, s1, m2, d2, s2. do 4 (split=> //).
move=> j k Hj Hk. by rewrite V1 // V2 // EB.
Qed.

(** likelihoods *)
Lemma terms_scaled (q q' : mat NumR) C B C' B' : (forall i, lt i (alen X) -> out q' i = (c * out q i + b)%coqR) ->
  @train_cov NumR exp X h name = Ok C -> is_inverse (alen X) C B -> @train_cov NumR exp X h' name = Ok C' -> is_inverse (alen X) C' B' ->
  det (alen X) C' = ((c * c) ^+ alen X * det (alen X) C) /\ quad (alen X) B' (residual Y' q') = quad (alen X) B (residual Y q) /\
  (forall i j, lt i (alen X) -> lt j (alen X) -> (c * c * at_ B' i j = at_ B i j)%coqR).
Proof.
move=> EQ EC HB EC' HB'. split.
  rewrite (det_gram RG F EC) (det_gram RG' F EC'). exact: det_scaled.
have E : forall i : 'I_(alen X), residual Y' q' i = (c * residual Y q i)%coqR.
  move=> i. rewrite /residual EY ?EQ; try exact/ltP. move: (out _ _) (out _ _) => p r. toRs. ring.
split.
  rewrite (quad_gram RG F EC HB (r' := residual Y q)) // (quad_gram RG' F EC' HB' (r' := residual Y' q')) //.
  exact: (quad_scaled (K_psd RG) (K_psd RG') (shift_pos nz) (shift_pos nz') HC HK ET (elem_nth X) E).
have MI := inverse_mx F (reg_hyps RG) (reg_cov RG) EC HB. have MI' := inverse_mx F (reg_hyps RG') (reg_cov RG') EC' HB'.
have U := gram_unit (K_psd RG) (alen X) (elem_nth X) (shift_pos nz). have U' := gram_unit (K_psd RG') (alen X) (elem_nth X) (shift_pos nz').
have G := gram_scaled HK ET (alen X) (elem_nth X).
have EI : (c * c) *: mxof (alen X) (alen X) B' = mxof (alen X) (alen X) B.
  rewrite MI MI'. have Q : invmx (gram K (alen X) (elem_nth X) (shift nz)) *m gram K' (alen X) (elem_nth X) (shift nz') = (c * c) *: 1%:M by rewrite G -scalemxAr mulVmx.
  by rewrite -[RHS]mulmx1 -(mulmxV U') mulmxA Q -scalemxAl mul1mx.
move=> i j Hi Hj. have Hi' := introT ltP Hi. have Hj' := introT ltP Hj. move/matrixP: EI => /(_ (Ordinal Hi') (Ordinal Hj')). by rewrite !mxE.
Qed.
Lemma ln_sq : ln (c * c)%coqR = (2 * ln (Rabs c))%coqR.
Proof.
have P : (0 < Rabs c)%coqR by exact: Rabs_pos_lt. have -> : (c * c = Rabs c * Rabs c)%coqR by rewrite -Rabs_mult Rabs_pos_eq //; exact: Rle_0_sqr.
rewrite ln_mult //. toRs. ring.
Qed.
Lemma ln_det_scaled n D : (0 < D)%coqR -> ln ((c * c) ^+ n * D) = (2 * INR n * ln (Rabs c) + ln D)%coqR.
Proof.
move=> P. have PC : (0 < c * c)%coqR by toRs; nra. rewrite -pow_exp. etransitivity; first by apply: ln_mult => //; apply: pow_lt.
have -> : ln ((c * c) ^ n)%coqR = (INR n * ln (c * c)%coqR)%coqR.
  elim: n => [|n IH]; first by rewrite /= ln_1; toRs; ring.
  rewrite S_INR -tech_pow_Rmult ln_mult //; last exact: pow_lt. rewrite IH. toRs. ring.
rewrite ln_sq. toRs. ring.
Qed.
Lemma ml_scaled q q' th th' ard ard' fx fx' chol cho_solve slogdet ug ug' : column (alen X) q -> column (alen X) q' -> slogdet_contract slogdet -> lt 0 (alen X) ->
  (forall i, lt i (alen X) -> out q' i = (c * out q i + b)%coqR) ->
  @restore_hyps NumR name th true ard fx (GP_NOISE NumR) = Ok h -> @restore_hyps NumR name th' true ard' fx' (GP_NOISE NumR) = Ok h' ->
  exists v v', @neg_log_ml NumR exp ln PI inv chol cho_solve slogdet X Y th name q ard fx false ug = Ok (v, None) /\
    @neg_log_ml NumR exp ln PI inv chol cho_solve slogdet X Y' th' name q' ard' fx' false ug' = Ok (v', None) /\
    v' = (v + ln (Rabs c))%coqR.
Proof.
move=> Hq Hq' HD Hn EQ ER1 ER2.
have [C [B [EC [HB [PD V]]]]] := ml_inverse F (reg_hyps RG) (reg_cov RG) HY Hq chol cho_solve HI HD ug ER1.
have [C' [B' [EC' [HB' [PD' V']]]]] := ml_inverse F (reg_hyps RG') (reg_cov RG') HY' Hq' chol cho_solve HI HD ug' ER2.
have [E1 [E2 _]] := terms_scaled EQ EC HB EC' HB'.
eexists _, _. split; first exact: V. split; first exact: V'. rewrite /gauss_nll E1 E2 ln_det_scaled //.
have N0 : INR (alen X) <> R0 by apply: not_0_INR; lia. move: (quad _ _ _) (ln (det _ _)) (ln (Rabs c)) (ln (2 * PI)) (INR _) N0 => p q0 r s0 n0 N0. toR. match goal with |- @eq _ ?x ?y => change (@eq R x y) end. field. exact: N0.
Qed.
Lemma tml_scaled q q' th th' ard ard' fx fx' slogdet gamma digamma nu : column (alen X) q -> column (alen X) q' -> slogdet_contract slogdet -> lt 0 (alen X) ->
  (forall i, lt i (alen X) -> out q' i = (c * out q i + b)%coqR) ->
  @restore_hyps NumR name th false ard fx (GP_NOISE NumR) = Ok h -> @restore_hyps NumR name th' false ard' fx' (GP_NOISE NumR) = Ok h' ->
  dget h "dof" = Some (PFloat NumR nu) -> dget h' "dof" = Some (PFloat NumR nu) ->
  exists v v', @tp_neg_log_ml NumR exp ln PI inv slogdet gamma digamma X Y th name q ard fx false = Ok (v, None) /\
    @tp_neg_log_ml NumR exp ln PI inv slogdet gamma digamma X Y' th' name q' ard' fx' false = Ok (v', None) /\
    v' = (v + ln (Rabs c))%coqR.
Proof.
move=> Hq Hq' HD Hn EQ ER1 ER2 ND ND'.
have [C [B [EC [HB [PD [_ [_ V]]]]]]] := tp_value F (reg_hyps RG) (reg_cov RG) HY Hq gamma digamma HI HD ER1 ND.
have [C' [B' [EC' [HB' [PD' [_ [_ V']]]]]]] := tp_value F (reg_hyps RG') (reg_cov RG') HY' Hq' gamma digamma HI HD ER2 ND'.
have [E1 [E2 _]] := terms_scaled EQ EC HB EC' HB'.
eexists _, _. split; first exact: V. split; first exact: V'. rewrite /student_nll E1 E2 ln_det_scaled //.
have N0 : INR (alen X) <> R0 by apply: not_0_INR; lia.
move: (INR _) N0 (ln (1 + _)%coqR) (ln (det _ _)) (ln (Rabs c)) (ln ((nu - 2) * PI)%coqR) (ln (_ / _)%coqR) => n0 N0 p q0 r s0 g0. toR. match goal with |- @eq _ ?x ?y => change (@eq R x y) end. field. exact: N0.
Qed.
(** the default computation, with the offset of the logarithms *)
Lemma mlc_scaled q q' th th' ard ard' fx fx' inv' chol cho_solve slogdet ug ug' v g v' g' : column (alen X) q -> column (alen X) q' -> chol_contract chol -> cho_solve_contract cho_solve -> lt 0 (alen X) ->
  (forall i, lt i (alen X) -> out q' i = (c * out q i + b)%coqR) ->
  @restore_hyps NumR name th true ard fx (GP_NOISE NumR) = Ok h -> @restore_hyps NumR name th' true ard' fx' (GP_NOISE NumR) = Ok h' ->
  @neg_log_ml NumR exp ln PI inv' chol cho_solve slogdet X Y th name q ard fx true ug = Ok (v, g) ->
  @neg_log_ml NumR exp ln PI inv' chol cho_solve slogdet X Y' th' name q' ard' fx' true ug' = Ok (v', g') ->
  (- (/ 10000000 / sqrt (shift nz)) <= v' - v - ln (Rabs c) <= / 10000000 / sqrt (shift nz'))%coqR.
Proof.
move=> Hq Hq' HCh HS Hn EQ ER1 ER2 E E'. have Hn' : (0 < alen X)%N by apply/ltP.
have [C [B [L [EC [HB [HL [_ V]]]]]]] := @ml_cholesky name h d ls s nz K X F (reg_hyps RG) (reg_cov RG) Y q HY Hq th ard fx inv chol cho_solve slogdet HI HCh HS ug v g Hn' ER1 E.
have [C' [B' [L' [EC' [HB' [HL' [_ V']]]]]]] := @ml_cholesky name h' d ls _ nz' K' X F (reg_hyps RG') (reg_cov RG') Y' q' HY' Hq' th' ard' fx' inv chol cho_solve slogdet HI HCh HS ug' v' g' Hn' ER2 E'.
have [E1 [E2 _]] := terms_scaled EQ EC HB EC' HB'.
have PD : (0 < det (alen X) C)%coqR.
  have [C0 [B0 [_ [EC0 [_ [_ [YC DC]]]]]]] := inverse_ok F (reg_hyps RG) (reg_cov RG) HI. move: EC0; rewrite EC => [[?]]; subst C0. exact: det_definite_pos.
have S1 := chol_sum F (reg_hyps RG) (reg_cov RG) EC HL Hn'. have S2 := chol_sum F (reg_hyps RG') (reg_cov RG') EC' HL' Hn'.
have G : gauss_nll (alen X) C' B' (residual Y' q') = (gauss_nll (alen X) C B (residual Y q) + ln (Rabs c))%coqR.
  rewrite /gauss_nll E1 E2 ln_det_scaled //. have N0 : INR (alen X) <> R0 by apply: not_0_INR; lia.
  move: (quad _ _ _) (ln (det _ _)) (ln (Rabs c)) (ln (2 * PI)) (INR _) N0 => p q0 r s0 n0 N0. toR. match goal with |- @eq _ ?x ?y => change (@eq R x y) end. field. exact: N0.
rewrite V V' G. move: (gauss_nll _ _ _ _) (ln _) (Rsum _ / _)%coqR (Rsum _ / _)%coqR S1 S2 => z l a e S1 S2. lra.
Qed.
End Units.

(** one observation *)
Lemma pmean_one T (K : T -> T -> R) (x : nat -> T) t r z : psd K -> (forall a b, K a b = K b a) -> 0 <R t ->
  pmean0 K 1 x t r z = (K (x 0%N) z / (K (x 0%N) (x 0%N) + t) * r 0%N)%coqR.
Proof.
move=> KP KS HT.
have P : (0 <= K (x 0%N) (x 0%N))%coqR.
  have := pcov_le KS KP 1 x (x 0%N) HT. have := pcov_ge0 KS KP 1 x (x 0%N) HT. move: (pcov _ _ _ _ _ _) => p. move=> *. toRs. lra.
pose k := K (x 0%N) (x 0%N). have NZ : (k + t)%coqR <> R0 by rewrite /k; move: HT P; toRs; lra.
have W : const_mx (K (x 0%N) z / (k + t))%coqR = weights K 1 x t z :> 'cV[R]_1.
  apply: (weights_unique KP) => //. apply/matrixP=> i j. rewrite !mxE big_ord1 gramE !ord1 eqxx mxE -/k.
  change (x (@ord0 0)) with (x 0%N). move: (K (x 0%N) z) => q. toR. match goal with |- @eq _ ?a ?b => change (@eq R a b) end. field. exact: NZ.
rewrite /pmean0 -W dotE big_ord1 !mxE. by [].
Qed.
Lemma predict_one name h d ls s nz K inv (x : list R) y mu sd S : regression name h d ls s nz K None (fun=> R0) -> inv_contract inv ->
  let X := A2 NumR (mkmat [:: x] (List.length x)) in fits name X d ->
  @predict_with_hyps NumR exp inv X (mkmat [:: [:: y]] 1) X h name None = Ok (mu, sd, S) ->
  at_ mu 0 0 = (K (EPoint x) (EPoint x) / (K (EPoint x) (EPoint x) + shift nz) * y)%coqR.
Proof.
move=> RG HI X F E. have HY : column (alen X) (mkmat [:: [:: y]] 1) by split=> //; split=> // r [<-|[]].
have [m1 [d1 [s1 [E1 [_ [_ [_ [M1 _]]]]]]]] := predict_ok RG HI F F HY. move: E1. rewrite E => [[? ? ?]]; subst m1 d1 s1.
have L1 : lt 0 (alen X) by apply: Nat.lt_0_succ.
rewrite M1 // /mean_at. etransitivity; first exact: Rplus_0_r.
rewrite (pmean_one _ _ _ (K_psd RG) (K_sym RG) (shift_pos nz)). congr (_ * _)%coqR. rewrite /resid. exact: Rminus_0_r.
Qed.
