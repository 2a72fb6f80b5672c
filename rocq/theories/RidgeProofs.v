(** The posterior mean as a penalised least squares fit; outputs enter through their totals per input; only mutual
    distances matter. *)
From Verif Require Import Base Num UtilsSpec HypsModel CovModel KernelSpec CovSpec PSD CovProofs CovProofs2 RStruct MatLib GPModel GPSpec GPProofs GPMx GPProofs2 GPProofs3
  LikModel LikSpec LikMx LikProofs PredSpec PredMx PredProofs PredUnits CovMx RidgeSpec RidgeMx RidgeReal.
From Coq Require Import Reals Lra Lia List.
From mathcomp Require Import all_ssreflect perm all_algebra.
Set Implicit Arguments.
Unset Strict Implicit.
Unset Printing Implicit Defensive.
Import GRing.Theory.
Delimit Scope R_scope with coqR.
Local Open Scope ring_scope.

Section Fit.
Variables (name : String.string) (h : dict NumR) (d : nat) (ls : pyval NumR) (s nz : R) (K : elem -> elem -> R) (pm : prior NumR) (m : elem -> R).
Variable inv : list (list R) -> res (list (list R)).
Hypotheses (RG : regression name h d ls s nz K pm m) (HI : inv_contract inv).
Notation predict := (@predict_with_hyps NumR exp inv).
Let KS : forall a b, K a b = K b a := K_sym RG.
Let KP : psd K := K_psd RG.
Let T : 0 <R shift nz := shift_pos nz.

Lemma expansion_mx n x c e : expansion K n x c e = dot (colof n c) (kvec K n x e).
Proof. rewrite /expansion Rsum_big dotE. by apply: eq_bigr => i _; rewrite !mxE. Qed.
Lemma roughness_mx n x c : roughness K n x c = qf (kmx K n x) (colof n c).
Proof.
rewrite /roughness Rsum_big /qf bil. apply: eq_bigr => i _. rewrite Rsum_big. apply: eq_bigr => j _. rewrite !mxE.
by rewrite -!mulE -!mulrA [c j * _]mulrC.
Qed.
Lemma penalised_mx X Y c : penalised K m (shift nz) X Y c = loss K (elem_nth X) (shift nz) (colof (alen X) (resid m X Y)) (colof (alen X) c).
Proof.
rewrite /penalised /loss roughness_mx Rsum_big. congr (Rplus _ _). rewrite dotE. apply: eq_bigr => i _.
suff -> : (colof (alen X) (resid m X Y) - kmx K (alen X) (elem_nth X) *m colof (alen X) c) i 0 =
  (out Y i - (m (elem_nth X i) + expansion K (alen X) (elem_nth X) c (elem_nth X i)))%coqR by [].
have -> : expansion K (alen X) (elem_nth X) c (elem_nth X i) = (kmx K (alen X) (elem_nth X) *m colof (alen X) c) i 0.
  rewrite expansion_mx dotC dotE mxE. apply: eq_bigr => j _. by rewrite !mxE KS.
rewrite addmxE oppmxE. move: ((kmx _ _ _ *m _) i 0) => a. rewrite !mxE /resid. ringR.
Qed.

Lemma least_squares X Y : fits name X d -> column (alen X) Y -> exists c,
  (forall Xs mu sd S j, fits name Xs d -> predict X Y Xs h name pm = Ok (mu, sd, S) -> lt j (alen Xs) ->
     at_ mu j 0 = (m (elem_nth Xs j) + expansion K (alen X) (elem_nth X) c (elem_nth Xs j))%coqR) /\
  (forall u, Rle (penalised K m (nz * nz + jitter_cov)%coqR X Y c) (penalised K m (nz * nz + jitter_cov)%coqR X Y u)) /\
  (forall u, penalised K m (nz * nz + jitter_cov)%coqR X Y u = penalised K m (nz * nz + jitter_cov)%coqR X Y c ->
     forall e, expansion K (alen X) (elem_nth X) u e = expansion K (alen X) (elem_nth X) c e).
Proof.
move=> F HY. rewrite -shift_eq. pose a := coef K (elem_nth X) (shift nz) (colof (alen X) (resid m X Y)). exists (ofcol a). split; last split.
- move=> Xs mu sd S j Fs E Hj. have [m1 [d1 [s1 [E1 [A1 [B1 [C1 [M1 [D1 P1]]]]]]]]] := predict_ok RG HI F Fs HY.
  move: E1. rewrite E => [[? ? ?]]; subst m1 d1 s1. rewrite M1 // /mean_at expansion_mx colofK coef_mean //. by rewrite -addE addrC.
- move=> u. rewrite !penalised_mx colofK. exact: loss_min.
- move=> u E e. rewrite !penalised_mx colofK in E. rewrite !expansion_mx colofK. exact: (loss_unique KS KP T).
Qed.

Lemma repeated X Y Y' Xs : fits name X d -> fits name Xs d -> column (alen X) Y -> column (alen X) Y' ->
  (forall e, total_out X Y e = total_out X Y' e) -> predict X Y' Xs h name pm = predict X Y Xs h name pm.
Proof.
move=> F Fs HY HY' HT.
have [m1 [d1 [s1 [E1 [A1 [B1 [C1 [M1 [D1 P1]]]]]]]]] := predict_ok RG HI F Fs HY.
have [m2 [d2 [s2 [E2 [A2 [B2 [C2 [M2 [D2 P2]]]]]]]]] := predict_ok RG HI F Fs HY'.
rewrite E1 E2.
have QS : s2 = s1 by apply: (is_mx_eq C2 C1) => i j Hi Hj; rewrite P2 // P1.
have QD : d2 = d1.
  apply: (is_mx_eq B2 B1) => i j Hi Hj. have -> : j = 0%N by lia. by rewrite D2 // D1 // QS.
have QM : m2 = m1.
  apply: (is_mx_eq A2 A1) => i j Hi Hj. have -> : j = 0%N by lia. rewrite M2 // M1 // /mean_at. congr (_ + _).
  set z := elem_nth Xs i. set n := alen X. set x := elem_nth X.
  pose g e := (K e z - \sum_(j < n) K e (x j) * weights K n x (shift nz) z j 0) / shift nz.
  have G := @totals_sum X Y Y' g HT. rewrite Rsum_big in G.
  have H : dot (weights K n x (shift nz) z) (colof n (resid m X Y') - colof n (resid m X Y)) = 0.
    rewrite dotE -[RHS]G. apply: eq_bigr => q _. rewrite (weight_fun KP) // -/(g (x q)) addmxE oppmxE !mxE /resid -mulE. congr (_ * _).
    move: (out Y' q) (out Y q) (m _) => a b c. toR. match goal with |- @eq _ ?u ?v => change (@eq R u v) end. lra.
  move: H. rewrite dotC dotDl -scaleN1r dotZl mulN1r [dot (colof n _) _]dotC [X in _ - X]dotC => /eqP. rewrite subr_eq0 => /eqP H. exact: H.
by rewrite QM QS QD.
Qed.
End Fit.

Section Iso.
Variables (name : String.string) (h h' : dict NumR) (d d' : nat) (ls ls' : pyval NumR) (s nz : R) (K K' : elem -> elem -> R)
  (pm pm' : prior NumR) (m m' : elem -> R) (inv : list (list R) -> res (list (list R))).
Hypotheses (RG : regression name h d ls s nz K pm m) (RG' : regression name h' d' ls' s nz K' pm' m') (HI : inv_contract inv).
Notation predict := (@predict_with_hyps NumR exp inv).

Lemma predict_iso X Y Xs X' Xs' : fits name X d -> fits name Xs d -> fits name X' d' -> fits name Xs' d' -> alen X' = alen X -> column (alen X) Y ->
  isometric ls d ls' d' (elems X ++ elems Xs) (elems X' ++ elems Xs') ->
  (forall i, lt i (alen X) -> m' (elem_nth X' i) = m (elem_nth X i)) ->
  (forall i, lt i (alen Xs) -> m' (elem_nth Xs' i) = m (elem_nth Xs i)) ->
  predict X' Y Xs' h' name pm' = predict X Y Xs h name pm.
Proof.
move=> F Fs F' Fs' LX HY I HM HMs. have LS := @isometric_alen _ _ _ _ _ _ _ _ I LX.
have [K1 [K2 K3]] := @iso_cov name ls d ls' d' s K K' (reg_cov RG) (reg_cov RG') X Xs X' Xs' F Fs F' Fs' LX I.
have HY' : column (alen X') Y by rewrite LX.
have [m1 [d1 [s1 [E1 [A1 [B1 [C1 [M1 [D1 P1]]]]]]]]] := predict_ok RG HI F Fs HY.
have [m2 [d2 [s2 [E2 [A2 [B2 [C2 [M2 [D2 P2]]]]]]]]] := predict_ok RG' HI F' Fs' HY'.
rewrite LS in A2 B2 C2 M2 D2 P2. rewrite E1 E2.
have EM : forall j, lt j (alen Xs) -> mean_at nz K' m' X' Y (elem_nth Xs' j) = mean_at nz K m X Y (elem_nth Xs j).
  move=> j Hj. rewrite /mean_at LX. congr (_ + _); last exact: HMs. apply: pmean_agree.
  + by move=> i k; apply: K1; exact/ltP.
  + by move=> i; apply: K2 => //; exact/ltP.
  + move=> i. rewrite /resid HM //. exact/ltP.
have ES : forall j k, lt j (alen Xs) -> lt k (alen Xs) ->
   cov_at2 nz K' X' (elem_nth Xs' j) (elem_nth Xs' k) = cov_at2 nz K X (elem_nth Xs j) (elem_nth Xs k).
  move=> j k Hj Hk. rewrite /cov_at2 LX. apply: pcov_agree.
  + by move=> i l; apply: K1; exact/ltP.
  + by move=> i; apply: K2 => //; exact/ltP.
  + by move=> i; apply: K2 => //; exact/ltP.
  + exact: K3.
have QM : m2 = m1.
  apply: (is_mx_eq A2 A1) => i j Hi Hj. have -> : j = 0%N by lia. by rewrite M2 // M1 // EM.
have QS : s2 = s1.
  apply: (is_mx_eq C2 C1) => i j Hi Hj. by rewrite P2 // P1 // ES.
have QD : d2 = d1.
  apply: (is_mx_eq B2 B1) => i j Hi Hj. have -> : j = 0%N by lia. by rewrite D2 // D1 // QS.
by rewrite QM QS QD.
Qed.

Lemma train_iso X X' : fits name X d -> fits name X' d' -> alen X' = alen X -> isometric ls d ls' d' (elems X) (elems X') ->
  @train_cov NumR exp X' h' name = @train_cov NumR exp X h name.
Proof.
move=> F F' LX I. have [C [E [SC HC]]] := train_cov_ok F (reg_hyps RG) (reg_cov RG).
have [C' [E' [SC' HC']]] := train_cov_ok F' (reg_hyps RG') (reg_cov RG').
rewrite E E'. congr Ok. rewrite LX in SC' HC'. apply: (is_mx_eq SC' SC) => i j Hi Hj. rewrite HC // HC' //. congr (Rplus _ _).
have [K1 _] := @iso_cov name ls d ls' d' s K K' (reg_cov RG) (reg_cov RG') X X X' X' F F F' F' LX (isometric_twice I). exact: K1.
Qed.
Lemma ml_iso X X' Y q th th' ard ard' fx fx' chol cho_solve slogdet ug ug' : fits name X d -> fits name X' d' -> alen X' = alen X ->
  column (alen X) Y -> column (alen X) q -> isometric ls d ls' d' (elems X) (elems X') -> slogdet_contract slogdet ->
  @restore_hyps NumR name th true ard fx (GP_NOISE NumR) = Ok h ->
  @restore_hyps NumR name th' true ard' fx' (GP_NOISE NumR) = Ok h' ->
  @neg_log_ml NumR exp ln PI inv chol cho_solve slogdet X' Y th' name q ard' fx' false ug'
  = @neg_log_ml NumR exp ln PI inv chol cho_solve slogdet X Y th name q ard fx false ug.
Proof.
move=> F F' LX HY Hq I HD ER ER'.
have HY' : column (alen X') Y by rewrite LX. have Hq' : column (alen X') q by rewrite LX.
have [C [B [EC [HB [DP EV]]]]] := ml_inverse F (reg_hyps RG) (reg_cov RG) HY Hq chol cho_solve HI HD ug ER.
have [C' [B' [EC' [HB' [DP' EV']]]]] := ml_inverse F' (reg_hyps RG') (reg_cov RG') HY' Hq' chol cho_solve HI HD ug' ER'.
rewrite EV EV'. rewrite (train_iso F F' LX I) EC in EC'. case: EC' => ?; subst C'. rewrite LX in HB' *.
by rewrite (inverse_unique HB' HB).
Qed.
End Iso.

Lemma predict_without (name : String.string) (h h' : dict NumR) (d : nat) (ls : pyval NumR) (s nz : R) (K K' : elem -> elem -> R)
  (pm pm' : prior NumR) (m m' : elem -> R) (inv : list (list R) -> res (list (list R))) (k : nat) (v : R) :
  regression name h d ls s nz K pm m -> regression name h' (Nat.pred d) (without_ls k ls) s nz K' pm' m' -> inv_contract inv -> lt k d ->
  forall X Y Xs, fits name X d -> fits name Xs d -> column (alen X) Y ->
  constant_at k v (elems X ++ elems Xs) ->
  (forall e, List.In e (elems X ++ elems Xs) -> m' (without_elem k e) = m e) ->
  @predict_with_hyps NumR exp inv (without_arr k X) Y (without_arr k Xs) h' name pm' = @predict_with_hyps NumR exp inv X Y Xs h name pm.
Proof.
move=> RG RG' HI Hk X Y Xs F Fs HY HC HM.
have E : forall A i, lt i (alen A) -> elem_nth (without_arr k A) i = without_elem k (elem_nth A i).
  move=> A i Hi. rewrite /elem_nth without_elems. apply: nth_map_in. by rewrite elems_length.
apply: (predict_iso RG RG' HI F Fs (@without_fits _ _ _ _ Hk F) (@without_fits _ _ _ _ Hk Fs) (without_alen k X) HY).
- apply: (@isometric_without name ls d k v X Xs Hk F Fs _ HC). by have [_ [_ [_ ?]]] := reg_hyps RG.
- move=> i Hi. rewrite E // HM //. apply: List.in_or_app; left. apply: List.nth_In. by rewrite elems_length.
- move=> i Hi. rewrite E // HM //. apply: List.in_or_app; right. apply: List.nth_In. by rewrite elems_length.
Qed.
