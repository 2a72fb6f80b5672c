(** Predictions and likelihoods do not depend on the units of the coordinates; far from the data the
    predictions are those of the prior. *)
From Verif Require Import Base Num UtilsSpec HypsModel CovModel KernelSpec CovSpec PSD CovProofs CovProofs2 RStruct MatLib GPModel GPSpec GPProofs GPMx GPProofs2 GPProofs3
  LikModel LikSpec LikMx LikProofs PredSpec PredMx PredProofs PredUnits.
From Coq Require Import Reals Lra Lia Permutation.
From mathcomp Require Import all_ssreflect perm all_algebra.
Set Implicit Arguments.
Unset Strict Implicit.
Unset Printing Implicit Defensive.
Import GRing.Theory.
Delimit Scope R_scope with coqR.
Local Open Scope ring_scope.

Section Units.
Variables (name : string) (h h' : dict NumR) (d : nat) (ls ls' : pyval NumR) (s nz : R) (K K' : elem -> elem -> R)
  (pm pm' : prior NumR) (m m' : elem -> R) (inv : list (list R) -> res (list (list R))).
Hypotheses (RG : regression name h d ls s nz K pm m) (RG' : regression name h' d ls' s nz K' pm' m') (HI : inv_contract inv).
Variables (p : list nat) (sc tr : nat -> R).
Hypotheses (HP : Permutation p (List.seq 0 d)) (HS : forall i, lt i d -> sc i <> R0)
  (HL : recoord_ls d p sc ls ls') (HN : ls_nonzero ls d).
Notation re := (recoord_arr d p sc tr).
Notation predict := (@predict_with_hyps NumR exp inv).

Lemma predict_recoord X Y Xs : fits name X d -> fits name Xs d -> column (alen X) Y ->
  (forall e, List.In e (elems X ++ elems Xs) -> m' (recoord_elem d p sc tr e) = m e) ->
  predict (re X) Y (re Xs) h' name pm' = predict X Y Xs h name pm.
Proof.
move=> F Fs HY HM. have F' := recoord_fits p sc tr F. have Fs' := recoord_fits p sc tr Fs.
have HY' : column (alen (re X)) Y by rewrite recoord_alen.
have [m1 [d1 [s1 [E1 [A1 [B1 [C1 [M1 [D1 P1]]]]]]]]] := predict_ok RG HI F Fs HY.
have [m2 [d2 [s2 [E2 [A2 [B2 [C2 [M2 [D2 P2]]]]]]]]] := predict_ok RG' HI F' Fs' HY'.
have LX : alen (re X) = alen X by exact: recoord_alen.
have LS : alen (re Xs) = alen Xs by exact: recoord_alen.
rewrite LS in A2 B2 C2 M2 D2 P2. rewrite E1 E2.
have INX : forall i, lt i (alen X) -> List.In (elem_nth X i) (elems X ++ elems Xs).
  move=> i Hi. apply: List.in_or_app; left. apply: List.nth_In. by rewrite elems_len.
have INS : forall i, lt i (alen Xs) -> List.In (elem_nth Xs i) (elems X ++ elems Xs).
  move=> i Hi. apply: List.in_or_app; right. apply: List.nth_In. by rewrite elems_len.
have KE : forall A B i j, fits name A d -> fits name B d -> lt i (alen A) -> lt j (alen B) ->
   K' (elem_nth (re A) i) (elem_nth (re B) j) = K (elem_nth A i) (elem_nth B j).
  move=> A B i j FA FB Hi Hj. exact: (@cov_recoord d p sc tr HP HS ls ls' HL HN name s K K' A B i j (reg_cov RG) (reg_cov RG')).
have EM : forall j, lt j (alen Xs) -> mean_at nz K' m' (re X) Y (elem_nth (re Xs) j) = mean_at nz K m X Y (elem_nth Xs j).
  move=> j Hj. rewrite /mean_at LX. congr (_ + _).
  - apply: pmean_agree.
    + by move=> i k; apply: KE => //; exact/ltP.
    + by move=> i; apply: KE => //; exact/ltP.
    + move=> i. rewrite /resid recoord_elem_nth; last exact/ltP. rewrite HM //. apply: INX. exact/ltP.
  - rewrite recoord_elem_nth //. apply: HM. exact: INS.
have ES : forall j k, lt j (alen Xs) -> lt k (alen Xs) ->
   cov_at2 nz K' (re X) (elem_nth (re Xs) j) (elem_nth (re Xs) k) = cov_at2 nz K X (elem_nth Xs j) (elem_nth Xs k).
  move=> j k Hj Hk. rewrite /cov_at2 LX. apply: pcov_agree.
  + by move=> i l; apply: KE => //; exact/ltP.
  + by move=> i; apply: KE => //; exact/ltP.
  + by move=> i; apply: KE => //; exact/ltP.
  + exact: KE.
have QM : m2 = m1.
  apply: (is_mx_eq A2 A1) => i j Hi Hj. have -> : j = 0%N by lia. by rewrite M2 // M1 // EM.
have QS : s2 = s1.
  apply: (is_mx_eq C2 C1) => i j Hi Hj. by rewrite P2 // P1 // ES.
have QD : d2 = d1.
  apply: (is_mx_eq B2 B1) => i j Hi Hj. have -> : j = 0%N by lia. by rewrite D2 // D1 // QS.
by rewrite QM QS QD.
Qed.

Lemma train_recoord X : fits name X d -> @train_cov NumR exp (re X) h' name = @train_cov NumR exp X h name.
Proof.
move=> F. have F' := recoord_fits p sc tr F. have LX : alen (re X) = alen X by exact: recoord_alen.
have [C [E [SC HC]]] := train_cov_ok F (reg_hyps RG) (reg_cov RG).
have [C' [E' [SC' HC']]] := train_cov_ok F' (reg_hyps RG') (reg_cov RG').
rewrite E E'. congr Ok. rewrite LX in SC' HC'. apply: (is_mx_eq SC' SC) => i j Hi Hj. rewrite HC // HC' //.
congr (Rplus _ _).
exact: (@cov_recoord d p sc tr HP HS ls ls' HL HN name s K K' X X i j (reg_cov RG) (reg_cov RG')).
Qed.

Lemma ml_recoord X Y q th th' ard ard' fx fx' chol cho_solve slogdet ug ug' : fits name X d -> column (alen X) Y -> column (alen X) q ->
  slogdet_contract slogdet ->
  @restore_hyps NumR name th true ard fx (GP_NOISE NumR) = Ok h ->
  @restore_hyps NumR name th' true ard' fx' (GP_NOISE NumR) = Ok h' ->
  @neg_log_ml NumR exp ln PI inv chol cho_solve slogdet (re X) Y th' name q ard' fx' false ug'
  = @neg_log_ml NumR exp ln PI inv chol cho_solve slogdet X Y th name q ard fx false ug.
Proof.
move=> F HY Hq HD ER ER'. have F' := recoord_fits p sc tr F. have LX : alen (re X) = alen X by exact: recoord_alen.
have HY' : column (alen (re X)) Y by rewrite LX. have Hq' : column (alen (re X)) q by rewrite LX.
have [C [B [EC [HB [DP EV]]]]] := ml_inverse F (reg_hyps RG) (reg_cov RG) HY Hq chol cho_solve HI HD ug ER.
have [C' [B' [EC' [HB' [DP' EV']]]]] := ml_inverse F' (reg_hyps RG') (reg_cov RG') HY' Hq' chol cho_solve HI HD ug' ER'.
rewrite EV EV'. rewrite (train_recoord F) EC in EC'. case: EC' => ?; subst C'. rewrite LX in HB' *.
by rewrite (inverse_unique HB' HB).
Qed.
End Units.

(** ** far from the data *)
Lemma abs_sum n (u v : 'cV[R]_n) (del : R) : (forall i, 0 <=R v i 0 /\ v i 0 <=R del) -> Rabs (dot u v) <=R del * \sum_i Rabs (u i 0).
Proof.
move=> H. rewrite -mulE dotE big_distrr /=. elim/big_rec2: _ => [|i x y _ IH]; first by rewrite Rabs_R0; right.
have [A B] := H i. apply: Rle_trans; first exact: Rabs_triang. apply: Rplus_le_compat => //.
rewrite Rabs_mult (Rabs_pos_eq (v i 0)) //. rewrite [X in _ <=R X]mulrC. apply: Rmult_le_compat_l => //. exact: Rabs_pos.
Qed.

Section Far.
Variables (name : string) (h : dict NumR) (d : nat) (ls : pyval NumR) (s nz : R) (K : elem -> elem -> R)
  (pm : prior NumR) (m : elem -> R) (inv : list (list R) -> res (list (list R))).
Hypotheses (RG : regression name h d ls s nz K pm m) (HI : inv_contract inv).
Notation predict := (@predict_with_hyps NumR exp inv).

Lemma far_prior X Y eps : fits name X d -> column (alen X) Y -> 0 <R eps ->
  exists D, forall Xs mu sd S j, fits name Xs d -> lt j (alen Xs) -> predict X Y Xs h name pm = Ok (mu, sd, S) ->
    (forall i, lt i (alen X) -> far ls d D (elem_nth X i) (elem_nth Xs j)) ->
    (Rabs (at_ mu j 0 - m (elem_nth Xs j)) < eps /\ Rabs (at_ S j j - (K (elem_nth Xs j) (elem_nth Xs j) + jitter_cov)) < eps)%coqR.
Proof.
move=> F HY He. set n := alen X. set G := gram K n (elem_nth X) (shift nz).
have KS := K_sym RG. have KP := K_psd RG. have T := shift_pos nz.
(* bounds on the sums *)
pose a : 'cV[R]_n := invmx G *m colof n (resid m X Y).
pose A := \sum_i Rabs (a i 0). pose B := \sum_i \sum_j Rabs (invmx G i j).
have A0 : 0 <=R A by apply: sum_nonneg => i; exact: Rabs_pos.
have B0 : 0 <=R B by apply: sum_nonneg => i; apply: sum_nonneg => j; exact: Rabs_pos.
have S0 : (0 <= s * s)%coqR by exact: Rle_0_sqr.
pose M := (1 + A + B)%coqR. pose del := Rmin 1 (eps / M / 2).
have M0 : 0 <R M by rewrite /M; toRs; lra.
have D0 : 0 <R del. 
  rewrite /del. apply: Rmin_glb_lt; first by toRs; lra. apply: Rdiv_lt_0_compat; [exact: Rdiv_lt_0_compat|by toRs; lra].
have D1 : (del <= 1)%coqR by exact: Rmin_l.
have DM : (del * M < eps)%coqR.
  apply: (Rle_lt_trans _ (eps / M / 2 * M)); first by apply: Rmult_le_compat_r; [lra|exact: Rmin_r].
  have -> : (eps / M / 2 * M = eps / 2)%coqR by field; lra.
  toRs; lra.
(* the distance *)
pose D := (64 * (s * s) / del)%coqR.
have DD : (0 <= D)%coqR by rewrite /D; apply: Rmult_le_pos; [lra|left; exact: Rinv_0_lt_compat].
have DB : (s * s * (16 / (1 + D / 4)) <= del)%coqR.
  have -> : (s * s * (16 / (1 + D / 4)) = del * (D / 4) / (1 + D / 4))%coqR by rewrite /D; field; split; rewrite -/D; lra.
  apply: (Rmult_le_reg_r (1 + D / 4)%coqR); first lra.
  have -> : (del * (D / 4) / (1 + D / 4) * (1 + D / 4) = del * (D / 4))%coqR by field; lra.
  apply: Rmult_le_compat_l; lra.
exists D => Xs mu sd S j Fs Hj E HF.
have [m1 [d1 [s1 [E1 [_ [_ [_ [M1 [_ P1]]]]]]]]] := predict_ok RG HI F Fs HY.
move: E1. rewrite E => [[? ? ?]]; subst m1 d1 s1. set z := elem_nth Xs j in HF *.
have KB : forall i : 'I_n, 0 <=R kvec K n (elem_nth X) z i 0 /\ kvec K n (elem_nth X) z i 0 <=R del.
  move=> i. rewrite mxE. have Hi : lt i (alen X) by exact/ltP.
  have [P Q] := @far_cov name ls s d K X Xs i j D (reg_cov RG) F Fs Hi Hj DD (HF i Hi). split=> //. exact: (Rle_trans _ _ _ Q DB).
split.
- have -> : (at_ mu j 0 - m z)%coqR = dot a (kvec K n (elem_nth X) z).
    rewrite M1 // /mean_at -/z /pmean0 -/n weights_dot // -/G -mulmxA -/a.
    have -> : ((kvec K n (elem_nth X) z)^T *m a) 0 0 = dot a (kvec K n (elem_nth X) z) by rewrite dotC.
    move: (dot _ _) (m z) => x y. toR. match goal with |- @eq _ ?x ?y => change (@eq R x y) end. ring.
  apply: Rle_lt_trans; first exact: (abs_sum a KB). rewrite -/A. apply: Rle_lt_trans; last exact: DM.
  apply: Rmult_le_compat_l; [lra|rewrite /M; lra].
- have W : Rabs (dot (weights K n (elem_nth X) (shift nz) z) (kvec K n (elem_nth X) z)) <=R (del * M)%coqR.
    apply: Rle_trans; first exact: (abs_sum _ KB).
    apply: Rmult_le_compat_l; first lra.
    apply: (@Rle_trans _ B); last by rewrite /M; lra.
    rewrite /B. elim/big_rec2: _ => [|i x y _ IH]; first by right.
    apply: Rplus_le_compat => //. rewrite /weights -/G mxE.
    elim/big_rec2: _ => [|k x' y' _ IH']; first by rewrite Rabs_R0; right.
    apply: Rle_trans; first exact: Rabs_triang. apply: Rplus_le_compat => //.
    rewrite Rabs_mult. have [P Q] := KB k. rewrite (Rabs_pos_eq (kvec _ _ _ _ _ _)) // -[X in _ <=R X]Rmult_1_r.
    apply: Rmult_le_compat_l; first exact: Rabs_pos. exact: (Rle_trans _ _ _ Q D1).
  rewrite P1 // PeanoNat.Nat.eqb_refl /cov_at2 /pcov -/z -/n. move: W. move: (dot _ _) (K z z) => w k W.
  have -> : (k - w + jitter_cov - (k + jitter_cov) = - w)%coqR by toR; match goal with |- @eq _ ?x ?y => change (@eq R x y) end; ring.
  rewrite Rabs_Ropp. exact: (Rle_lt_trans _ _ _ W DM).
Qed.
End Far.
