(** The predictions of gp.py and tp.py in matrix form, and their consequences. *)
From Verif Require Import Base Num UtilsSpec HypsModel CovModel KernelSpec CovSpec PSD CovProofs CovProofs2 RStruct MatLib GPModel GPSpec GPProofs GPMx.
From Coq Require Import Reals Lra Lia Permutation.
From mathcomp Require Import all_ssreflect perm all_algebra.
Set Implicit Arguments.
Unset Strict Implicit.
Unset Printing Implicit Defensive.
Import GRing.Theory.
Delimit Scope R_scope with coqR.
Local Open Scope ring_scope.

Definition shift (nz : R) : R := (/ 100000 + nz * nz)%coqR.
Lemma shift_pos nz : 0 <R shift nz.
Proof. rewrite /shift. have := Rle_0_sqr nz. rewrite /Rsqr => H. toR. lra. Qed.

(** ** the training covariance, its inverse and its Cholesky factor *)
Section Train.
Variables (name : string) (h : dict NumR) (d : nat) (ls : pyval NumR) (s nz : R) (K : elem -> elem -> R) (X : arr NumR).
Hypotheses (F : fits name X d) (HH : has_hyps h d ls s nz) (HK : cov_of name ls s d = Some K).
Notation n := (alen X).

Lemma train_gram C : @train_cov NumR exp X h name = Ok C -> is_mx n n C /\ mxof n n C = gram K n (elem_nth X) (shift nz).
Proof.
move=> E. have [C' [E' [SC HC]]] := train_cov_ok F HH HK. move: E'; rewrite E => E'. apply Ok_inj in E'. subst C'.
split=> //. apply/matrixP=> i j. rewrite mxE gramE HC; try exact/ltP. rewrite eqb_ord. by case: (PeanoNat.Nat.eqb i j).
Qed.
Lemma inverse_ok inv : inv_contract inv ->
  exists C B, @get_kernel_inverse NumR exp inv X h name true false = Ok (C, B, None) /\
    @train_cov NumR exp X h name = Ok C /\ is_mx n n C /\ is_inverse n C B /\ CovSpec.symmetric n C /\ definite n C.
Proof.
move=> HI. have [C [E [SC HC]]] := train_cov_ok F HH HK.
have DC := train_cov_definite F HH HK E. have YC := train_cov_symmetric F HH HK E.
have [[B0 HB0]] : (exists B, is_inverse n C B) /\ True by split=> //; exact: definite_inverse.
have [H1 _] := HI n C SC. have [B [EB HB]] := H1 (ex_intro _ B0 HB0).
exists C, B. split=> //. by rewrite /get_kernel_inverse (fits_shape F) /= E /= EB.
Qed.
Lemma inverse_mx C B : @train_cov NumR exp X h name = Ok C -> is_inverse n C B ->
  mxof n n B = invmx (gram K n (elem_nth X) (shift nz)).
Proof. by move=> E HB; have [_ ->] := inverse_unit HB; rewrite (train_gram E).2. Qed.
Lemma cholesky_ok chol : chol_contract chol ->
  exists C L, @get_kernel_cholesky NumR exp chol X h name true false = Ok (C, L, None) /\
    @train_cov NumR exp X h name = Ok C /\ is_mx n n C /\ is_cholesky n C L /\ chol C = Ok L.
Proof.
move=> HC. have [C [E [SC VC]]] := train_cov_ok F HH HK.
have DC := train_cov_definite F HH HK E. have YC := train_cov_symmetric F HH HK E.
have [L0 HL0] := definite_cholesky YC DC. have [H1 _] := HC n C SC YC. have [L [EL HL]] := H1 (ex_intro _ L0 HL0).
exists C, L. split=> //. rewrite /get_kernel_cholesky (fits_shape F) /= E /=.
have -> : madd NumR C (mmap NumR (fun e => nmul NumR (nofZ NumR 0) e) (eye NumR n n)) = C.
  have SE : is_mx n n (mmap NumR (fun e => nmul NumR (nofZ NumR 0) e) (eye NumR n n)).
    by apply: (@CovMx.shp_mmap NumR n n); apply: CovMx.shp_eye.
  apply: (@is_mx_eq n n) => //; first exact: madd_mx.
  move=> i j Hi Hj. rewrite (madd_at SC SE Hi Hj).
  have -> : at_ (mmap NumR (fun e => nmul NumR (nofZ NumR 0) e) (eye NumR n n)) i j = 0.
    etransitivity; first by apply: (@CovMx.mget_mmap NumR n n) => //; exact: CovMx.shp_eye.
    rewrite /=. exact: Rmult_0_l.
  exact: Rplus_0_r.
by rewrite EL.
Qed.
End Train.

(** ** Gaussian process predictions *)
Section Predict.
Variables (name : string) (h : dict NumR) (d : nat) (ls : pyval NumR) (s nz : R) (K : elem -> elem -> R)
  (pm : prior NumR) (m : elem -> R) (inv : list (list R) -> res (list (list R))).
Hypotheses (RG : regression name h d ls s nz K pm m) (HI : inv_contract inv).
Notation t := (shift nz).

Lemma K_sym a b : K a b = K b a. Proof. exact (cov_of_sym a b (reg_cov RG)). Qed.
Lemma K_psd : psd K. Proof. exact (cov_of_psd (reg_cov RG)). Qed.

Definition resid (X : arr NumR) (Y : mat NumR) (i : nat) : R := out Y i - m (elem_nth X i).
Definition mean_at (X : arr NumR) (Y : mat NumR) (e : elem) : R :=
  pmean0 K (alen X) (elem_nth X) t (resid X Y) e + m e.
Definition cov_at2 (X : arr NumR) (e e' : elem) : R := pcov K (alen X) (elem_nth X) t e e'.

Lemma posterior_mx X Xs Y C B : fits name X d -> fits name Xs d -> column (alen X) Y ->
  @train_cov NumR exp X h name = Ok C -> is_inverse (alen X) C B ->
  exists r mu S, @posterior NumR exp X Y Xs C B h name pm = Ok (r, mu, S) /\
    is_mx (alen X) 1 r /\ is_mx (alen Xs) 1 mu /\ is_mx (alen Xs) (alen Xs) S /\
    (forall i, lt i (alen X) -> at_ r i 0 = resid X Y i) /\
    (forall j, lt j (alen Xs) -> at_ mu j 0 = mean_at X Y (elem_nth Xs j)) /\
    (forall j k, lt j (alen Xs) -> lt k (alen Xs) ->
       at_ S j k = cov_at2 X (elem_nth Xs j) (elem_nth Xs k) + (if PeanoNat.Nat.eqb j k then jitter_cov else 0)).
Proof.
move=> F Fs HY E HB. have [SC _] := train_gram F (reg_hyps RG) (reg_cov RG) E. have EB := inverse_mx F (reg_hyps RG) (reg_cov RG) E HB.
have SB : is_mx (alen X) (alen X) B by case: HB.
have [r [mu [S [EP [Sr [Sm [SS [Vr [Vm VS]]]]]]]]] := posterior_ok RG F Fs HY SC SB.
exists r, mu, S. do 5 (split => //).
have W : forall e (a : 'I_(alen X)), Rsum (List.map (fun b => (K (elem_nth X b) e * at_ B b a)%coqR) (List.seq 0 (alen X)))
    = weights K (alen X) (elem_nth X) t e a 0.
  move=> e a. rewrite Rsum_big. rewrite /weights -(inv_sym (gram_sym K_sym _ _ _)) -EB mxE. apply: eq_bigr => b _.
  rewrite !mxE. exact: mulrC.
split=> [j Hj|j k Hj Hk].
- rewrite Vm //. rewrite /mean_at /pmean0 dotE Rsum_big. congr (_ + _). apply: eq_bigr => a _. by rewrite W [colof _ _ _ _]mxE.
- rewrite VS //. rewrite /cov_at2 /pcov dotE Rsum_big.
  have -> : \sum_(a < alen X) (Rsum (List.map (fun b => (K (elem_nth X b) (elem_nth Xs j) * at_ B b a)%coqR) (List.seq 0 (alen X))) * K (elem_nth X a) (elem_nth Xs k))%coqR
     = \sum_i weights K (alen X) (elem_nth X) t (elem_nth Xs j) i 0 * kvec K (alen X) (elem_nth X) (elem_nth Xs k) i 0.
    by apply: eq_bigr => a _; rewrite W [kvec _ _ _ _ _ _]mxE.
  move: (\sum_i _) (if _ then _ else _) => p q. lraR.
Qed.

Lemma cov_diag_ge0 X e : 0 <=R cov_at2 X e e.
Proof. exact: (@pcov_ge0 _ _ K_sym K_psd _ _ _ _ (shift_pos nz)). Qed.
Lemma jitter_pos : 0 <R jitter_cov. Proof. rewrite /jitter_cov. toR. lra. Qed.

Lemma predict_ok X Xs Y : fits name X d -> fits name Xs d -> column (alen X) Y ->
  exists mu sd S, @predict_with_hyps NumR exp inv X Y Xs h name pm = Ok (mu, sd, S) /\
    is_mx (alen Xs) 1 mu /\ is_mx (alen Xs) 1 sd /\ is_mx (alen Xs) (alen Xs) S /\
    (forall j, lt j (alen Xs) -> at_ mu j 0 = mean_at X Y (elem_nth Xs j)) /\
    (forall j, lt j (alen Xs) -> at_ sd j 0 = sqrt (at_ S j j)) /\
    (forall j k, lt j (alen Xs) -> lt k (alen Xs) ->
       at_ S j k = cov_at2 X (elem_nth Xs j) (elem_nth Xs k) + (if PeanoNat.Nat.eqb j k then jitter_cov else 0)).
Proof.
move=> F Fs HY. have [CK [_ VA]] := fits_shape_pair F Fs.
have [C [B [EI [EC [SC [HB _]]]]]] := inverse_ok F (reg_hyps RG) (reg_cov RG) HI.
have [r [mu [S [EP [Sr [Sm [SS [Vr [Vm VS]]]]]]]]] := posterior_mx F Fs HY EC HB.
exists mu, (deviations NumR (alen Xs) S), S. split.
  by rewrite /predict_with_hyps (VA Y HY) /= CK /= EI /= /predict_with_cov EP.
split=> //. split; first exact: dev_mx. split=> //. split=> //. split=> // j Hj.
rewrite dev_at //. congr sqrt. apply: Rmax_left. rewrite VS // PeanoNat.Nat.eqb_refl.
have := cov_diag_ge0 X (elem_nth Xs j). have := jitter_pos. move: (cov_at2 _ _ _) => p. move=> *. toR. lra.
Qed.
End Predict.
