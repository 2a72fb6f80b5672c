(** Likelihoods and the order of the observations. *)
From Verif Require Import Base Num UtilsSpec HypsModel CovModel KernelSpec CovSpec PSD CovProofs CovProofs2 RStruct MatLib GPModel GPSpec GPProofs GPMx GPProofs2 GPProofs3
  LikModel LikSpec LikMx LikProofs LikProofs2 GradSpec TPGrad PredMx PredLik PredChol OrderAlg.
From Coq Require Import Reals Lra Lia Permutation.
From mathcomp Require Import all_ssreflect perm all_algebra.
Set Implicit Arguments.
Unset Strict Implicit.
Unset Printing Implicit Defensive.
Import GRing.Theory.
Delimit Scope R_scope with coqR.
Local Open Scope ring_scope.

(** ** permuted matrices *)
Section Mx.
Variables (n : nat) (sg : 'S_n) (A : 'M[R]_n).
Definition both : 'M[R]_n := \matrix_(i, j) A (sg i) (sg j).
Lemma det_both : \det both = \det A.
Proof.
have -> : both = row_perm sg (col_perm sg A) by apply/matrixP=> i j; rewrite !mxE.
rewrite row_permE col_permE !det_mulmx !det_perm odd_permV mulrCA -signr_addb addbb. by rewrite expr0 mulr1.
Qed.
End Mx.
Lemma inv_both n (sg : 'S_n) (A : 'M[R]_n) : A \in unitmx -> invmx (both sg A) = both sg (invmx A).
Proof.
move=> U.
have E : both sg A *m both sg (invmx A) = 1%:M.
  apply/matrixP=> i j. have := mulmxV U => /matrixP /(_ (sg i) (sg j)). rewrite !mxE (inj_eq (@perm_inj _ sg)) => <-.
  rewrite [RHS](reindex_inj (@perm_inj _ sg)) /=. by apply: eq_bigr => k _; rewrite !mxE.
have [U' _] := mulmx1_unit E. by rewrite -[RHS](mulKmx U') E mulmx1.
Qed.
Lemma qf_both n (sg : 'S_n) (A : 'M[R]_n) (u u' : 'cV[R]_n) : (forall i, u' i 0 = u (sg i) 0) -> qf (both sg A) u' = qf A u.
Proof.
move=> E. rewrite /qf !bil [RHS](reindex_inj (@perm_inj _ sg)) /=. apply: eq_bigr => i _.
rewrite [RHS](reindex_inj (@perm_inj _ sg)) /=. apply: eq_bigr => j _. by rewrite !E mxE.
Qed.

(** ** likelihoods *)
Section Order.
Variables (name : string) (h : dict NumR) (d : nat) (ls : pyval NumR) (s nz : R) (K : elem -> elem -> R) (X : arr NumR).
Hypotheses (F : fits name X d) (HH : has_hyps h d ls s nz) (HK : cov_of name ls s d = Some K).
Variables (p : list nat) (HP : Permutation p (List.seq 0 (alen X))).
Notation n := (alen X).
Notation X' := (take_rows X p).
Let F' : fits name X' d.
Proof. have [L [I _]] := GPProofs3.perm_of HP. exact: fits_take I F. Qed.
Let LA : alen X' = n.
Proof. have [L _] := GPProofs3.perm_of HP. by rewrite alen_take. Qed.
Lemma col_perm_ok Y : column n Y -> column (alen X') (take_out Y p).
Proof. move=> H. have [L [I _]] := GPProofs3.perm_of HP. rewrite alen_take. exact: column_take H. Qed.

Lemma terms_perm C B C' B' : @train_cov NumR exp X h name = Ok C -> is_inverse n C B ->
  @train_cov NumR exp X' h name = Ok C' -> is_inverse n C' B' ->
  exists sg : 'S_n, (forall i : 'I_n, List.nth i p 0%N = sg i) /\ mxof n n C' = both sg (mxof n n C) /\ mxof n n B' = both sg (mxof n n B).
Proof.
move=> EC HB EC' HB'. have [L [I [sg Hs]]] := GPProofs3.perm_of HP. exists sg. split=> //.
have G := (train_gram F HH HK EC).2. have G' := (train_gram F' HH HK EC').2.
have EG : mxof n n C' = both sg (mxof n n C).
  rewrite LA in G'. rewrite G G'. apply/matrixP=> i j. rewrite [RHS]mxE !gramE !elem_take ?L; try exact/ltP; try exact: I.
  by rewrite !Hs (inj_eq (@perm_inj _ sg)).
split=> //. have [U EB] := inverse_unit HB. have [U' EB'] := inverse_unit HB'. by rewrite EB EB' EG inv_both.
Qed.
Lemma values_perm Y q C B C' B' : @train_cov NumR exp X h name = Ok C -> is_inverse n C B ->
  @train_cov NumR exp X' h name = Ok C' -> is_inverse n C' B' ->
  det n C' = det n C /\ quad n B' (residual (take_out Y p) (take_out q p)) = quad n B (residual Y q).
Proof.
move=> EC HB EC' HB'. have [L _] := GPProofs3.perm_of HP. have [sg [Hs [E1 E2]]] := terms_perm EC HB EC' HB'. split; first by rewrite !detE E1 det_both.
rewrite !quad_qf E2. apply: qf_both => i. rewrite !mxE /residual !out_take ?L; try exact/ltP. by rewrite Hs.
Qed.
Lemma ml_perm Y q th ard fx inv chol cho_solve slogdet ug : column n Y -> column n q -> inv_contract inv -> slogdet_contract slogdet ->
  @restore_hyps NumR name th true ard fx (GP_NOISE NumR) = Ok h ->
  @neg_log_ml NumR exp ln PI inv chol cho_solve slogdet X' (take_out Y p) th name (take_out q p) ard fx false ug
  = @neg_log_ml NumR exp ln PI inv chol cho_solve slogdet X Y th name q ard fx false ug.
Proof.
move=> HY Hq HI HD ER.
have [C [B [EC [HB [_ V]]]]] := ml_inverse F HH HK HY Hq chol cho_solve HI HD ug ER.
have [C' [B' [EC' [HB' [_ V']]]]] := ml_inverse F' HH HK (col_perm_ok HY) (col_perm_ok Hq) chol cho_solve HI HD ug ER.
rewrite V V' LA. rewrite LA in HB'. have [E1 E2] := values_perm Y q EC HB EC' HB'. by rewrite /gauss_nll E1 E2.
Qed.
Lemma tml_perm Y q th ard fx inv slogdet gamma digamma nu : column n Y -> column n q -> inv_contract inv -> slogdet_contract slogdet ->
  @restore_hyps NumR name th false ard fx (GP_NOISE NumR) = Ok h -> dget h "dof" = Some (PFloat NumR nu) ->
  @tp_neg_log_ml NumR exp ln PI inv slogdet gamma digamma X' (take_out Y p) th name (take_out q p) ard fx false
  = @tp_neg_log_ml NumR exp ln PI inv slogdet gamma digamma X Y th name q ard fx false.
Proof.
move=> HY Hq HI HD ER EN.
have [C [B [EC [HB [_ [_ [_ V]]]]]]] := tp_value F HH HK HY Hq gamma digamma HI HD ER EN.
have [C' [B' [EC' [HB' [_ [_ [_ V']]]]]]] := tp_value F' HH HK (col_perm_ok HY) (col_perm_ok Hq) gamma digamma HI HD ER EN.
rewrite V V' LA. rewrite LA in HB'. have [E1 E2] := values_perm Y q EC HB EC' HB'. by rewrite /student_nll E1 E2.
Qed.
Lemma loocv_perm Y q th fx inv : column n Y -> column n q -> inv_contract inv ->
  @restore_hyps NumR name th true true fx (GP_NOISE NumR) = Ok h ->
  @neg_log_pseudo_l_loocv NumR exp ln PI inv X' (take_out Y p) th name (take_out q p) fx
  = @neg_log_pseudo_l_loocv NumR exp ln PI inv X Y th name q fx.
Proof.
move=> HY Hq HI ER. have [L [I _]] := GPProofs3.perm_of HP.
have [C [B [_ [EC [_ [HB _]]]]]] := inverse_ok F HH HK HI. have [C' [B' [_ [EC' [_ [HB' _]]]]]] := inverse_ok F' HH HK HI.
rewrite (loocv_ok F HH HK HI HY Hq ER EC HB) (loocv_ok F' HH HK HI (col_perm_ok HY) (col_perm_ok Hq) ER EC' HB') LA.
rewrite LA in HB'. have [sg [Hs [E1 E2]]] := terms_perm EC HB EC' HB'.
congr Ok. congr (_ / _)%coqR. rewrite !Rsum_big [RHS](reindex_inj (@perm_inj _ sg)) /=. apply: eq_bigr => i _.
have EO : forall k : 'I_n, out (take_out Y p) k = out Y (sg k) by move=> k; rewrite out_take ?L ?Hs //; exact/ltP.
have EB : forall j k : 'I_n, at_ B' j k = at_ B (sg j) (sg k) by move=> j k; move/matrixP: E2 => /(_ j k); rewrite !mxE.
rewrite EO EB. congr normal_nll. rewrite /lmean EO EB. congr (_ - _ / _)%coqR. rewrite LA /prod_at !Rsum_big.
rewrite [RHS](reindex_inj (@perm_inj _ sg)) /=. apply: eq_bigr => j _. rewrite EB. congr (_ * _)%coqR. exact: EO.
Qed.
End Order.

(** ** the diagonal of the Cholesky factor is at least the root of the noise *)
Section Floor.
Variables (name : string) (h : dict NumR) (d : nat) (ls : pyval NumR) (s nz : R) (K : elem -> elem -> R) (X : arr NumR).
Hypotheses (F : fits name X d) (HH : has_hyps h d ls s nz) (HK : cov_of name ls s d = Some K).
Lemma chol_floor C L k : @train_cov NumR exp X h name = Ok C -> is_cholesky (alen X) C L -> lt k (alen X) ->
  (shift nz <= at_ L k k * at_ L k k)%coqR /\ 0 <R at_ L k k.
Proof.
move=> EC HL Hk. have Hk1 : (k.+1 <= alen X)%N by apply/ltP. have T := shift_pos nz.
have KS : forall a b, K a b = K b a by move=> a b; exact (cov_of_sym a b HK). have KP : psd K by exact (cov_of_psd HK).
have G := (train_gram F HH HK EC).2.
have DG : forall q, (q <= alen X)%N -> det q C = \det (gram K q (elem_nth X) (shift nz)).
  move=> q Hq. rewrite detE. congr (\det _). apply/matrixP=> i j. rewrite mxE gramE.
  move/matrixP: G => /(_ (widen_ord Hq i) (widen_ord Hq j)). rewrite mxE gramE => -> /=. congr (_ + _).
have [E1 P1] := chol_lead HL Hk1. have [E2 P2] := chol_lead HL (ltnW Hk1).
have [_ [_ [PL _]]] := HL. have PK := PL k Hk. split=> //.
have B := det_border KS KP k (elem_nth X) T. rewrite addn1 -!DG // in B; last exact: ltnW.
have V := pcov_ge0 KS KP k (elem_nth X) (elem_nth X k) T.
move: B. rewrite E1 E2 big_ord_recr /=. move: P2 V. move: PK (pcov _ _ _ _ _ _) (\prod_(i < k) _) => PK v a. move: (at_ L k k) (shift nz) PK => l t PK P2 V B.
have B' : (a * a * (l * l) = a * a * (v + t))%coqR by etransitivity; [|exact: B]; match goal with |- @eq _ ?x ?y => change (@eq R x y) end; toRs; ring.
have A0 : (a * a <> 0)%coqR by move=> Z; have := Rmult_lt_0_compat _ _ P2 P2; toRs; lra.
have := Rmult_eq_reg_l _ _ _ B' A0. toRs. move=> ->. lra.
Qed.
Lemma chol_sum C L : @train_cov NumR exp X h name = Ok C -> is_cholesky (alen X) C L -> (0 < alen X)%N ->
  (0 <= Rsum (List.map (fun i => ln (at_ L i i + / 10000000) - ln (at_ L i i)) (List.seq 0 (alen X))) / INR (alen X)
     <= / 10000000 / sqrt (shift nz))%coqR.
Proof.
move=> EC HL Hn. have N0 : (0 < INR (alen X))%coqR by apply: lt_0_INR; exact/ltP.
have T : (0 < sqrt (shift nz))%coqR by apply: sqrt_lt_R0; exact: shift_pos.
have B : forall i, lt i (alen X) -> (0 <= ln (at_ L i i + / 10000000) - ln (at_ L i i) <= / 10000000 / sqrt (shift nz))%coqR.
  move=> i Hi. have [S P] := chol_floor EC HL Hi. move: P. toRs. move=> P.
  have Q : (0 < / 10000000 / at_ L i i)%coqR by apply: Rdiv_lt_0_compat; lra.
  have -> : (ln (at_ L i i + / 10000000) - ln (at_ L i i) = ln (1 + / 10000000 / at_ L i i))%coqR.
    rewrite -ln_div //; last lra. congr ln. field. lra.
  have [A1 A2] := ln_small Q. split; first exact: Rlt_le. apply: Rle_trans A2 _. apply: Rmult_le_compat_l; first lra.
  apply: Rinv_le_contravar => //. rewrite -(sqrt_square (at_ L i i)); last exact: Rlt_le. exact: sqrt_le_1_alt.
have G : forall l, (forall i, List.In i l -> lt i (alen X)) ->
   (0 <= Rsum (List.map (fun i => ln (at_ L i i + / 10000000) - ln (at_ L i i)) l) <= INR (List.length l) * (/ 10000000 / sqrt (shift nz)))%coqR.
  elim=> [|i l IH] HI /=; first lra. have [A1 A2] := B i (HI i (or_introl erefl)).
  have [B1 B2] := IH (fun j Hj => HI j (or_intror Hj)). rewrite -/(INR (List.length l).+1) S_INR. lra.
have [S1 S2] := G (List.seq 0 (alen X)) (fun i Hi => proj2 (proj1 (List.in_seq _ _ _) Hi)). rewrite List.seq_length in S2.
split; first by apply: Rmult_le_pos => //; apply: Rlt_le; exact: Rinv_0_lt_compat.
apply: (Rmult_le_reg_r (INR (alen X))) => //. rewrite /Rdiv Rmult_assoc Rinv_l; last lra. rewrite Rmult_1_r. move: S2. rewrite /Rdiv. lra.
Qed.
End Floor.

(** ** the default computation *)
Section Default.
Variables (name : string) (h : dict NumR) (d : nat) (ls : pyval NumR) (s nz : R) (K : elem -> elem -> R) (X : arr NumR).
Hypotheses (F : fits name X d) (HH : has_hyps h d ls s nz) (HK : cov_of name ls s d = Some K).
Variables (p : list nat) (HP : Permutation p (List.seq 0 (alen X))).
Notation n := (alen X).
Notation X' := (take_rows X p).
Notation offs L := (Rsum (List.map (fun i => ln (at_ L i i + / 10000000) - ln (at_ L i i))%coqR (List.seq 0 n)) / INR n)%coqR.
Lemma mlc_terms Y q th ard fx inv sinv (HI : inv_contract sinv) chol cho_solve slogdet ug ug' v g v' g' : column n Y -> column n q ->
  chol_contract chol -> cho_solve_contract cho_solve -> (0 < n)%N ->
  @restore_hyps NumR name th true ard fx (GP_NOISE NumR) = Ok h ->
  @neg_log_ml NumR exp ln PI inv chol cho_solve slogdet X Y th name q ard fx true ug = Ok (v, g) ->
  @neg_log_ml NumR exp ln PI inv chol cho_solve slogdet X' (take_out Y p) th name (take_out q p) ard fx true ug' = Ok (v', g') ->
  exists C L C' L' z, @train_cov NumR exp X h name = Ok C /\ is_cholesky n C L /\ @train_cov NumR exp X' h name = Ok C' /\ is_cholesky n C' L' /\
    v = (z + offs L)%coqR /\ v' = (z + offs L')%coqR.
Proof.
move=> HY Hq HC HS Hn ER E E'.
have LA : alen X' = n by have [LP _] := GPProofs3.perm_of HP; rewrite alen_take.
have F' : fits name X' d by have [LP [I _]] := GPProofs3.perm_of HP; exact: fits_take I F.
have Hn' : (0 < alen X')%N by rewrite LA.
have [C [B [L [EC [HB [HL0 [EL V]]]]]]] := @ml_cholesky name h d ls s nz K X F HH HK Y q HY Hq th ard fx sinv chol cho_solve slogdet HI HC HS ug v g Hn ER E.
have [C' [B' [L' [EC' [HB' [HL' [EL' V']]]]]]] := @ml_cholesky name h d ls s nz K X' F' HH HK _ _ (col_perm_ok HP HY) (col_perm_ok HP Hq) th ard fx sinv chol cho_solve slogdet HI HC HS ug' v' g' Hn' ER E'.
rewrite LA in HB' HL' V'. have [E1 E2] := values_perm F HH HK HP Y q EC HB EC' HB'.
exists C, L, C', L', (gauss_nll n C B (residual Y q)). do 5 (split=> //). by rewrite V' /gauss_nll E1 E2.
Qed.
Lemma mlc_near Y q th ard fx inv sinv (HI : inv_contract sinv) chol cho_solve slogdet ug ug' v g v' g' : column n Y -> column n q ->
  chol_contract chol -> cho_solve_contract cho_solve -> (0 < n)%N ->
  @restore_hyps NumR name th true ard fx (GP_NOISE NumR) = Ok h ->
  @neg_log_ml NumR exp ln PI inv chol cho_solve slogdet X Y th name q ard fx true ug = Ok (v, g) ->
  @neg_log_ml NumR exp ln PI inv chol cho_solve slogdet X' (take_out Y p) th name (take_out q p) ard fx true ug' = Ok (v', g') ->
  (Rabs (v' - v) <= / 10000000 / sqrt (shift nz))%coqR.
Proof.
move=> HY Hq HC HS Hn ER E E'. have [C [L [C' [L' [z [EC [HL [EC' [HL' [-> ->]]]]]]]]]] := mlc_terms HI HY Hq HC HS Hn ER E E'.
have LA : alen X' = n by have [LP _] := GPProofs3.perm_of HP; rewrite alen_take.
have F' : fits name X' d by have [LP [I _]] := GPProofs3.perm_of HP; exact: fits_take I F.
have S1 := chol_sum F HH HK EC HL Hn. have S2 := @chol_sum name h d ls s nz K X' F' HH HK C' L' EC'. rewrite LA in S2. have S3 := S2 HL' Hn.
move: (Rsum _ / _)%coqR (Rsum _ / _)%coqR S1 S3 => a b S1 S3. apply: Rabs_le. lra.
Qed.
End Default.

(** ** three observations, two at the same place, in two orders *)
Lemma chol3 C L : is_cholesky 3 C L -> let c := at_ C 0 0 in
  (at_ C 1 1 = c -> at_ C 2 2 = c ->
  c = at_ L 0 0 * at_ L 0 0 /\ c * (at_ L 1 1 * at_ L 1 1) = c * c - at_ C 1 0 * at_ C 1 0 /\
  c * c * ((at_ L 1 1 * at_ L 1 1) * (at_ L 2 2 * at_ L 2 2)) =
    (c * c - at_ C 1 0 * at_ C 1 0) * (c * c - at_ C 2 0 * at_ C 2 0) - (c * at_ C 2 1 - at_ C 2 0 * at_ C 1 0) * (c * at_ C 2 1 - at_ C 2 0 * at_ C 1 0))%coqR.
Proof.
move=> [_ [TL [PL EL]]] c E1 E2.
have P0 := PL 0%N ltac:(lia). have P1 := PL 1%N ltac:(lia). have P2 := PL 2%N ltac:(lia).
have T01 := TL 0%N 1%N ltac:(lia) ltac:(lia) ltac:(lia). have T02 := TL 0%N 2%N ltac:(lia) ltac:(lia) ltac:(lia). have T12 := TL 1%N 2%N ltac:(lia) ltac:(lia) ltac:(lia).
have Q00 := EL 0%N 0%N ltac:(lia) ltac:(lia). have Q10 := EL 1%N 0%N ltac:(lia) ltac:(lia). have Q11 := EL 1%N 1%N ltac:(lia) ltac:(lia).
have Q20 := EL 2%N 0%N ltac:(lia) ltac:(lia). have Q21 := EL 2%N 1%N ltac:(lia) ltac:(lia). have Q22 := EL 2%N 2%N ltac:(lia) ltac:(lia).
rewrite /= ?T01 ?T02 ?T12 in Q00 Q10 Q11 Q20 Q21 Q22. rewrite E1 in Q11. rewrite E2 in Q22. rewrite -/c in Q00. clearbody c. clear EL TL PL E1 E2 T01 T02 T12.
move: (at_ C 1 0) (at_ C 2 0) (at_ C 2 1) (at_ L 0 0) (at_ L 1 0) (at_ L 1 1) (at_ L 2 0) (at_ L 2 1) (at_ L 2 2) P0 P1 P2 Q00 Q10 Q11 Q20 Q21 Q22.
move=> a b e x00 x10 x11 x20 x21 x22 P0 P1 P2. rewrite ?Rmult_0_l ?Rmult_0_r ?Rplus_0_r ?Rplus_0_l => Q00 Q10 Q11 Q20 Q21 Q22.
exact: (@chol3_alg c a b e x00 x10 x11 x20 x21 x22).
Qed.
