(** Contracts of slogdet and cho_solve can be met; size of the logarithm jitter; the prior mean and the
    leave-one-out criterion. *)
From Verif Require Import Base Num UtilsSpec HypsModel CovModel KernelSpec CovSpec PSD CovProofs CovProofs2 RStruct MatLib GPModel GPSpec GPProofs GPMx GPProofs2 GPProofs3 LikModel LikSpec LikMx LikProofs Contracts.
From Coq Require Import Reals Lra Lia ClassicalEpsilon.
From mathcomp Require Import all_ssreflect perm all_algebra.
Set Implicit Arguments.
Unset Strict Implicit.
Unset Printing Implicit Defensive.
Import GRing.Theory.
Delimit Scope R_scope with coqR.
Local Open Scope ring_scope.

Definition some_slogdet (a : list (list R)) : R * R :=
  let d := det (List.length a) a in
  if Rlt_dec R0 d is Specif.left _ then (R1, ln d) else if Rlt_dec d R0 is Specif.left _ then ((-1)%coqR, ln (- d)%coqR) else (R0, R0).
Lemma some_slogdet_ok : slogdet_contract some_slogdet.
Proof.
move=> n a [L _]. rewrite /some_slogdet L. case: Rlt_dec => H.
- split=> //. split=> Q; exfalso; lra.
- case: Rlt_dec => H'; (split; first by move=> Q; exfalso; lra); split=> // Q; exfalso; lra.
Qed.
Definition some_cho_solve (l b : list (list R)) : res (list (list R)) :=
  let n := List.length l in let m := List.length (List.nth 0 b nil) in
  match excluded_middle_informative (exists x, solves n m l b x) with
  | Specif.left H => Ok (proj1_sig (constructive_indefinite_description _ H))
  | Specif.right _ => Raise LinAlgError
  end.
Lemma some_cho_solve_ok : cho_solve_contract some_cho_solve.
Proof.
move=> n m l b [Ll Rl] [Lb Rb] Hn Hm T D. rewrite /some_cho_solve Ll.
have -> : List.length (List.nth 0 b nil) = m by apply: Rb; apply: List.nth_In; lia.
case: excluded_middle_informative => H.
- case: constructive_indefinite_description => x Hx /=. by exists x.
- case: H. pose Lm := mxof n n l. pose A := Lm *m Lm^T. exists (ofmx (invmx A *m mxof n m b)). split; first exact: ofmx_is_mx.
  have U : A \in unitmx.
    rewrite unitmxE det_mulmx det_tr trig_det; last by move=> i j H'; rewrite mxofE T //; exact/ltP.
    rewrite unitfE mulf_neq0 //; apply/prodf_neq0 => i _; rewrite mxofE; apply/eqP; apply: D; exact/ltP.
  move=> i j Hi Hj. rewrite -[at_ b i j]/(at_ b (Ordinal (introT ltP Hi)) (Ordinal (introT ltP Hj))) -mxofE.
  set x := invmx A *m _. rewrite -(mulKVmx U (mxof n m b)) -/x mxE Rsum_big. apply: eq_bigr => k _. rewrite -(at_ofmx x k (Ordinal (introT ltP Hj))) mulE. congr (Rmult _ _).
  rewrite mxE Rsum_big. by apply: eq_bigr => q _; rewrite !mxE.
Qed.

(** ln (x + J) - ln x *)
Lemma ln_jitter (x J : R) : 0 <R x -> 0 <=R J -> 0 <=R (ln (x + J) - ln x)%coqR /\ (ln (x + J) - ln x <= J / x)%coqR.
Proof.
move=> Hx HJ. have E : (ln (x + J) - ln x = ln (1 + J / x))%coqR.
  have -> : (x + J = x * (1 + J / x))%coqR by field; lra.
  have HP : (0 <= J / x)%coqR by apply: Rmult_le_pos => //; apply: Rlt_le; exact: Rinv_0_lt_compat.
  rewrite ln_mult; [|done|lra]. change (@eq R (ln x + ln (1 + J / x) - ln x)%coqR (ln (1 + J / x))%coqR). lra.
have HP : (0 <= J / x)%coqR by apply: Rmult_le_pos => //; apply: Rlt_le; exact: Rinv_0_lt_compat.
rewrite E. split.
- rewrite -ln_1. case: (Req_dec (J / x) 0) => [-> |N]; first by rewrite Rplus_0_r; exact: Rle_refl.
  apply: Rlt_le. apply: ln_increasing; [exact: Rlt_0_1|]. change (1 < 1 + J / x)%coqR. lra.
- rewrite -{2}(ln_exp (J / x)). case: (Req_dec (J / x) 0) => [-> |N]; first by rewrite Rplus_0_r exp_0; exact: Rle_refl.
  apply: Rlt_le. apply: ln_increasing; first lra. apply: exp_ineq1. lra.
Qed.
Lemma sum_jitter n (l : nat -> R) (J : R) : (forall i, lt i n -> 0 <R l i) -> 0 <=R J ->
  0 <=R Rsum (List.map (fun i => ln (l i + J) - ln (l i))%coqR (List.seq 0 n)) /\
  Rsum (List.map (fun i => ln (l i + J) - ln (l i))%coqR (List.seq 0 n)) <=R Rsum (List.map (fun i => J / l i)%coqR (List.seq 0 n)).
Proof.
move=> H HJ. have {H} : forall i, List.In i (List.seq 0 n) -> 0 <R l i by move=> i /List.in_seq Hi; apply: H; lia.
elim: (List.seq 0 n) => [|i s IH] H /=; first by split; exact: Rle_refl.
have [A B] := ln_jitter (H i (or_introl erefl)) HJ. have [A' B'] := IH (fun k Hk => H k (or_intror Hk)). split; lra.
Qed.

Section Chol.
Variables (name : string) (h : dict NumR) (d : nat) (ls : pyval NumR) (s nz : R) (K : elem -> elem -> R) (X : arr NumR).
Hypotheses (F : fits name X d) (HH : has_hyps h d ls s nz) (HK : cov_of name ls s d = Some K).
Variables (Y p : mat NumR) (HY : column (alen X) Y) (Hp : column (alen X) p).
Variables (th : list R) (ard fx : bool).
Variables (inv chol : list (list R) -> res (list (list R))) (cho_solve : list (list R) -> list (list R) -> res (list (list R)))
  (slogdet : list (list R) -> R * R).
Hypotheses (HI : inv_contract inv) (HC : chol_contract chol) (HS : cho_solve_contract cho_solve).
Notation n := (alen X).
Notation nll := (@neg_log_ml NumR exp ln PI inv chol cho_solve slogdet X Y th name p ard fx).

(** without gradient the Cholesky path always returns *)
Lemma ml_cholesky_total : (0 < n)%N -> @restore_hyps NumR name th true ard fx (GP_NOISE NumR) = Ok h ->
  exists v, nll true false = Ok (v, None).
Proof.
move=> Hn ER. have [C [L [EK [EC [SC [HL EL]]]]]] := cholesky_ok F HH HK HC.
rewrite /neg_log_ml (checks_ok F HY Hp) /= ER /=. have [r [-> [Sr Vr]]] := centred_ok HY Hp.
have -> : @get_kernel_cholesky NumR exp chol X h name fx false = Ok (C, L, None) by exact: EK.
cbn [rbind]. have [SL [TL [PL LL]]] := HL.
have [x [Ex Hx]] := HS SL Sr (ssrbool.elimT ltP Hn) (PeanoNat.Nat.lt_0_succ 0) TL (fun i Hi => Rgt_not_eq _ _ (PL i Hi)).
rewrite Ex. cbn [rbind]. by eexists.
Qed.
Lemma ml_cholesky_near ug v g : (0 < n)%N -> @restore_hyps NumR name th true ard fx (GP_NOISE NumR) = Ok h -> nll true ug = Ok (v, g) ->
  exists C B L, @train_cov NumR exp X h name = Ok C /\ is_inverse n C B /\ is_cholesky n C L /\
    (0 <= v - gauss_nll n C B (residual Y p))%coqR /\
    (v - gauss_nll n C B (residual Y p) <= Rsum (List.map (fun i => / 10000000 / at_ L i i) (List.seq 0 n)) / INR n)%coqR.
Proof.
move=> Hn ER EV. have [C [B [L [EC [HB [HL [_ E]]]]]]] := ml_cholesky F HH HK HY Hp HI HC HS Hn ER EV.
exists C, B, L. do 3 (split=> //). have [_ [_ [PL _]]] := HL.
have [A1 A2] := @sum_jitter n (fun i => at_ L i i) (/ 10000000)%coqR PL ltac:(lra).
have P : (0 < / INR n)%coqR by apply: Rinv_0_lt_compat; apply: lt_0_INR; exact/ltP.
move: E A1 A2. move: (gauss_nll _ _ _ _) (Rsum _) (Rsum _) => a c b E A1 A2.
suff : forall w : R, w = (a + b / INR n)%coqR -> (0 <= w - a)%coqR /\ (w - a <= c / INR n)%coqR by move=> W; exact: (W v E).
move=> w ->. have B1 := Rmult_le_pos _ _ A1 (Rlt_le _ _ P). have B2 := Rmult_le_compat_r _ _ _ (Rlt_le _ _ P) A2.
rewrite /Rdiv. split; lra.
Qed.
End Chol.

Lemma diff_le (a c : R) : (0 <= c)%coqR -> 0 <=R (a + c)%coqR - a. Proof. toR. lra. Qed.
Lemma diff_lt (a c : R) : (0 < c)%coqR -> 0 <R (a + c)%coqR - a. Proof. toR. lra. Qed.
Lemma sq_half_gt (c q : R) : (0 < q)%coqR -> c <> 0%coqR -> (0 < c / q * (c / q) * (q + / 100000) / 2)%coqR.
Proof.
move=> Hq Hc. have N : (c / q <> 0)%coqR by apply: Rmult_integral_contrapositive_currified => //; apply: Rinv_neq_0_compat; lra.
have := Rmult_lt_0_compat _ _ (Rsqr_pos_lt _ N) (Rplus_lt_0_compat _ (/ 100000)%coqR Hq ltac:(lra)). rewrite /Rsqr. lra.
Qed.
Lemma sq_half_ge (c q : R) : (0 < q)%coqR -> (0 <= c / q * (c / q) * (q + / 100000) / 2)%coqR.
Proof.
move=> Hq. case: (Req_dec c 0) => [-> |N]; last exact/Rlt_le/sq_half_gt.
have -> : (0 / q * (0 / q) * (q + / 100000) / 2 = 0)%coqR by field; lra. exact: Rle_refl.
Qed.

(** ** the leave-one-out criterion and the prior mean *)
Section Prior.
Variables (name : string) (h : dict NumR) (d : nat) (ls : pyval NumR) (s nz : R) (K : elem -> elem -> R) (X : arr NumR).
Hypotheses (F : fits name X d) (HH : has_hyps h d ls s nz) (HK : cov_of name ls s d = Some K).
Variables (inv : list (list R) -> res (list (list R))).
Hypotheses (HI : inv_contract inv).
Notation n := (alen X).
Notation loocv Y p th fx := (@neg_log_pseudo_l_loocv NumR exp ln PI inv X Y th name p fx).
Definition const_col (c : R) : mat NumR := mkmat (List.map (fun _ => (c : NumR) :: nil)%list (List.seq 0 n)) 1.
Lemma const_column c : column n (const_col c).
Proof. split=> //. split; first by rewrite /= List.map_length List.seq_length. by move=> r /List.in_map_iff [k [<- _]]. Qed.
Lemma const_out c i : lt i n -> out (const_col c) i = c.
Proof. move=> Hi. rewrite /out /at_ /= (@CovMx.nth_map_in _ _ _ _ 0%N) ?List.seq_length //. Qed.

(** the outputs 0 and 1 always give different values, whatever the prior means are *)
Lemma loocv_shift (p p' : mat NumR) (th : list R) fx : (0 < n)%N -> column n p -> column n p' ->
  @restore_hyps NumR name th true true fx (GP_NOISE NumR) = Ok h ->
  exists v v', loocv (const_col 0) p th fx = Ok v /\ loocv (const_col 1) p' th fx = Ok v' /\ (v < v')%coqR.
Proof.
move=> Hn Hp Hp' ER. have [C [B [EI [EC [SC [HB _]]]]]] := inverse_ok F HH HK HI.
do 2 eexists. split; first exact: (loocv_ok F HH HK HI (const_column 0) Hp ER EC HB).
split; first exact: (loocv_ok F HH HK HI (const_column 1) Hp' ER EC HB).
apply: Rmult_lt_compat_r; first by apply: Rinv_0_lt_compat; apply: lt_0_INR; exact/ltP.
have DB i : lt i n -> 0 <R at_ B i i by move=> Hi; have [] := loo_ok F HH HK HI (const_column 0) EC HB Hi.
have [UC EB] := inverse_unit HB.
pose bs i := Rsum (List.map (fun k => at_ B i k) (List.seq 0 n)).
have P0 i : lt i n -> prod_at n B (mrows (const_col 0)) i 0 = 0.
  move=> Hi. rewrite /prod_at Rsum_big big1 // => k _. have := @const_out 0 k (elimT ltP (ltn_ord k)). rewrite /out => ->. exact: Rmult_0_r.
have P1 i : lt i n -> prod_at n B (mrows (const_col 1)) i 0 = bs i.
  move=> Hi. rewrite /prod_at /bs !Rsum_big. apply: eq_bigr => k _. have := @const_out 1 k (elimT ltP (ltn_ord k)). rewrite /out => ->. exact: Rmult_1_r.
have NZ : exists2 i : 'I_n, True & bs i <> 0.
  apply: NNPP => Q. have Z : mxof n n B *m colof n (fun _ => 1) = 0.
    apply/matrixP=> i j. rewrite ord1 [RHS]mxE. apply: NNPP => N. apply: Q. exists i => //. move: N. rewrite mxE /bs Rsum_big => N N'. apply: N. rewrite -[RHS]N'. apply: eq_bigr => k _. by rewrite !mxE mulr1.
  have := congr1 (mulmx (mxof n n C)) Z. rewrite EB mulKVmx // mulmx0 => /matrixP /(_ (Ordinal Hn) 0). rewrite !mxE. exact: R1_neq_R0.
have T y i b : lt i n -> (normal_nll (y - b / at_ B i i) (1 / (at_ B i i + / 100000)) y
   = ln (1 / (at_ B i i + / 100000)) / 2 + ln (2 * PI) / 2 + (b / at_ B i i) * (b / at_ B i i) * (at_ B i i + / 100000) / 2)%coqR.
  move=> Hi. rewrite /normal_nll. have := DB i Hi. move: (at_ B i i) (ln (1 / _)) (ln (2 * PI)) => q l1 l2 Hq. field. split; lra.
have V0 i : lt i n -> normal_nll (lmean X B (const_col 0) i) (1 / (at_ B i i + / 100000))%coqR (out (const_col 0) i)
   = (ln (1 / (at_ B i i + / 100000)) / 2 + ln (2 * PI) / 2)%coqR.
  move=> Hi. rewrite /lmean (T _ _ _ Hi) P0 //. have := DB i Hi. move: (at_ B i i) (ln (1 / _)) (ln (2 * PI)) => q l1 l2 Hq.
  change (l1 / 2 + l2 / 2 + 0 / q * (0 / q) * (q + / 100000) / 2 = l1 / 2 + l2 / 2)%coqR. field. lra.
have V1 i : lt i n -> normal_nll (lmean X B (const_col 1) i) (1 / (at_ B i i + / 100000))%coqR (out (const_col 1) i)
   = (ln (1 / (at_ B i i + / 100000)) / 2 + ln (2 * PI) / 2 + (bs i / at_ B i i) * (bs i / at_ B i i) * (at_ B i i + / 100000) / 2)%coqR.
  by move=> Hi; rewrite /lmean (T _ _ _ Hi) P1.
rewrite !Rsum_big. case: NZ => i0 _ Hi0.
apply: Rminus_gt_0_lt. set a := \sum_(i < n) _. set b := \sum_(i < n) _.
pose f c i := normal_nll (lmean X B (const_col c) i) (1 / (at_ B i i + / 100000))%coqR (out (const_col c) i).
suff : 0 <R \sum_(i < n) (f 1 i - f 0 i) by rewrite sumrB.
apply: (@sum_pos n _ i0); rewrite /f.
- move=> i. have Hi := elimT ltP (ltn_ord i). rewrite V0 // V1 //. apply: diff_le. exact: sq_half_ge (DB i Hi).
- have Hi := elimT ltP (ltn_ord i0). rewrite V0 // V1 //. apply: diff_lt. apply: sq_half_gt => //. exact: DB.
Qed.
End Prior.
