(** The likelihood of the Student-t process: its value and its gradient. *)
From Verif Require Import Base Num UtilsSpec HypsModel CovModel KernelSpec CovSpec PSD CovProofs CovProofs2 CovGrad RStruct MatLib GPModel GPSpec GPProofs GPMx GPProofs2 GPProofs3 LikModel LikSpec LikMx LikProofs GradSpec MatDeriv GradReal LikGrad.
From Coq Require Import Reals Lra Lia.
From mathcomp Require Import all_ssreflect perm all_algebra.
Set Implicit Arguments.
Unset Strict Implicit.
Unset Printing Implicit Defensive.
Import GRing.Theory.
Delimit Scope R_scope with coqR.
Local Open Scope ring_scope.

Section Value.
Variables (name : string) (h : dict NumR) (d : nat) (ls : pyval NumR) (s nz : R) (K : elem -> elem -> R) (X : arr NumR).
Hypotheses (F : fits name X d) (HH : has_hyps h d ls s nz) (HK : cov_of name ls s d = Some K).
Variables (Y p : mat NumR) (HY : column (alen X) Y) (Hp : column (alen X) p).
Variables (th : list R) (ard fx : bool) (nu : R).
Variables (inv : list (list R) -> res (list (list R))) (slogdet : list (list R) -> R * R) (gamma digamma : R -> R).
Hypotheses (HI : inv_contract inv) (HD : slogdet_contract slogdet).
Notation n := (alen X).
Hypotheses (ER : @restore_hyps NumR name th false ard fx (GP_NOISE NumR) = Ok h) (EN : dget h "dof" = Some (PFloat NumR nu)).

Lemma tp_value : exists C B, @train_cov NumR exp X h name = Ok C /\ is_inverse n C B /\ 0 <R det n C /\ CovSpec.symmetric n C /\ definite n C /\
    @tp_neg_log_ml NumR exp ln PI inv slogdet gamma digamma X Y th name p ard fx false
    = Ok (student_nll gamma n C B (residual Y p) nu, None).
Proof.
have [C [B [EI [EC [SC [HB [YC DC]]]]]]] := inverse_ok F HH HK HI.
have P := det_definite_pos YC DC.
exists C, B. do 5 (split=> //). rewrite /tp_neg_log_ml (checks_ok F HY Hp). cbn [rbind]. rewrite ER. cbn [rbind].
have [r [-> [Sr Vr]]] := centred_ok HY Hp. cbn [rbind]. rewrite /dfloat EN. cbn [rbind].
rewrite (inverse_fx inv X h name fx true) EI. cbn [rbind]. cbv beta iota zeta delta [option_map].
rewrite (bilin_quad B Vr) (logdet_ok HD SC P) nofnat_R neghalf_R. congr (Ok (_, None)).
rewrite /student_nll. move: (quad _ _ _) (ln (det _ _)) => a b.
change (nsub NumR nu (nofZ NumR 2)) with (nu - 2)%coqR.
change (nmul NumR (nu - 2)%coqR PI) with ((nu - 2) * PI)%coqR.
change (ndiv NumR (nadd NumR nu (INR n)) (nofZ NumR 2)) with ((nu + INR n) / 2)%coqR.
change (ndiv NumR nu (nofZ NumR 2)) with (nu / 2)%coqR.
change (nadd NumR (nofZ NumR 1) (ndiv NumR a (nu - 2)%coqR)) with (1 + a / (nu - 2))%coqR.
change (ndiv NumR (gamma ((nu + INR n) / 2)%coqR) (gamma (nu / 2)%coqR)) with (gamma ((nu + INR n) / 2) / gamma (nu / 2))%coqR.
move: (ln ((nu - 2) * PI)%coqR) (ln (1 + a / (nu - 2))%coqR) (INR n) => u w e. have [v E] : {v : R | v = ln (gamma ((nu + e) / 2) / gamma (nu / 2))%coqR} by eexists.
change (@eq R (-1 * ((- / 2 * e * u + - (b / 2) + ln (gamma ((nu + e) / 2) / gamma (nu / 2)) + - / 2 * (nu + e) * w) / e))%coqR ((e / 2 * u + b / 2 - ln (gamma ((nu + e) / 2) / gamma (nu / 2)) + (nu + e) / 2 * w) / e)%coqR).
rewrite -E /Rdiv. ring.
Qed.
End Value.

Section TP.
Variables (name : string) (pr : R -> R) (m : mat NumR) (d : nat) (h : dict NumR) (ls : pyval NumR) (s nz nu : R) (fx : bool).
Hypotheses (P : profile_of name = Some pr) (F : fits name (A2 NumR m) d) (H : has_hyps h d ls s nz)
  (Hs : s <> 0%coqR) (Hl : ls_nonzero ls d) (Hz : fx = true -> nz = GP_NOISE NumR) (Hnu : 2 <R nu).
Notation X := (A2 NumR m).
Notation n := (alen (A2 NumR m)).
Notation th := (theta fx nz s ls).
Notation tth := (ttheta fx nz nu s ls).
Notation ard := (is_arr ls).
Variables (Y p : mat NumR) (HY : column n Y) (Hp : column n p) (Hn : (0 < n)%N).
Variables (inv : list (list R) -> res (list (list R))) (slogdet : list (list R) -> R * R) (gamma digamma : R -> R).
Hypotheses (HI : inv_contract inv) (HD : slogdet_contract slogdet) (HG : gamma_contract gamma digamma).
Notation nll t ug := (@tp_neg_log_ml NumR exp ln PI inv slogdet gamma digamma X Y t name p ard fx ug).
Hypothesis ER : @restore_hyps NumR name tth false ard fx (GP_NOISE NumR) = Ok h.
Hypothesis EN : dget h "dof" = Some (PFloat NumR nu).
Notation r := (colof n (residual Y p)).
Notation fam := (@fam name m ls s nz fx).

(** the Student-t formula in terms of matrices *)
Definition tval (A : 'M[R]_n) (v : R) : R :=
  ((INR n / 2 * ln ((v - 2) * PI) + ln (\det A) / 2 - ln (gamma ((v + INR n) / 2) / gamma (v / 2))
   + (v + INR n) / 2 * ln (1 + qf (invmx A) r / (v - 2))) / INR n)%coqR.

Lemma tp_value_cov q u : lt q (List.length th) -> value_at (fun t => nll t false) tth (tind fx q) u = tval (fam q u) nu.
Proof.
move=> Hq. have [nz' [s' [ls' [L1 [L2 [L3 _]]]]]] := @lset_theta fx nz s ls q u Hq.
have LO := L3 d (ls_is_ok H). have [h' [R1 [R2 R4]]] := @restore_ttheta name pr d ls' s' nz' nu (GP_NOISE NumR) fx P LO.
have R3 : has_hyps h' d ls' s' (if fx then nz else nz').
  move: R2. case E: (fx) => //. by rewrite (Hz E).
have EL : lset tth (tind fx q) u = ttheta fx nz' nu s' ls' by rewrite /ttheta lset_ins // L1.
have R1' : @restore_hyps NumR name (lset tth (tind fx q) u) false ard fx (GP_NOISE NumR) = Ok h' by rewrite EL -L2.
have [C [B [EC [HB [_ [_ [_ E]]]]]]] := tp_value F R3 (cov_of_base d P ls' s') HY Hp gamma digamma HI HD R1' R4.
rewrite /value_at E /student_nll quad_qf detE (inverse_unit HB).2. by rewrite (fam_eq P F L1 L2 LO R3 EC).
Qed.
Lemma th_pos : lt 0 (List.length th). Proof. rewrite /theta !List.app_length /=. lia. Qed.
Lemma tp_value_dof u C : @train_cov NumR exp X h name = Ok C ->
  value_at (fun t => nll t false) tth (tp_dof fx) u = tval (mxof n n C) u.
Proof.
move=> EC. have LO := ls_is_ok H. have [h' [R1 [R2 R4]]] := @restore_ttheta name pr d ls s nz u (GP_NOISE NumR) fx P LO.
have R3 : has_hyps h' d ls s nz. move: R2. case E: (fx) => //. by rewrite (Hz E).
have EL : lset tth (tp_dof fx) u = ttheta fx nz u s ls by rewrite /ttheta lset_dof //; exact: th_pos.
have R1' : @restore_hyps NumR name (lset tth (tp_dof fx) u) false ard fx (GP_NOISE NumR) = Ok h' by rewrite EL.
have [C' [B [EC' [HB [_ [_ [_ E]]]]]]] := tp_value F R3 (cov_of_base d P ls s) HY Hp gamma digamma HI HD R1' R4.
rewrite /value_at E /student_nll quad_qf detE (inverse_unit HB).2.
by rewrite (train_gram F R3 (cov_of_base d P ls s) EC').2 (train_gram F H (cov_of_base d P ls s) EC).2.
Qed.

Lemma qf_inv_ge0 (A : 'M[R]_n) v : A^T = A -> pd A -> 0 <=R qf (invmx A) v.
Proof.
move=> SA PA. have U := pd_unit PA. have [->|N] := eqVneq v 0; first by rewrite /qf mulmx0 mxE; toR; lra.
have E : qf (invmx A) v = qf A (invmx A *m v).
  rewrite /qf trmx_mul inv_sym // -!mulmxA (mulmxA A) mulmxV // mul1mx. by [].
rewrite E. apply: Rlt_le. apply: PA. apply: contraNneq N => Z. by rewrite -(mulKVmx U v) Z mulmx0.
Qed.
Lemma ln_comp f x a : dl f x a -> 0 <R f x -> dl (fun t => ln (f t)) x (/ f x * a)%coqR.
Proof. move=> Df Pf. exact: (derivable_pt_lim_comp f ln x a (/ f x)%coqR Df (derivable_pt_lim_ln (f x) Pf)). Qed.

Lemma tp_deriv_cov q D : lt q (List.length th) -> mdl (fam q) (List.nth q th 0) D ->
  let A := fam q (List.nth q th 0) in
  dl (value_at (fun t => nll t false) tth (tind fx q)) (List.nth q th 0)
     ((/ INR n) * (\tr (invmx A *m D) / 2 - (nu + INR n) / (nu + qf (invmx A) r - 2) * qf D (invmx A *m r) / 2))%coqR.
Proof.
move=> Hq HD' A. have U t := fam_unit P F H t Hq. have [Sy Pd] := @fam_ok _ _ _ _ _ _ _ _ fx P F H q (List.nth q th 0) Hq.
have D1 := dl_quad HD' U r Sy.
have PD : 0 <R \det A.
  have [C [E3 _]] := train_cov_ok F H (cov_of_base d P ls s). rewrite /A (fam_at P F H Hq E3) -detE.
  apply: det_definite_pos; [exact: train_cov_symmetric F H (cov_of_base d P ls s) E3|exact: train_cov_definite F H (cov_of_base d P ls s) E3].
have D2 := dl_lndet HD' U PD.
have Q := qf_inv_ge0 r Sy Pd.
have Q1 : 0 <R (1 + / (nu - 2) * qf (invmx A) r)%coqR.
  have : (0 < / (nu - 2))%coqR by apply: Rinv_0_lt_compat; lraR. move: Q. rewrite -/A. move: (qf _ _) (/ _)%coqR => a b. toRs. nra.
have D3 : dl (fun u => (1 + / (nu - 2) * qf (invmx (fam q u)) r)%coqR) (List.nth q th 0) (0 + / (nu - 2) * - qf D (invmx A *m r))%coqR.
  apply: dl_add; first exact: dl_const. exact: dl_scal.
have D4 := ln_comp D3 Q1.
apply: (@dl_ext (fun u => (/ INR n) * ((INR n / 2 * ln ((nu - 2) * PI) - ln (gamma ((nu + INR n) / 2) / gamma (nu / 2)))
     + (/ 2 * ln (\det (fam q u)) + (nu + INR n) / 2 * ln (1 + / (nu - 2) * qf (invmx (fam q u)) r))))%coqR).
  move=> t. rewrite tp_value_cov // /tval /Rdiv (Rmult_comm (qf _ _)). move: (ln _) (ln _) (ln _) (ln _) => a b c e. ring.
have -> : (/ INR n * (\tr (invmx A *m D) / 2 - (nu + INR n) / (nu + qf (invmx A) r - 2) * qf D (invmx A *m r) / 2))%coqR
  = (/ INR n * (0 + (/ 2 * \tr (invmx A *m D) + (nu + INR n) / 2 * (/ (1 + / (nu - 2) * qf (invmx A) r) * (0 + / (nu - 2) * - qf D (invmx A *m r))))))%coqR.
  congr Rmult. move: Q Q1 Hnu. rewrite -/A. move: (qf D _) (qf _ _) (\tr _) (INR n) (Hnu) => a b c e Hnu' Q Q1 _. toRs.
  field. lra.
apply: dl_scal. apply: dl_add; first exact: dl_const. apply: dl_add; exact: dl_scal.
Qed.

(** the entry written for the degrees of freedom *)
Definition dof_code (beta : R) : R :=
  (- INR n / (2 * (nu - 2)) + digamma ((nu + INR n) / 2) - digamma (nu / 2) - / 2 * ln (1 + beta / (nu - 2))
   + (nu + INR n) * beta / (2 * ((nu - 2) * (nu - 2)) + 2 * beta * (nu - 2)))%coqR.

Lemma tp_run : exists v gs C B W, nll tth true = Ok (v, Some (ins fx (Rdiv (Rmult (-1) (dof_code (quad n B (residual Y p)))) (INR n))
      (List.map (fun g => Rdiv (Rmult (-1) (Rmult (/ 2) (@trace_dot NumR n W g))) (INR n)) gs))) /\ nll tth false = Ok (v, None) /\
  @grad_cov_main NumR exp name X X h fx true (JITTER_COV NumR) = Ok gs /\
  @train_cov NumR exp X h name = Ok C /\ is_inverse n C B /\ CovSpec.symmetric n C /\ definite n C /\
  mxof n n W = ((nu + INR n) / (nu + quad n B (residual Y p) - 2))%coqR *: ((mxof n n B *m r) *m (mxof n n B *m r)^T) - mxof n n B.
Proof.
have [C [B [EI [EC [SC [HB [YC DC]]]]]]] := inverse_ok F H (cov_of_base d P ls s) HI.
have [gs [EG [LG [SG GG]]]] := @fam_grad name pr m d h ls s nz fx P F H Hs Hl.
have EK1 : @get_kernel_inverse NumR exp inv X h name fx true = Ok (C, B, Some gs).
  move: EI. rewrite /get_kernel_inverse (fits_shape F). cbn [rbind]. rewrite EC. cbn [rbind].
  case: (inv C) => [b|e] //=. case=> ->. rewrite EG. by [].
have EK2 : @get_kernel_inverse NumR exp inv X h name fx false = Ok (C, B, None) by exact: EI.
have [y [Ey [Sy Vy]]] := centred_ok HY Hp.
pose al := mdot NumR n n 1 B y.
have Eal : mxof n 1 al = mxof n n B *m r.
  apply/matrixP=> i j. rewrite ord1 mxofE mdot_at; try exact/ltP. rewrite /prod_at Rsum_big mxE. apply: eq_bigr => k _.
  rewrite !mxE Vy //. exact/ltP.
pose W := mgen NumR n n (fun i j => nsub NumR (nmul NumR (ndiv NumR (nadd NumR nu (INR n)) (nsub NumR (nadd NumR nu (quad n B (residual Y p))) (nofZ NumR 2)))
     (mget NumR (mdot NumR n 1 n al (mtr NumR n 1 al)) i j)) (mget NumR B i j)).
eexists. exists gs, C, B, W. split; last split; last (split; [exact EG|split; [exact EC|split; [exact HB|split; [exact YC|split; [exact DC|]]]]]).
- rewrite /tp_neg_log_ml (checks_ok F HY Hp). cbn [rbind]. rewrite ER. cbn [rbind]. rewrite Ey. cbn [rbind]. rewrite /dfloat EN. cbn [rbind]. rewrite EK1. cbn [rbind].
  rewrite (bilin_quad B Vy). cbv beta iota zeta delta [option_map]. apply: f_equal. apply: f_equal2; first reflexivity.
  apply: f_equal. rewrite nofnat_R -/al -/W.
  have L0 : lt 0 (List.length gs) by rewrite LG; exact: th_pos.
  have -> : List.repeat (nofZ NumR 0) (List.length gs + 1) = ins fx R0 (List.repeat R0 (List.length gs)).
    rewrite addn1. move: L0. case: (List.length gs) => [|k] L0; first lia. by case: (fx).
  change (if fx then 0%N else 1%N) with (tp_dof fx).
  rewrite lset_dof; last by rewrite List.repeat_length.
  rewrite (@fold_ins _ fx _ (fun ind => nmul NumR (poshalf NumR) (@trace_dot NumR n W (List.nth ind gs [::])))); last first.
    move=> i. by rewrite List.in_seq List.repeat_length => -[].
  have := @fold_lset _ (fun ind => nmul NumR (poshalf NumR) (@trace_dot NumR n W (List.nth ind gs [::]))) _ nil _ (List.repeat_length R0 (List.length gs)).
  rewrite [List.length nil]/= ![List.app nil _]/= => ->.
  rewrite ins_map. apply: f_equal2.
  + rewrite /dof_code poshalf_R. reflexivity.
  + rewrite List.map_map. rewrite [RHS](CovProofs.map_nth_seq _ _ nil).
    apply: List.map_ext => g. have Q : (1 / 2 = / 2)%coqR by field. by rewrite Q.
- rewrite /tp_neg_log_ml (checks_ok F HY Hp). cbn [rbind]. rewrite ER. cbn [rbind]. rewrite Ey. cbn [rbind]. rewrite /dfloat EN. cbn [rbind]. rewrite EK2. cbn [rbind].
  rewrite (bilin_quad B Vy). by cbv beta iota zeta delta [option_map].
- apply/matrixP=> i j. rewrite mxofE -[at_ _ _ _]/(mget NumR W i j) /W CovMx.mget_mgen; try exact/ltP.
  rewrite addmxE oppmxE [X in X - _]mxE [X in _ * X - _]mxE big_ord1 [(_)^T 0 j]mxE -Eal.
  have -> : mget NumR (mdot NumR n 1 n al (mtr NumR n 1 al)) i j = (mxof n 1 al i 0 * mxof n 1 al j 0 : R).
    change (at_ (mdot NumR n 1 n al (mtr NumR n 1 al)) i j = mxof n 1 al i 0 * mxof n 1 al j 0).
    rewrite mdot_at; try exact/ltP. rewrite /prod_at Rsum_big big_ord1 mtr_at; try exact/ltP. by rewrite !mxE.
  rewrite !mxofE. by [].
Qed.

Lemma tp_gradient : exists v g C B, nll tth true = Ok (v, Some g) /\ nll tth false = Ok (v, None) /\ List.length g = List.length tth /\
  @train_cov NumR exp X h name = Ok C /\ is_inverse n C B /\
  forall q, lt q (List.length tth) -> exists G, dl (value_at (fun t => nll t false) tth q) (List.nth q tth 0) G /\
    List.nth q g 0 = (G +
      (if PeanoNat.Nat.eqb q (tp_dof fx) then - (digamma ((nu + INR n) / 2) - digamma (nu / 2)) / (2 * INR n)
       else if PeanoNat.Nat.eqb q (tp_signal fx) then
         / 100000 / s * Rsum (List.map (fun i => at_ B i i - (nu + INR n) / (nu - 2 + quad n B (residual Y p))
            * (apply_mx n B (residual Y p) i * apply_mx n B (residual Y p) i)) (List.seq 0 n)) / INR n
       else 0))%coqR.
Proof.
have [v [gs [C [B [W [E1 [E2 [EG [EC [HB [YC [DC EW]]]]]]]]]]]] := tp_run.
have [gs' [EG' [LG [SG GG]]]] := @fam_grad name pr m d h ls s nz fx P F H Hs Hl.
have ? : gs' = gs by apply: Ok_inj; rewrite -EG'. subst gs'.
have [UC EB] := inverse_unit HB.
have SB : (mxof n n B)^T = mxof n n B by rewrite EB inv_sym //; apply/symmetricP.
have n0 : (0 < INR n)%coqR by apply: lt_0_INR; exact/ltP.
have Q : 0 <=R quad n B (residual Y p).
  rewrite quad_qf EB. apply: qf_inv_ge0; [exact/symmetricP|exact/definiteP].
eexists v, _, C, B. split; first exact E1. split; first exact E2. split; first by rewrite /ttheta !length_ins List.map_length LG.
split; first exact EC. split; first exact HB. move=> q. rewrite {1}/ttheta length_ins => Hq.
have [->|[i [Hi ->]]] := tind_cases fx _ _ Hq th_pos.
- rewrite PeanoNat.Nat.eqb_refl. rewrite {2}/ttheta nth_dof; last exact: th_pos.
  rewrite nth_dof; last by rewrite List.map_length LG; exact: th_pos.
  have DD := dof_derivative _ _ _ _ (ln (\det (mxof n n C)) / 2)%coqR _ HG Hnu Q n0.
  eexists. split.
    apply: dl_ext DD => t. rewrite (tp_value_dof t EC) /tval quad_qf -EB. by [].
  rewrite /dof_code. move: Q n0 Hnu. move: (quad _ _ _) (INR n) (digamma _) (digamma _) (ln _) => a b c e l Q n0 Hnu'. toRs.
  have X1 : (2 * ((nu - 2) * (nu - 2)) + 2 * a * (nu - 2) > 0)%coqR by nra.
  change (@eq R (-1 * (- b / (2 * (nu - 2)) + e - c - / 2 * l + (nu + b) * a / (2 * ((nu - 2) * (nu - 2)) + 2 * a * (nu - 2))) / b)%coqR
     ((b / (2 * (nu - 2)) - / 2 * (e - c) + / 2 * l - (nu + b) * a / (2 * (nu - 2) * (nu - 2) + 2 * a * (nu - 2))) / b + - (e - c) / (2 * b))%coqR).
  field. lra.
- rewrite tind_dof tind_signal. rewrite {2}/ttheta nth_ins // nth_ins; last by rewrite List.map_length LG.
  have [D [HD' [SD ED]]] := GG i Hi.
  have FA := fam_at P F H Hi EC. have := tp_deriv_cov Hi HD'. rewrite FA. cbv zeta. rewrite -EB => GD. eexists. split; first exact: GD.
  rewrite (@CovMx.nth_map_in _ _ _ _ nil); last by rewrite LG.
  rewrite trace_dot_tr EW ED -quad_qf. set o : R := if _ then (_ / s)%coqR else _.
  set k := ((nu + INR n) / (nu + quad n B (residual Y p) - 2))%coqR.
  have -> : ((nu + INR n) / (nu - 2 + quad n B (residual Y p)))%coqR = k.
    rewrite /k. congr Rdiv. move: (quad _ _ _) => a. ring.
  rewrite mulmxDr mulmxBl linearD linearB /= -scalemxAl linearZ /= tr_outer mul_mx_scalar linearZ /= linearB linearZ /=.
  have -> : k * \tr (mxof n n B *m r *m (mxof n n B *m r)^T) - \tr (mxof n n B)
    = (- Rsum (List.map (fun i => at_ B i i - k * (apply_mx n B (residual Y p) i * apply_mx n B (residual Y p) i)) (List.seq 0 n)))%coqR.
    rewrite Rsum_big. etransitivity; last exact: sumrN. rewrite /mxtrace mulr_sumr. etransitivity; first (symmetry; exact: sumrB). apply: eq_bigr => j _. rewrite mxE big_ord1 [(_)^T 0 j]mxE.
    have -> : (mxof n n B *m r) j 0 = apply_mx n B (residual Y p) j.
      rewrite mxE /apply_mx Rsum_big. by apply: eq_bigr => l _; rewrite !mxE.
    rewrite mxofE. move: (apply_mx _ _ _ _) (at_ _ _ _) (k) => a b c. change (@eq R (c * (a * a) + - b)%coqR (- (b - (c * (a * a))))%coqR). ring.
  change (nrows m) with (alen (A2 NumR m)). rewrite /o.
  have GEN (a b c e l : R) : 0 <R e -> (-1 * (/ 2 * ((l * a - b) + (if PeanoNat.Nat.eqb i (gp_signal fx) then 2 * / 100000 / s else 0) * - c)) / e)%coqR
      = (/ e * (b / 2 - l * a / 2) + (if PeanoNat.Nat.eqb i (gp_signal fx) then / 100000 / s * c / e else 0))%coqR; last by exact: (GEN _ _ _ _ k n0).
  move=> Nn. clear - Hs Nn.
  case: (PeanoNat.Nat.eqb i _).
  + field. split=> //; lra.
  + field. lra.
Qed.
End TP.
