(** Gradients of the negative log likelihoods. *)
From Verif Require Import Base Num UtilsSpec HypsModel CovModel KernelSpec CovSpec PSD CovProofs CovProofs2 CovGrad RStruct MatLib GPModel GPSpec GPProofs GPMx GPProofs2 GPProofs3 LikModel LikSpec LikMx LikProofs GradSpec MatDeriv.
From Coq Require Import Reals Lra Lia.
From mathcomp Require Import all_ssreflect perm all_algebra.
Set Implicit Arguments.
Unset Strict Implicit.
Unset Printing Implicit Defensive.
Import GRing.Theory.
Delimit Scope R_scope with coqR.
Local Open Scope ring_scope.

Section Family.
Variables (name : string) (pr : R -> R) (m : mat NumR) (d : nat) (h : dict NumR) (ls : pyval NumR) (s nz : R) (fx : bool).
Hypotheses (P : profile_of name = Some pr) (F : fits name (A2 NumR m) d) (H : has_hyps h d ls s nz)
  (Hs : s <> 0%coqR) (Hl : ls_nonzero ls d).
Notation X := (A2 NumR m).
Notation n := (alen (A2 NumR m)).
Notation th := (theta fx nz s ls).

Lemma cov_of_base l0 s0 : cov_of name l0 s0 d = Some (fun e e' => base_kernel pr l0 s0 d (point e) (point e')).
Proof. by rewrite /cov_of P. Qed.

(** the training covariance as a function of component [p] *)
Definition fam (p : nat) (u : R) : 'M[R]_n := \matrix_(i, j) cov_at name X fx (is_arr ls) nz th p i j u.
Lemma fam_eq p u nz' s' ls' hh C : lset th p u = theta fx nz' s' ls' -> is_arr ls' = is_arr ls -> ls_ok ls' d ->
  has_hyps hh d ls' s' (if fx then nz else nz') -> @train_cov NumR exp X hh name = Ok C -> mxof n n C = fam p u.
Proof.
move=> L1 L2 L3 HH EC. have [h' [R1 R2]] := @restore_theta name pr d ls' s' nz' nz fx P L3.
have [c [T1 [S1 _]]] := train_cov_ok F R2 (cov_of_base ls' s').
have E : mxof n n C = mxof n n c.
  by rewrite (train_gram F HH (cov_of_base ls' s') EC).2 (train_gram F R2 (cov_of_base ls' s') T1).2.
apply/matrixP=> i j. rewrite E !mxE /cov_at L1 -L2 R1 /=. have -> : @train_cov NumR exp X h' name = Ok c by exact: T1. by [].
Qed.
Lemma fam_ok p u : lt p (List.length th) -> (fam p u)^T = fam p u /\ pd (fam p u).
Proof.
move=> Hp. have [nz' [s' [ls' [L1 [L2 [L3 _]]]]]] := @lset_theta fx nz s ls p u Hp.
have LO := L3 d (ls_is_ok H). have [h' [R1 R2]] := @restore_theta name pr d ls' s' nz' nz fx P LO.
have [c [T1 [S1 _]]] := train_cov_ok F R2 (cov_of_base ls' s').
rewrite -(fam_eq L1 L2 LO R2 T1). split; first by apply/symmetricP; exact: train_cov_symmetric F R2 (cov_of_base ls' s') T1.
by apply/definiteP; exact: train_cov_definite F R2 (cov_of_base ls' s') T1.
Qed.
Lemma fam_unit p u : lt p (List.length th) -> fam p u \in unitmx.
Proof. by move=> /(@fam_ok p u) [_ D]; exact: pd_unit. Qed.
Lemma lset_self (T : Type) (l : list T) p x : List.nth p l x = List.nth p (lset l p (List.nth p l x)) x /\ lset l p (List.nth p l x) = l.
Proof.
split; last by elim: l p => [|y l IH] [|p] //=; rewrite IH.
have -> : lset l p (List.nth p l x) = l by elim: l p => [|y l IH] [|p] //=; rewrite IH. by [].
Qed.
Lemma theta_inj nz1 s1 l1 nz2 s2 l2 : theta fx nz1 s1 l1 = theta fx nz2 s2 l2 -> is_arr l1 = is_arr l2 -> ls_ok l1 d -> ls_ok l2 d ->
  (fx = false -> nz1 = nz2) /\ s1 = s2 /\ l1 = l2.
Proof.
rewrite /theta /ls_ok. case: (fx) => /=; case: l1 => [x|x|x]; case: l2 => [y|y|y] //=.
- by case=> -> ->. - by case=> -> ->.
- by case=> -> -> ->. - by case=> -> -> ->.
Qed.
(** at the current value it is the training covariance *)
Lemma fam_at p C : lt p (List.length th) -> @train_cov NumR exp X h name = Ok C -> fam p (List.nth p th 0) = mxof n n C.
Proof.
move=> Hp EC. have LO := ls_is_ok H. symmetry. apply: (@fam_eq p _ nz s ls h) => //.
- exact: (lset_self th p 0).2.
- by case: (fx).
Qed.
Lemma fam_grad : exists g, @grad_cov_main NumR exp name X X h fx true (JITTER_COV NumR) = Ok g /\ List.length g = List.length th /\
  (forall p, lt p (List.length th) -> is_mx n n (List.nth p g nil)) /\
  forall p, lt p (List.length th) -> exists D : 'M[R]_n, mdl (fam p) (List.nth p th 0) D /\ D^T = D /\
    mxof n n (List.nth p g nil) = D + (if PeanoNat.Nat.eqb p (gp_signal fx) then (2 * / 100000 / s)%coqR else 0)%:M.
Proof.
have [g [E [L [S G]]]] := @grad_correct name pr m d h ls s nz fx P F H Hs Hl.
exists g. do 3 (split=> //). move=> p Hp.
pose o : R := if PeanoNat.Nat.eqb p (gp_signal fx) then (2 * / 100000 / s)%coqR else 0.
pose D := mxof n n (List.nth p g nil) - o%:M.
have HD : mdl (fam p) (List.nth p th 0) D.
  move=> i j. have [_ [D0 [/Coquelicot.Derive.is_derive_Reals HD0 E0]]] := G p i j Hp (elimT ltP (ltn_ord i)) (elimT ltP (ltn_ord j)).
  apply: (@dl_ext (cov_at name X fx (is_arr ls) nz th p i j)); first by move=> t; rewrite mxE.
  suff -> : D i j = D0 by []. rewrite /D addmxE oppmxE mxofE E0 mxE eqb_ord /o /gp_signal.
  case: (PeanoNat.Nat.eqb p _); case: (PeanoNat.Nat.eqb i j); rewrite /= ?mulr1n ?mulr0n; toR; lra.
exists D. split=> //. split; last by rewrite /D subrK.
apply/matrixP=> i j. rewrite mxE. apply: (dl_unique (HD j i)). apply: dl_ext (HD i j) => t.
have [Sy _] := @fam_ok p t Hp. by rewrite -{1}Sy mxE.
Qed.
End Family.

(** ** sums over matrices *)
Lemma esum_tr n (a b : list (list R)) : @esum NumR n a b = \tr ((mxof n n a)^T *m mxof n n b).
Proof.
rewrite /esum UtilsRProofs.nsum_R Rsum_big /mxtrace.
transitivity (\sum_(i < n) \sum_(j < n) at_ a i j * at_ b i j).
  apply: eq_bigr => i _. rewrite UtilsRProofs.nsum_R Rsum_big. by [].
rewrite exchange_big /=. apply: eq_bigr => j _. rewrite mxE. by apply: eq_bigr => i _; rewrite !mxE.
Qed.

Lemma tr_outer n (a : 'cV[R]_n) (D : 'M[R]_n) : \tr (a *m a^T *m D) = qf D a.
Proof. by rewrite mxtrace_mulC mulmxA mxtrace_mulC /qf mulmxA /mxtrace big_ord1. Qed.
Lemma trace_dot_tr n (a b : list (list R)) : @trace_dot NumR n a b = \tr (mxof n n a *m mxof n n b).
Proof.
rewrite /trace_dot UtilsRProofs.nsum_R mdiag_at Rsum_big. apply: eq_bigr => i _.
rewrite mdot_at; [|exact/ltP|exact/ltP]. exact: prod_at_mx.
Qed.

(** ** the Gaussian likelihood *)
Section GP.
Variables (name : string) (pr : R -> R) (m : mat NumR) (d : nat) (h : dict NumR) (ls : pyval NumR) (s nz : R) (fx : bool).
Hypotheses (P : profile_of name = Some pr) (F : fits name (A2 NumR m) d) (H : has_hyps h d ls s nz)
  (Hs : s <> 0%coqR) (Hl : ls_nonzero ls d) (Hz : fx = true -> nz = GP_NOISE NumR).
Notation X := (A2 NumR m).
Notation n := (alen (A2 NumR m)).
Notation th := (theta fx nz s ls).
Notation ard := (is_arr ls).
Variables (Y p : mat NumR) (HY : column n Y) (Hp : column n p) (Hn : (0 < n)%N).
Variables (inv chol : list (list R) -> res (list (list R))) (cho_solve : list (list R) -> list (list R) -> res (list (list R)))
  (slogdet : list (list R) -> R * R).
Hypotheses (HI : inv_contract inv) (HC : chol_contract chol) (HS : cho_solve_contract cho_solve) (HD : slogdet_contract slogdet).
Notation nll t ch ug := (@neg_log_ml NumR exp ln PI inv chol cho_solve slogdet X Y t name p ard fx ch ug).
Hypothesis ER : @restore_hyps NumR name th true ard fx (GP_NOISE NumR) = Ok h.
Notation r := (colof n (residual Y p)).
Notation fam := (@fam name m ls s nz fx).

Lemma restore_comp q u : lt q (List.length th) -> exists hu nz' s' ls' C,
  @restore_hyps NumR name (lset th q u) true ard fx (GP_NOISE NumR) = Ok hu /\ has_hyps hu d ls' s' (if fx then nz else nz') /\
  @train_cov NumR exp X hu name = Ok C /\ mxof n n C = fam q u.
Proof.
move=> Hq. have [nz' [s' [ls' [L1 [L2 [L3 _]]]]]] := @lset_theta fx nz s ls q u Hq.
have LO := L3 d (ls_is_ok H). have [h' [R1 R2]] := @restore_theta name pr d ls' s' nz' (GP_NOISE NumR) fx P LO.
have R3 : has_hyps h' d ls' s' (if fx then nz else nz').
  move: R2. case E: (fx) => //. by rewrite (Hz E).
have [C [T1 _]] := train_cov_ok F R3 (cov_of_base d P ls' s').
exists h', nz', s', ls', C. rewrite L1 -L2. split=> //. split=> //. split=> //. exact (fam_eq P F L1 L2 LO R3 T1).
Qed.
Lemma gp_value q u : lt q (List.length th) ->
  value_at (fun t => nll t false false) th q u
  = ((qf (invmx (fam q u)) r / 2 + ln (\det (fam q u)) / 2 + INR n / 2 * ln (2 * PI)) / INR n)%coqR.
Proof.
move=> Hq. have [hu [nz' [s' [ls' [C [E1 [E2 [E3 E4]]]]]]]] := restore_comp u Hq.
have [C' [B [EC [HB [_ E]]]]] := ml_inverse F E2 (cov_of_base d P ls' s') HY Hp chol cho_solve HI HD false E1.
rewrite /value_at E /gauss_nll quad_qf detE. move: EC. rewrite E3 => EC. apply Ok_inj in EC. subst C'.
by rewrite (inverse_unit HB).2 E4.
Qed.
Lemma gp_deriv q D : lt q (List.length th) -> mdl (fam q) (List.nth q th 0) D ->
  let A := fam q (List.nth q th 0) in
  dl (value_at (fun t => nll t false false) th q) (List.nth q th 0)
     ((/ INR n) * (- qf D (invmx A *m r) / 2 + \tr (invmx A *m D) / 2))%coqR.
Proof.
move=> Hq HD' A. have U t := fam_unit P F H t Hq. have [Sy Pd] := @fam_ok _ _ _ _ _ _ _ _ fx P F H q (List.nth q th 0) Hq.
have D1 := dl_quad HD' U r Sy.
have PD : 0 <R \det A.
  have [hu [nz' [s' [ls' [C [E1 [E2 [E3 E4]]]]]]]] := restore_comp (List.nth q th 0) Hq.
  rewrite /A -E4 -detE. apply: det_definite_pos; [exact: train_cov_symmetric F E2 (cov_of_base d P ls' s') E3|exact: train_cov_definite F E2 (cov_of_base d P ls' s') E3].
have D2 := dl_lndet HD' U PD.
apply: (@dl_ext (fun u => (/ INR n) * ((/ 2) * qf (invmx (fam q u)) r + (/ 2) * ln (\det (fam q u)) + INR n / 2 * ln (2 * PI)))%coqR).
  move=> t. rewrite gp_value //. move: (qf _ _) (ln _) (ln _) => a b c. rewrite /Rdiv. ring.
have -> : (/ INR n * (- qf D (invmx A *m r) / 2 + \tr (invmx A *m D) / 2))%coqR
  = (/ INR n * (/ 2 * - qf D (invmx A *m r) + / 2 * \tr (invmx A *m D) + 0))%coqR.
  move: (qf _ _) (\tr _) => a b. rewrite /Rdiv. ring.
apply: dl_scal. apply: dl_add; last exact: dl_const. apply: dl_add; exact: dl_scal.
Qed.

Lemma gp_run : exists v gs C B W, nll th true true = Ok (v, Some (List.map (fun g => Rdiv (Rmult (-1) (Rmult (/ 2) (@esum NumR n W g))) (INR n)) gs)) /\ nll th true false = Ok (v, None) /\
  @grad_cov_main NumR exp name X X h fx true (JITTER_COV NumR) = Ok gs /\
  @train_cov NumR exp X h name = Ok C /\ is_inverse n C B /\ CovSpec.symmetric n C /\
  mxof n n W = (mxof n n B *m r) *m (mxof n n B *m r)^T - mxof n n B.
Proof.
have [C [L [EK [EC [SC [HL EL]]]]]] := cholesky_ok F H (cov_of_base d P ls s) HC.
have [C' [B [EI [EC' [_ [HB [YC DC]]]]]]] := inverse_ok F H (cov_of_base d P ls s) HI. have ? : C' = C by apply: Ok_inj; rewrite -EC'. subst C'.
have [gs [EG [LG [SG HG]]]] := @fam_grad name pr m d h ls s nz fx P F H Hs Hl.
have EK1 : @get_kernel_cholesky NumR exp chol X h name fx true = Ok (C, L, Some gs).
  move: EK. rewrite /get_kernel_cholesky (fits_shape F). cbn [rbind]. rewrite EC. cbn [rbind].
  case EQ: (@chol_loop NumR chol n C (jitters NumR)) => [[[c l]|]|e] //= [-> ->]. rewrite EG. by [].
have EK2 : @get_kernel_cholesky NumR exp chol X h name fx false = Ok (C, L, None) by exact: EK.
have [y [Ey [Sy Vy]]] := centred_ok HY Hp.
have [SL [TL [PL LL]]] := HL.
have n0 : lt 0 n by exact/ltP.
have [x [Ex [Sx Vx]]] := HS SL Sy n0 (PeanoNat.Nat.lt_0_succ 0) TL (fun i Hi => Rgt_not_eq _ _ (PL i Hi)).
have SE : is_mx n n (eye NumR n n) by exact: CovMx.shp_eye.
have [k [Ek [Sk Vk]]] := HS SL SE n0 n0 TL (fun i Hi => Rgt_not_eq _ _ (PL i Hi)).
have [UC EB] := inverse_unit HB.
have X1 : mxof n 1 x = mxof n n B *m r.
  suff AX : mxof n n C *m mxof n 1 x = r by rewrite -AX EB mulKmx.
  apply/matrixP=> i j. rewrite ord1 [RHS]mxE -Vy; last exact/ltP. rewrite -(Vx i 0%nat); [|exact/ltP|lia].
  rewrite mxE Rsum_big. apply: eq_bigr => q _. rewrite !mxE LL; try exact/ltP. by [].
have K1 : mxof n n k = mxof n n B.
  suff AX : mxof n n C *m mxof n n k = 1%:M by rewrite EB -[LHS](mulKmx UC) AX mulmx1.
  apply/matrixP=> i j. rewrite [RHS]mxE. have -> : (i == j)%:R = at_ (eye NumR n n) i j.
    rewrite -[at_ _ _ _]/(mget NumR (eye NumR n n) i j) /eye CovMx.mget_mgen; try exact/ltP. rewrite eqb_ord. by case: (PeanoNat.Nat.eqb i j).
  rewrite -(Vk i j); try exact/ltP. rewrite mxE Rsum_big. apply: eq_bigr => q _. rewrite !mxE LL; try exact/ltP. by [].
pose W := mgen NumR n n (fun i j => nsub NumR (nmul NumR (mget NumR x i 0) (mget NumR x j 0)) (mget NumR k i j)).
eexists. exists gs, C, B, W. split; last split; last (split; [exact EG|split; [exact EC|split; [exact HB|split; [exact YC|]]]]).
- rewrite /neg_log_ml (checks_ok F HY Hp). cbn [rbind]. rewrite ER. cbn [rbind]. rewrite Ey. cbn [rbind]. rewrite EK1. cbn [rbind].
  rewrite Ex. cbn [rbind]. rewrite Ek. cbn [rbind]. cbv beta iota zeta delta [option_map]. rewrite List.map_map. apply: f_equal. apply: f_equal2; first reflexivity.
  apply: f_equal. apply: List.map_ext => g. by rewrite poshalf_R nofnat_R.
- rewrite /neg_log_ml (checks_ok F HY Hp). cbn [rbind]. rewrite ER. cbn [rbind]. rewrite Ey. cbn [rbind]. rewrite EK2. cbn [rbind].
  rewrite Ex. cbn [rbind]. by cbv beta iota zeta delta [option_map].
- apply/matrixP=> i j. rewrite mxofE -[at_ _ _ _]/(mget NumR W i j) /W CovMx.mget_mgen; try exact/ltP.
  rewrite addmxE oppmxE mxE big_ord1 [(_)^T 0 j]mxE -X1 -K1 !mxofE. by [].
Qed.

Lemma gp_gradient : exists v g C B, nll th true true = Ok (v, Some g) /\ nll th true false = Ok (v, None) /\ List.length g = List.length th /\
  @train_cov NumR exp X h name = Ok C /\ is_inverse n C B /\
  forall q, lt q (List.length th) -> exists G, dl (value_at (fun t => nll t false false) th q) (List.nth q th 0) G /\
    List.nth q g 0 = (G + (if PeanoNat.Nat.eqb q (gp_signal fx) then
       / 100000 / s * Rsum (List.map (fun i => at_ B i i - apply_mx n B (residual Y p) i * apply_mx n B (residual Y p) i) (List.seq 0 n)) / INR n else 0))%coqR.
Proof.
have [v [gs [C [B [W [E1 [E2 [EG [EC [HB [YC EW]]]]]]]]]]] := gp_run.
have [gs' [EG' [LG [SG HG]]]] := @fam_grad name pr m d h ls s nz fx P F H Hs Hl.
have ? : gs' = gs by apply: Ok_inj; rewrite -EG'. subst gs'.
eexists v, _, C, B. split; first exact E1. split; first exact E2. split; first by rewrite List.map_length.
split; first exact EC. split; first exact HB. move=> q Hq. have [D [HD' [SD ED]]] := HG q Hq.
have [UC EB] := inverse_unit HB.
have FA := fam_at P F H Hq EC. have := gp_deriv Hq HD'. rewrite FA. cbv zeta. rewrite -EB => GD. eexists. split; first exact: GD.
rewrite (@CovMx.nth_map_in _ _ _ _ nil); last by rewrite LG.
set o : R := if _ then _ else _ in ED.
have SB : (mxof n n B)^T = mxof n n B by rewrite EB inv_sym //; apply/symmetricP.
rewrite esum_tr EW ED trB SB trmx_mul trmxK mulmxDr mulmxBl linearD linearB /= tr_outer mul_mx_scalar linearZ /= linearB /=.
have -> : \tr (mxof n n B *m r *m (mxof n n B *m r)^T) - \tr (mxof n n B)
  = (- Rsum (List.map (fun i => at_ B i i - apply_mx n B (residual Y p) i * apply_mx n B (residual Y p) i) (List.seq 0 n)))%coqR.
  rewrite Rsum_big. etransitivity; last exact: sumrN. rewrite /mxtrace. etransitivity; first (symmetry; exact: sumrB). apply: eq_bigr => i _. rewrite mxE big_ord1 [(_)^T 0 i]mxE.
  have -> : (mxof n n B *m r) i 0 = apply_mx n B (residual Y p) i.
    rewrite mxE /apply_mx Rsum_big. by apply: eq_bigr => j _; rewrite !mxE.
  rewrite mxofE. move: (apply_mx _ _ _ _) (at_ _ _ _) => a b. toR. rewrite /Rminus. change (@eq R (a * a + - b)%coqR (- (b + - (a * a)))%coqR). ring.
have Nn : INR n <> 0%coqR by apply: not_0_INR; move/ltP: Hn; lia.
rewrite /o. move: (qf _ _) (\tr _) (Rsum _) (INR n) Nn => a b c e Nn. clear - Hs Nn.
case: (PeanoNat.Nat.eqb q _).
- change (@eq R (-1 * (/ 2 * ((a - b) + 2 * / 100000 / s * - c)) / e)%coqR (/ e * (- a / 2 + b / 2) + / 100000 / s * c / e)%coqR). by field.
- change (@eq R (-1 * (/ 2 * ((a - b) + 0 * - c)) / e)%coqR (/ e * (- a / 2 + b / 2) + 0)%coqR). by field.
Qed.
End GP.
