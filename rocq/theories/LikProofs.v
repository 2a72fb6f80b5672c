(** Values of the likelihoods: the Gaussian formula, and leave-one-out cross-validation. *)
From Verif Require Import Base Num UtilsSpec HypsModel CovModel KernelSpec CovSpec PSD CovProofs CovProofs2 RStruct MatLib GPModel GPSpec GPProofs GPMx GPProofs2 GPProofs3 LikModel LikSpec LikMx.
From Coq Require Import Reals Lra Lia.
From mathcomp Require Import all_ssreflect perm all_algebra.
Set Implicit Arguments.
Unset Strict Implicit.
Unset Printing Implicit Defensive.
Import GRing.Theory.
Delimit Scope R_scope with coqR.
Local Open Scope ring_scope.

Lemma nofnat_R n : nofnat NumR n = INR n. Proof. by rewrite /nofnat /= INR_IZR_INZ. Qed.
Lemma poshalf_R : poshalf NumR = (/ 2)%coqR. Proof. rewrite /poshalf /=. toR. field. Qed.
Lemma neghalf_R : neghalf NumR = (- / 2)%coqR. Proof. rewrite /neghalf /=. toR. field. Qed.
Lemma bilin_quad n (r : list (list R)) B (w : nat -> R) : (forall i, lt i n -> at_ r i 0 = w i) ->
  @bilin NumR n r B = quad n B w.
Proof.
move=> V. rewrite quad_qf /qf /bilin. change (at_ (mdot NumR 1 n 1 (mdot NumR 1 n n (mtr NumR n 1 r) B) r) 0 0 = ((colof n w)^T *m mxof n n B *m colof n w) 0 0).
rewrite mdot_at; try lia. rewrite /prod_at Rsum_big mxE. apply: eq_bigr => j _.
rewrite [colof _ _ j 0]mxE -V; last exact/ltP. congr (_ * _). rewrite mdot_at; [|lia|exact/ltP]. rewrite /prod_at Rsum_big mxE.
apply: eq_bigr => i _. rewrite mtr_at; [|lia|exact/ltP]. rewrite V; last exact/ltP. by rewrite !mxE.
Qed.
Lemma centred_ok n (Y p : mat NumR) : column n Y -> column n p ->
  exists r, centred NumR Y p = Ok r /\ is_mx n 1 r /\ forall i, lt i n -> at_ r i 0 = residual Y p i.
Proof.
move=> [CY SY] [Cp Sp]. rewrite /centred CY Cp /=. exists (msub NumR (mrows Y) (mrows p)). split=> //. split; first exact: msub_mx.
move=> i Hi. by rewrite (msub_at SY Sp Hi) //; lia.
Qed.
Lemma checks_ok name X d Y p : fits name X d -> column (alen X) Y -> column (alen X) p -> @checks NumR X Y p name = Ok tt.
Proof.
move=> F [_ [LY _]] [_ [Lp _]]. rewrite /checks /validate_common_args /nrows.
have -> : List.length (mrows Y) = alen X by []. have -> : List.length (mrows p) = alen X by [].
by rewrite PeanoNat.Nat.eqb_refl /= (fits_shape F).
Qed.
Lemma inverse_fx inv (X : arr NumR) h name fx fx' :
  @get_kernel_inverse NumR exp inv X h name fx false = @get_kernel_inverse NumR exp inv X h name fx' false.
Proof. by []. Qed.

Section Values.
Variables (name : string) (h : dict NumR) (d : nat) (ls : pyval NumR) (s nz : R) (K : elem -> elem -> R) (X : arr NumR).
Hypotheses (F : fits name X d) (HH : has_hyps h d ls s nz) (HK : cov_of name ls s d = Some K).
Variables (Y p : mat NumR) (HY : column (alen X) Y) (Hp : column (alen X) p).
Variables (th : list R) (ard fx : bool).
Variables (inv chol : list (list R) -> res (list (list R))) (cho_solve : list (list R) -> list (list R) -> res (list (list R)))
  (slogdet : list (list R) -> R * R).
Hypotheses (HI : inv_contract inv) (HC : chol_contract chol) (HS : cho_solve_contract cho_solve) (HD : slogdet_contract slogdet).
Notation n := (alen X).
Notation nll := (@neg_log_ml NumR exp ln PI inv chol cho_solve slogdet X Y th name p ard fx).

Lemma logdet_ok C : is_mx n n C -> 0 <R det n C -> @logdet_term NumR slogdet C = (- (ln (det n C) / 2))%coqR.
Proof.
move=> SC P. rewrite /logdet_term. have [-> // _] := HD SC. rewrite neghalf_R.
have -> : nle NumR R1 (nofZ NumR Z0) = false by rewrite /=; case: Raux.Rle_bool_spec => // Q; exfalso; lra.
change (- / 2 * ln (det n C) = - (ln (det n C) / 2))%coqR. lra.
Qed.

Lemma ml_inverse ug : @restore_hyps NumR name th true ard fx (GP_NOISE NumR) = Ok h ->
  exists C B, @train_cov NumR exp X h name = Ok C /\ is_inverse n C B /\ 0 <R det n C /\
    nll false ug = Ok (gauss_nll n C B (residual Y p), None).
Proof.
move=> ER. have [C [B [EI [EC [SC [HB [YC DC]]]]]]] := inverse_ok F HH HK HI.
have P := det_definite_pos YC DC.
exists C, B. do 3 (split=> //). rewrite /neg_log_ml (checks_ok F HY Hp) /= ER /=.
have [r [-> [Sr Vr]]] := centred_ok HY Hp. rewrite /= (inverse_fx inv X h name fx true) EI /=.
rewrite (bilin_quad B Vr) logdet_ok // -INR_IZR_INZ. congr (Ok (_, None)).
rewrite /gauss_nll. move: (quad _ _ _) (ln (det _ _)) (ln (2 * PI)) (INR n) => a b c e. toR.
rewrite /Rdiv. ring.
Qed.
Lemma mdiag_at m C : mdiag NumR m C = List.map (fun i => at_ C i i) (List.seq 0 m). Proof. by []. Qed.

Lemma ml_cholesky ug v g : (0 < n)%N -> @restore_hyps NumR name th true ard fx (GP_NOISE NumR) = Ok h -> nll true ug = Ok (v, g) ->
  exists C B L, @train_cov NumR exp X h name = Ok C /\ is_inverse n C B /\ is_cholesky n C L /\ chol C = Ok L /\
    v = (gauss_nll n C B (residual Y p)
        + Rsum (List.map (fun i => ln (at_ L i i + / 10000000) - ln (at_ L i i)) (List.seq 0 n)) / INR n)%coqR.
Proof.
move=> Hn ER. have [C [L [EK [EC [SC [HL EL]]]]]] := cholesky_ok F HH HK HC.
have [C' [B [EI [EC' [_ [HB [YC DC]]]]]]] := inverse_ok F HH HK HI. move: EC'; rewrite EC => [[?]]; subst C'.
rewrite /neg_log_ml (checks_ok F HY Hp) /= ER /=. have [r [-> [Sr Vr]]] := centred_ok HY Hp.
have EK' : forall k, @get_kernel_cholesky NumR exp chol X h name fx ug = Ok k -> exists g', k = (C, L, g').
  move=> k. move: EK. rewrite /get_kernel_cholesky (fits_shape F). cbn [rbind]. rewrite EC. cbn [rbind].
  case EQ: (@chol_loop NumR chol n C (jitters NumR)) => [[[c l]|]|e] //= E. have [-> ->] : c = C /\ l = L by move: E => [-> ->]. case: (ug) => /=; last by case=> <-; eexists.
  case: (@grad_cov_main NumR exp name X X h fx true (JITTER_COV NumR)) => //= g' [<-]. by eexists.
rewrite /=. case EG: (@get_kernel_cholesky NumR exp chol X h name fx ug) => [k|e] //=. have [g' ?] := EK' _ EG. subst k.
have [[SL [TL [PL LL]]] _] := (HL, tt).
have [x [Ex Hx]] := HS SL Sr (ssrbool.elimT ltP Hn) (PeanoNat.Nat.lt_0_succ 0) TL (fun i Hi => Rgt_not_eq _ _ (PL i Hi)).
rewrite Ex /=. have [Sx Vx] := Hx.
have AX : mxof n n C *m mxof n 1 x = colof n (residual Y p).
  apply/matrixP=> i j. rewrite ord1 [RHS]mxE -Vr; last exact/ltP. rewrite -(Vx i 0%nat); [|exact/ltP|lia].
  rewrite mxE Rsum_big. apply: eq_bigr => k _. rewrite !mxE LL; try exact/ltP. by [].
have [UC EB] := inverse_unit HB.
have X1 : mxof n 1 x = mxof n n B *m colof n (residual Y p) by rewrite -AX EB mulKmx.
have Q : mget NumR (mdot NumR 1 n 1 (mtr NumR n 1 r) x) 0 0 = quad n B (residual Y p).
  change (at_ (mdot NumR 1 n 1 (mtr NumR n 1 r) x) 0 0 = quad n B (residual Y p)).
  rewrite mdot_at; try lia. rewrite quad_qf /qf -mulmxA -X1 /prod_at Rsum_big mxE. apply: eq_bigr => i _.
  rewrite mtr_at; [|lia|exact/ltP]. rewrite Vr; last exact/ltP. by rewrite !mxE.
have W : forall g0, Ok
      (nmul NumR (nofZ NumR (-1))
         (ndiv NumR
            (nadd NumR
               (nadd NumR (nmul NumR (neghalf NumR) (mget NumR (mdot NumR 1 n 1 (mtr NumR n 1 r) x) 0 0))
                  (nmul NumR (nofZ NumR (-1))
                     (nsum NumR (List.map (fun v0 => ln (nadd NumR v0 (JITTER_LOG NumR))) (mdiag NumR n L)))))
               (nmul NumR (ndiv NumR (nopp NumR (nofnat NumR n)) (nofZ NumR 2)) (ln (nmul NumR (nofZ NumR 2) PI)))) (nofnat NumR n)), g0) = Ok (v, g) ->
   v = (gauss_nll n C B (residual Y p)
        + Rsum (List.map (fun i => ln (at_ L i i + / 10000000) - ln (at_ L i i)) (List.seq 0 n)) / INR n)%coqR.
  move=> g0 [<- _]. rewrite Q mdiag_at List.map_map -INR_IZR_INZ /gauss_nll (ln_det_chol HL).2 UtilsRProofs.nsum_R.
  have -> : Rsum (List.map (fun i => ln (at_ L i i + / 10000000) - ln (at_ L i i)) (List.seq 0 n))%coqR
    = (Rsum (List.map (fun x0 : nat => ln (at_ L x0 x0 + 1 / 10000000)) (List.seq 0 n)) - Rsum (List.map (fun i => ln (at_ L i i)) (List.seq 0 n)))%coqR.
    rewrite !Rsum_big. etransitivity; last exact: sumrB. apply: eq_bigr => i _. have -> : (1 / 10000000 = / 10000000)%coqR by field. by [].
  move: (quad _ _ _) (Rsum _) (Rsum _) (ln (2 * PI)) => a b c e. have : INR n <> 0%coqR by apply: not_0_INR; move: Hn; case: (alen X).
  move: (INR n) => q Hq. change ((-1 * ((-1 / 2 * a + -1 * c + - q / 2 * e) / q))%coqR = ((a / 2 + 2 * b / 2 + q / 2 * e) / q + (c - b) / q)%coqR :> R). by field.
case: ug EG EK' => EG EK' /=.
- case: g' EG => [gs|] EG //=. case: (cho_solve L _) => //= ki E. exists C, B, L. do 4 (split=> //). exact: W E.
- move=> E. exists C, B, L. do 4 (split=> //). exact: W E.
Qed.
End Values.

(** ** leave-one-out cross-validation *)
Lemma fold_Rsum (f : nat -> R) l (a : R) : List.fold_left (fun acc i => nadd NumR acc (f i)) l a = (a + Rsum (List.map f l))%coqR.
Proof.
elim: l a => [|x l IH] a; first by rewrite /= Rplus_0_r.
etransitivity; first exact: IH. exact: Rplus_assoc.
Qed.
Lemma nth_others n i k : lt i n -> lt k (n - 1)%coq_nat -> List.nth k (others n i) 0%N = bump i k.
Proof.
move=> Hi Hk. rewrite /others /bump. case: (leqP i k) => H.
- rewrite List.app_nth2 List.seq_length; last exact/leP. rewrite List.seq_nth; last by move/leP: H; lia. move/leP: H => H. rewrite add1n. lia.
- rewrite List.app_nth1 ?List.seq_length; last exact/ltP. rewrite List.seq_nth; last exact/ltP. by [].
Qed.
Lemma others_in n i k : List.In k (others n i) -> lt i n -> lt k n.
Proof. rewrite /others List.in_app_iff !List.in_seq. lia. Qed.
Lemma others_length n i : lt i n -> List.length (others n i) = (n - 1)%coq_nat.
Proof. rewrite /others List.app_length !List.seq_length. lia. Qed.

Lemma loo_term_R (y mu q : R) : (0 < q)%coqR -> @loo_term NumR ln PI y mu (sqrt q) = (- normal_nll mu q y)%coqR.
Proof.
move=> Hq. rewrite /loo_term /nsq /=. rewrite sqrt_sqrt; last lra. rewrite /normal_nll.
move: (ln q) (ln (2 * PI)) => a b. change (@eq R (-1 / 2 * a + -1 / 2 * ((y - mu) * (y - mu)) / q + -1 / 2 * b)%coqR (- (a / 2 + (y - mu) * (y - mu) / (2 * q) + b / 2))%coqR).
field. lra.
Qed.

Section Loo.
Variables (name : string) (h : dict NumR) (d : nat) (ls : pyval NumR) (s nz : R) (K : elem -> elem -> R) (X : arr NumR).
Hypotheses (F : fits name X d) (HH : has_hyps h d ls s nz) (HK : cov_of name ls s d = Some K).
Variables (inv : list (list R) -> res (list (list R))).
Hypotheses (HI : inv_contract inv).
Notation n := (alen X).
Notation loocv Y p th fx := (@neg_log_pseudo_l_loocv NumR exp ln PI inv X Y th name p fx).

(** mean and variance read off the inverse *)
Definition lmean (B : list (list R)) (Y : mat NumR) (i : nat) : R :=
  (out Y i - prod_at n B (mrows Y) i 0 / at_ B i i)%coqR.

Lemma K_sym' a b : K a b = K b a. Proof. exact (cov_of_sym a b HK). Qed.
Lemma K_psd' : psd K. Proof. exact (cov_of_psd HK). Qed.

Lemma loo_ok (Y : mat NumR) C B i : column n Y -> @train_cov NumR exp X h name = Ok C -> is_inverse n C B -> lt i n ->
  0 <R at_ B i i /\
  exists mu sd S, @predict_with_hyps NumR exp inv (take_rows X (others n i)) (take_out Y (others n i)) (only X i) h name None = Ok (mu, sd, S) /\
    at_ mu 0 0 = lmean B Y i /\ (at_ S 0 0 + nz * nz)%coqR = Rinv (at_ B i i).
Proof.
move=> HY EC HB Hi.
have RG : regression name h d ls s nz K None (fun=> R0) by split.
have I : forall k, List.In k (others n i) -> lt k n by move=> k H; exact: others_in H Hi.
have I1 : forall k, List.In k [:: i] -> lt k n by move=> k [<-|[]].
have F1 := fits_take I F. have F2 := fits_take I1 F.
have L1 : alen (take_rows X (others n i)) = (n - 1)%coq_nat by rewrite alen_take others_length.
have HY1 : column (alen (take_rows X (others n i))) (take_out Y (others n i)) by rewrite alen_take; exact: column_take HY.
have [mu [sd [S [E [_ [_ [_ [M [_ V]]]]]]]]] := predict_ok RG HI F1 F2 HY1.
have EB := inverse_mx F HH HK EC HB.
have T := shift_pos nz.
have [m En] : exists m, n = m.+1 by move: Hi; case: (alen X) => [|m] H; [lia|exists m].
have Hi' : (i < m.+1)%N by apply/ltP; rewrite -En.
have [N1 N2 N3] := @loo _ K K_sym' K_psd' m (elem_nth X) (shift nz) (out Y) (Ordinal Hi') T.
have Em : PeanoNat.Nat.sub n 1 = m by rewrite En; lia.
rewrite En in EB. rewrite -EB in N1 N2 N3.
have Bii : mxof m.+1 m.+1 B (Ordinal Hi') (Ordinal Hi') = at_ B i i by rewrite mxE.
rewrite Bii in N1 N2 N3.
have E0 : elem_nth (only X i) 0 = elem_nth X i by rewrite /only elem_take //=; lia.
have J : jitter_cov + Rmult nz nz = shift nz by [].
have EX : forall k : 'I_m, elem_nth (take_rows X (others n i)) k = elem_nth X (bump i k).
  move=> k. have Hk : lt k (n - 1)%coq_nat by rewrite Em; exact/ltP.
  rewrite elem_take ?others_length // nth_others //.
have EV : at_ S 0 0 + Rmult nz nz = Rinv (at_ B i i).
  rewrite V; try (rewrite /only alen_take /=; lia). rewrite /= E0 /cov_at2 L1 Em -addrA J -N3. congr (_ + _). exact: pcov_ext.
split.
- have P := cov_diag_ge0 RG (take_rows X (others n i)) (elem_nth X i).
  have Q : 0 <R Rinv (at_ B i i).
    rewrite -N3. have -> : pcov K m (fun k : nat => elem_nth X (bump (Ordinal Hi') k)) (shift nz) (elem_nth X (Ordinal Hi')) (elem_nth X (Ordinal Hi')) = cov_at2 nz K (take_rows X (others n i)) (elem_nth X i) (elem_nth X i).
      rewrite /cov_at2 L1 Em. apply: pcov_ext => k. by rewrite EX.
    move: P T; move: (cov_at2 _ _ _ _ _) (shift nz) => a b. move=> *. toR. lra.
  case: (Rlt_le_dec 0 (at_ B i i)) => // Q'. exfalso. have := Rinv_l _ N1. toRs. nra.
- exists mu, sd, S. split=> //. split=> //. rewrite M; last by rewrite /only alen_take /=; lia.
  rewrite E0 /mean_at L1 Em. etransitivity; first exact: Rplus_0_r. rewrite /lmean.
  rewrite (@pmean_ext _ K m _ (fun k => elem_nth X (bump i k)) (shift nz) _ (fun k => out Y (bump i k)) (elem_nth X i) EX).
    etransitivity; first exact: N2. congr (_ - _ * _). rewrite mxE /prod_at En Rsum_big. apply: eq_bigr => k _. by rewrite !mxE.
  move=> k. rewrite /resid. have Hk : lt k (n - 1)%coq_nat by rewrite Em; exact/ltP. rewrite out_take ?others_length // nth_others //. exact: Rminus_0_r.
Qed.

Lemma loocv_ok (Y p : mat NumR) (th : list R) fx C B : column n Y -> column n p ->
  @restore_hyps NumR name th true true fx (GP_NOISE NumR) = Ok h ->
  @train_cov NumR exp X h name = Ok C -> is_inverse n C B ->
  loocv Y p th fx = Ok (Rsum (List.map (fun i => normal_nll (lmean B Y i) (1 / (at_ B i i + / 100000)) (out Y i)) (List.seq 0 n)) / INR n)%coqR.
Proof.
move=> HY Hp ER EC HB. have [C' [B' [EI [EC' [SC [HB' _]]]]]] := inverse_ok F HH HK HI.
move: EC'; rewrite EC => [[?]]; subst C'. have ? := inverse_unique HB HB'. subst B'.
rewrite /neg_log_pseudo_l_loocv (checks_ok F HY Hp). cbn [rbind]. rewrite ER. cbn [rbind].
rewrite (inverse_fx inv X h name fx true) EI. cbn [rbind]. have [-> _] := HY. cbn [PeanoNat.Nat.eqb negb].
have -> : List.fold_left (fun acc i =>
               nadd NumR acc (@loo_term NumR ln PI (mget NumR (mrows Y) i 0) (@loo_mu NumR (mget NumR (mrows Y) i 0) (mget NumR (mdot NumR n n 1 B (mrows Y)) i 0) (mget NumR B i i)) (@loo_sigma NumR (mget NumR B i i)))) (List.seq 0 n) (nofZ NumR 0)
   = (- Rsum (List.map (fun i => normal_nll (lmean B Y i) (1 / (at_ B i i + / 100000)) (out Y i)) (List.seq 0 n)))%coqR.
  etransitivity; first exact: (fold_Rsum (fun i => @loo_term NumR ln PI (mget NumR (mrows Y) i 0) (@loo_mu NumR (mget NumR (mrows Y) i 0) (mget NumR (mdot NumR n n 1 B (mrows Y)) i 0) (mget NumR B i i)) (@loo_sigma NumR (mget NumR B i i)))).
  etransitivity; first exact: Rplus_0_l. rewrite !Rsum_big. etransitivity; last exact: sumrN. apply: eq_bigr => i _.
  have Hi : lt i n by exact/ltP. have [PB _] := loo_ok HY EC HB Hi.
  have Q : (0 < 1 / (at_ B i i + / 100000))%coqR by apply: Rdiv_lt_0_compat; lraR.
  have -> : @loo_sigma NumR (mget NumR B i i) = sqrt (1 / (at_ B i i + / 100000)).
    rewrite /loo_sigma /= -at_mget. congr sqrt. congr (_ / (_ + _))%coqR. field.
  rewrite loo_term_R //. congr (- normal_nll _ _ _). rewrite /loo_mu /= /lmean -(@mdot_at n n 1) //.
congr Ok. rewrite nofnat_R. move: (Rsum _) => a. rewrite /= /Rdiv. ringR.
Qed.
End Loo.
