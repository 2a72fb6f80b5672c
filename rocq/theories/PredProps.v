(** Properties C92-C96: best linear prediction, units of the inputs, one more observation, agreement of
    likelihood and prediction, predictions far from the data.  Exact real arithmetic. *)
From Verif Require Import Base Num UtilsSpec HypsModel CovModel KernelSpec CovSpec CovProps GPModel GPSpec Contracts GPProps
  LikModel LikSpec LikProofs2 LikProps GradSpec GammaWitness PredSpec PredProofs PredLik PredUnits PredInv PredSeq.
From Coq Require Import List ZArith Bool String Reals Lra Lia Arith Permutation.
Import ListNotations.
Open Scope R_scope.
Local Open Scope string_scope.
Unset Asymmetric Patterns.
Set Bullet Behavior "Strict Subproofs".

(** ** C92: there are weights, which do not depend on the outputs, such that the prediction is the linear predictor with
    these weights and the variance is its mean squared error; every other choice of weights has a larger error *)
Theorem C92_best_linear : forall name h d ls s nz K pm m inv X Xs j,
  regression name h d ls s nz K pm m -> inv_contract inv -> fits name X d -> fits name Xs d -> (j < alen Xs)%nat ->
  let z := elem_nth Xs j in let err := squared_error K (nz * nz + jitter_cov) (alen X) (elem_nth X) in
  exists w,
    (forall Y mu sd S, column (alen X) Y -> @predict_with_hyps NumR exp inv X Y Xs h name pm = Ok (mu, sd, S) ->
       at_ mu j 0 = linear_value m (alen X) (elem_nth X) (out Y) w z /\ at_ S j j = err w z + jitter_cov) /\
    (forall u, err w z <= err u z) /\
    (forall u, err u z = err w z -> forall i, (i < alen X)%nat -> u i = w i).
Proof. intros name h d ls s nz K pm m inv X Xs j RG HI. exact (@best_linear name h d ls s nz K pm m inv RG HI X Xs j). Qed.
Print Assumptions C92_best_linear.
(** ignoring the data is one of the linear predictors, with the prior variance as error *)
Example C92_example : squared_error ex_K (1 / 10 * (1 / 10) + jitter_cov) 3 (elem_nth ex_X) (fun _ => 0) (elem_nth ex_Xs 1) = 4 /\
  linear_value ex_m 3 (elem_nth ex_X) (out ex_Y) (fun i => if Nat.eqb i 1 then 1 else 0) (elem_nth ex_Xs 1) = 19 /\
  exists mu sd S, @predict_with_hyps NumR exp some_inv ex_X ex_Y ex_Xs ex_hyps "matern52" ex_prior = Ok (mu, sd, S).
Proof.
  split; [|split].
  - assert (SC : ex_K (elem_nth ex_Xs 1) (elem_nth ex_Xs 1) = 2 * 2)
      by exact (@self_cov "matern52" matern52_profile (PArr NumR [1; 3]) 2 2 ex_K _ 1%nat eq_refl eq_refl).
    unfold squared_error. cbn [seq map Rsum]. rewrite SC. ring.
  - unfold linear_value, out, at_, ex_m, elem_nth. cbn. lra.
  - exact (proj2 (proj2 C30_example)).
Qed.

(** ** C93: any rearrangement, positive or negative rescaling and translation of the coordinates, with the lengthscales
    rescaled accordingly, leaves the predictions and the likelihood unchanged *)
Theorem C93_predictions : forall name h h' d ls ls' s nz K K' pm pm' m m' inv p sc tr X Y Xs,
  regression name h d ls s nz K pm m -> regression name h' d ls' s nz K' pm' m' -> inv_contract inv ->
  Permutation p (seq 0 d) -> (forall i, (i < d)%nat -> sc i <> 0) -> recoord_ls d p sc ls ls' -> ls_nonzero ls d ->
  fits name X d -> fits name Xs d -> column (alen X) Y ->
  (forall e, In e (elems X ++ elems Xs)%list -> m' (recoord_elem d p sc tr e) = m e) ->
  @predict_with_hyps NumR exp inv (recoord_arr d p sc tr X) Y (recoord_arr d p sc tr Xs) h' name pm'
  = @predict_with_hyps NumR exp inv X Y Xs h name pm.
Proof.
  intros name h h' d ls ls' s nz K K' pm pm' m m' inv p sc tr X Y Xs RG RG' HI HP HS HL HN.
  exact (@predict_recoord name h h' d ls ls' s nz K K' pm pm' m m' inv RG RG' HI p sc tr HP HS HL HN X Y Xs).
Qed.
Print Assumptions C93_predictions.
Theorem C93_likelihood : forall name h h' d ls ls' s nz K K' pm pm' m m' inv p sc tr X Y q th th' ard ard' fx fx' chol cho_solve slogdet ug ug',
  regression name h d ls s nz K pm m -> regression name h' d ls' s nz K' pm' m' -> inv_contract inv -> slogdet_contract slogdet ->
  Permutation p (seq 0 d) -> (forall i, (i < d)%nat -> sc i <> 0) -> recoord_ls d p sc ls ls' -> ls_nonzero ls d ->
  fits name X d -> column (alen X) Y -> column (alen X) q ->
  @restore_hyps NumR name th true ard fx (GP_NOISE NumR) = Ok h ->
  @restore_hyps NumR name th' true ard' fx' (GP_NOISE NumR) = Ok h' ->
  @neg_log_ml NumR exp ln PI inv chol cho_solve slogdet (recoord_arr d p sc tr X) Y th' name q ard' fx' false ug'
  = @neg_log_ml NumR exp ln PI inv chol cho_solve slogdet X Y th name q ard fx false ug.
Proof.
  intros name h h' d ls ls' s nz K K' pm pm' m m' inv p sc tr X Y q th th' ard ard' fx fx' chol cho_solve slogdet ug ug' RG RG' HI HD HP HS HL HN F HY Hq.
  exact (@ml_recoord name h h' d ls ls' s nz K K' pm pm' m m' inv RG RG' HI p sc tr HP HS HL HN X Y q th th' ard ard' fx fx' chol cho_solve slogdet ug ug' F HY Hq HD).
Qed.
Print Assumptions C93_likelihood.
(** the coordinates swapped, the new first one in thousands and the new second one reversed and shifted *)
Definition ex_sc (i : nat) : R := match i with O => / 1000 | _ => -1 end.
Definition ex_tr (i : nat) : R := match i with O => 0 | _ => 7 end.
Definition ex_hyps_sc : dict NumR := [("signal", PFloat NumR 2); ("noise", PFloat NumR (1 / 10)); ("lengthscales", PArr NumR [3 / 1000; 1])].
Example C93_example : Permutation [1; 0]%nat (seq 0 2) /\ (forall i, (i < 2)%nat -> ex_sc i <> 0) /\
  recoord_ls 2 [1; 0]%nat ex_sc (PArr NumR [1; 3]) (PArr NumR [3 / 1000; 1]) /\ ls_nonzero (PArr NumR [1; 3]) 2 /\
  regression "matern52" ex_hyps_sc 2 (PArr NumR [3 / 1000; 1]) 2 (1 / 10)
    (fun e e' => base_kernel matern52_profile (PArr NumR [3 / 1000; 1]) 2 2 (point e) (point e')) None (fun _ => 0) /\
  recoord 2 [1; 0]%nat ex_sc ex_tr [2; 5] = [/ 1000 * 5 + 0; -1 * 2 + 7].
Proof.
  split; [apply perm_swap|]. split; [intros [|[|i]] Hi; cbn; try lra; lia|].
  split; [intros [|[|i]] Hi; cbn; [f_equal; lra|rewrite (Rabs_left (-1 * 1)), Rabs_right by lra; lra|lia]|].
  split; [intros [|[|i]] Hi; cbn; try lra; lia|]. split; [|reflexivity].
  split; [repeat split|reflexivity|]. intros e. reflexivity.
Qed.

(** ** C94: one more observation at a point where a prediction has been made *)
Theorem C94_one_more : forall name h d ls s nz K pm m inv X X' Xs Y Y' k mu sd S mu' sd' S',
  regression name h d ls s nz K pm m -> inv_contract inv -> fits name X d -> fits name X' d -> fits name Xs d ->
  column (alen X) Y -> column (alen X') Y' -> (k < alen Xs)%nat -> elems X' = (elems X ++ [elem_nth Xs k])%list ->
  (forall i, (i < alen X)%nat -> out Y' i = out Y i) ->
  @predict_with_hyps NumR exp inv X Y Xs h name pm = Ok (mu, sd, S) ->
  @predict_with_hyps NumR exp inv X' Y' Xs h name pm = Ok (mu', sd', S') ->
  let v := at_ S k k + nz * nz in let c j := at_ S j k - (if Nat.eqb j k then jitter_cov else 0) in
  0 < v /\ (forall j, (j < alen Xs)%nat -> at_ mu' j 0 = at_ mu j 0 + c j / v * (out Y' (alen X) - at_ mu k 0)) /\
  (forall j l, (j < alen Xs)%nat -> (l < alen Xs)%nat -> at_ S' j l = at_ S j l - c j * c l / v).
Proof.
  intros name h d ls s nz K pm m inv X X' Xs Y Y' k mu sd S mu' sd' S' RG HI.
  exact (@one_more name h d ls s nz K pm m inv RG HI X X' Xs Y Y' k mu sd S mu' sd' S').
Qed.
Print Assumptions C94_one_more.
(** an observation equal to its prediction changes no prediction, but reduces the variance at that point *)
Theorem C94_as_predicted : forall name h d ls s nz K pm m inv X X' Xs Y Y' k mu sd S mu' sd' S',
  regression name h d ls s nz K pm m -> inv_contract inv -> fits name X d -> fits name X' d -> fits name Xs d ->
  column (alen X) Y -> column (alen X') Y' -> (k < alen Xs)%nat -> elems X' = (elems X ++ [elem_nth Xs k])%list ->
  (forall i, (i < alen X)%nat -> out Y' i = out Y i) ->
  @predict_with_hyps NumR exp inv X Y Xs h name pm = Ok (mu, sd, S) ->
  @predict_with_hyps NumR exp inv X' Y' Xs h name pm = Ok (mu', sd', S') ->
  out Y' (alen X) = at_ mu k 0 ->
  (forall j, (j < alen Xs)%nat -> at_ mu' j 0 = at_ mu j 0) /\
  (jitter_cov < at_ S k k -> at_ S' k k < at_ S k k).
Proof.
  intros name h d ls s nz K pm m inv X X' Xs Y Y' k mu sd S mu' sd' S' RG HI F F' Fs H H' Hk EX EY E E' EP.
  destruct (C94_one_more _ _ _ _ _ _ _ _ _ _ _ _ _ _ _ _ _ _ _ _ _ _ RG HI F F' Fs H H' Hk EX EY E E') as (V & M & C). split.
  - intros j Hj. rewrite (M j Hj), EP. ring.
  - intros J. rewrite (C k k Hk Hk), Nat.eqb_refl. set (a := at_ S k k) in *. set (v := a + nz * nz) in *.
    assert (0 < (a - jitter_cov) * (a - jitter_cov) / v) by (apply Rdiv_lt_0_compat; [apply Rmult_lt_0_compat; lra|exact V]). lra.
Qed.
Print Assumptions C94_as_predicted.
Definition ex_X2 : arr NumR := take_rows ex_X [0; 1]%nat.
Definition ex_Y2 : mat NumR := take_out ex_Y [0; 1]%nat.
Example C94_example : elems ex_X = (elems ex_X2 ++ [elem_nth ex_Xs 0])%list /\ fits "matern52" ex_X2 2 /\ alen ex_X2 = 2%nat /\
  column (alen ex_X2) ex_Y2 /\ (forall i, (i < 2)%nat -> out ex_Y i = out ex_Y2 i) /\ out ex_Y 2 = 2.
Proof.
  split; [reflexivity|]. split; [apply GPProofs.fits_take; [intros k [<-|[<-|[]]]; cbn; lia|apply ex_fits]|]. split; [reflexivity|].
  split; [split; [reflexivity|split; [reflexivity|intros r [<-|[<-|[]]]; reflexivity]]|].
  split; [|reflexivity]. intros [|[|i]] Hi; [reflexivity|reflexivity|lia].
Qed.

(** ** C95: the likelihood of one more observation is the density of the predicted distribution *)
Theorem C95_normal : forall name h d ls s nz K pm m inv X X' Xs Y Y' p p' k th ard fx chol cho_solve slogdet ug ug' mu sd S v1 g1 v2 g2,
  regression name h d ls s nz K pm m -> inv_contract inv -> slogdet_contract slogdet -> (0 < alen X)%nat ->
  fits name X d -> fits name X' d -> fits name Xs d ->
  column (alen X) Y -> column (alen X') Y' -> (k < alen Xs)%nat -> elems X' = (elems X ++ [elem_nth Xs k])%list ->
  (forall i, (i < alen X)%nat -> out Y' i = out Y i) ->
  @get_prior_mu NumR pm X = Ok p -> @get_prior_mu NumR pm X' = Ok p' ->
  @restore_hyps NumR name th true ard fx (GP_NOISE NumR) = Ok h ->
  @predict_with_hyps NumR exp inv X Y Xs h name pm = Ok (mu, sd, S) ->
  @neg_log_ml NumR exp ln PI inv chol cho_solve slogdet X Y th name p ard fx false ug = Ok (v1, g1) ->
  @neg_log_ml NumR exp ln PI inv chol cho_solve slogdet X' Y' th name p' ard fx false ug' = Ok (v2, g2) ->
  INR (alen X') * v2 = INR (alen X) * v1 + normal_nll (at_ mu k 0) (at_ S k k + nz * nz) (out Y' (alen X)).
Proof.
  intros name h d ls s nz K pm m inv X X' Xs Y Y' p p' k th ard fx chol cho_solve slogdet ug ug' mu sd S v1 g1 v2 g2 RG HI HD Hn F F' Fs H H' Hk EX EY Ep Ep'.
  exact (@gauss_chain name h d ls s nz K pm m inv RG HI X X' Xs Y Y' p p' k F F' Fs H H' Hk EX EY Ep Ep' th ard fx chol cho_solve slogdet ug ug' mu sd S v1 g1 v2 g2 HD (ssrbool.introT ssrnat.ltP Hn)).
Qed.
Print Assumptions C95_normal.
Theorem C95_student : forall name h d ls s nz K pm m inv X X' Xs Y Y' p p' k th ard fx slogdet gamma digamma nu mu sd S r v1 g1 v2 g2,
  regression name h d ls s nz K pm m -> inv_contract inv -> slogdet_contract slogdet -> (forall x, 0 < x -> 0 < gamma x) -> (0 < alen X)%nat ->
  fits name X d -> fits name X' d -> fits name Xs d ->
  column (alen X) Y -> column (alen X') Y' -> (k < alen Xs)%nat -> elems X' = (elems X ++ [elem_nth Xs k])%list ->
  (forall i, (i < alen X)%nat -> out Y' i = out Y i) ->
  @get_prior_mu NumR pm X = Ok p -> @get_prior_mu NumR pm X' = Ok p' ->
  2 < nu -> dget h "dof" = Some (PFloat NumR nu) -> @restore_hyps NumR name th false ard fx (GP_NOISE NumR) = Ok h ->
  @tp_predict_with_hyps NumR exp inv X Y Xs h name pm = Ok (r, mu, sd, S) ->
  @tp_neg_log_ml NumR exp ln PI inv slogdet gamma digamma X Y th name p ard fx false = Ok (v1, g1) ->
  @tp_neg_log_ml NumR exp ln PI inv slogdet gamma digamma X' Y' th name p' ard fx false = Ok (v2, g2) ->
  exists C B, @get_kernel_inverse NumR exp inv X h name true false = Ok (C, B, None) /\
  let f := t_factor nu (beta_of m X Y B) (alen X) in
  INR (alen X') * v2 = INR (alen X) * v1 + student_nll1 gamma (at_ mu k 0) (at_ S k k + f * (nz * nz)) r (out Y' (alen X)).
Proof.
  intros name h d ls s nz K pm m inv X X' Xs Y Y' p p' k th ard fx slogdet gamma digamma nu mu sd S r v1 g1 v2 g2 RG HI HD HG Hn F F' Fs H H' Hk EX EY Ep Ep' N2 ND.
  exact (@student_chain name h d ls s nz K pm m inv RG HI X X' Xs Y Y' p p' k F F' Fs H H' Hk EX EY Ep Ep' th ard fx slogdet gamma digamma nu mu sd S r v1 g1 v2 g2 HD (ssrbool.introT ssrnat.ltP Hn) HG N2 ND).
Qed.
Print Assumptions C95_student.
(** hence the likelihood of a data set is built up from the predictions of each observation from the earlier ones *)
Theorem C95_sequential : forall name h d ls s nz K pm m inv X Y th ard fx chol cho_solve slogdet ug (p : nat -> mat NumR) (v : nat -> R) g mu sd S,
  regression name h d ls s nz K pm m -> inv_contract inv -> slogdet_contract slogdet -> fits name X d -> column (alen X) Y ->
  @restore_hyps NumR name th true ard fx (GP_NOISE NumR) = Ok h ->
  (forall k, (1 <= k <= alen X)%nat -> @get_prior_mu NumR pm (take_rows X (seq 0 k)) = Ok (p k)) ->
  (forall k, (1 <= k <= alen X)%nat ->
     @neg_log_ml NumR exp ln PI inv chol cho_solve slogdet (take_rows X (seq 0 k)) (take_out Y (seq 0 k)) th name (p k) ard fx false ug = Ok (v k, g k)) ->
  (forall k, (1 <= k < alen X)%nat ->
     @predict_with_hyps NumR exp inv (take_rows X (seq 0 k)) (take_out Y (seq 0 k)) (take_rows X [k]) h name pm = Ok (mu k, sd k, S k)) ->
  forall k, (1 <= k <= alen X)%nat ->
  INR k * v k = v 1%nat + Rsum (map (fun i => normal_nll (at_ (mu i) 0 0) (at_ (S i) 0 0 + nz * nz) (out Y i)) (seq 1 (k - 1))).
Proof.
  intros name h d ls s nz K pm m inv X Y th ard fx chol cho_solve slogdet ug p v g mu sd S RG HI HD F HY.
  exact (@prequential name h d ls s nz K pm m inv RG HI X Y F HY th ard fx chol cho_solve slogdet ug p v g mu sd S HD).
Qed.
Print Assumptions C95_sequential.
(** both likelihoods and the predictions exist for the data of C94's example *)
Example C95_example : exists h p p' mu sd S v1 v2,
  @restore_hyps NumR "matern52" ex_th true true false (GP_NOISE NumR) = Ok h /\
  regression "matern52" h 2 (PArr NumR [1; 3]) 2 (1 / 10) ex_K ex_prior ex_m /\
  @get_prior_mu NumR ex_prior ex_X2 = Ok p /\ @get_prior_mu NumR ex_prior ex_X = Ok p' /\
  @predict_with_hyps NumR exp some_inv ex_X2 ex_Y2 ex_Xs h "matern52" ex_prior = Ok (mu, sd, S) /\
  @neg_log_ml NumR exp ln PI some_inv some_chol some_cho_solve some_slogdet ex_X2 ex_Y2 ex_th "matern52" p true false false false = Ok (v1, None) /\
  @neg_log_ml NumR exp ln PI some_inv some_chol some_cho_solve some_slogdet ex_X ex_Y ex_th "matern52" p' true false false false = Ok (v2, None) /\
  INR 3 * v2 = INR 2 * v1 + normal_nll (at_ mu 0 0) (at_ S 0 0 + 1 / 10 * (1 / 10)) 2.
Proof.
  destruct C94_example as (EX & F2 & L2 & H2 & EY & O2).
  destruct (GPProofs.prior_ok ex_X2 ex_prior_ok) as (p & Ep & Hp & _). destruct (GPProofs.prior_ok ex_X ex_prior_ok) as (p' & Ep' & Hp' & _).
  assert (ER : exists h, @restore_hyps NumR "matern52" ex_th true true false (GP_NOISE NumR) = Ok h /\ has_hyps h 2 (PArr NumR [1; 3]) 2 (1 / 10))
    by (eexists; split; [reflexivity|repeat split]).
  destruct ER as (h & ER & HH).
  assert (RG : regression "matern52" h 2 (PArr NumR [1; 3]) 2 (1 / 10) ex_K ex_prior ex_m) by (split; [exact HH|reflexivity|apply ex_prior_ok]).
  destruct (C29_posterior _ _ _ _ _ _ _ _ _ _ _ _ _ RG some_inv_ok F2 ex_fits_s H2) as (mu & sd & S & E & _).
  destruct (C36_inverse _ _ _ _ _ _ _ _ _ _ ex_th true false _ some_chol some_cho_solve _ false F2 HH eq_refl H2 Hp some_inv_ok some_slogdet_ok ER) as (C & B & _ & _ & _ & V1).
  destruct (C36_inverse _ _ _ _ _ _ _ _ _ _ ex_th true false _ some_chol some_cho_solve _ false ex_fits HH eq_refl ex_column Hp' some_inv_ok some_slogdet_ok ER) as (C' & B' & _ & _ & _ & V2).
  exists h, p, p', mu, sd, S. eexists. eexists.
  split; [exact ER|]. split; [exact RG|]. split; [exact Ep|]. split; [exact Ep'|]. split; [exact E|]. split; [exact V1|]. split; [exact V2|].
  refine (C95_normal _ _ _ _ _ _ _ _ _ _ _ _ _ _ _ _ _ 0 _ _ _ _ _ _ _ _ _ _ _ _ _ _ _ RG some_inv_ok some_slogdet_ok _ F2 ex_fits ex_fits_s H2 ex_column _ EX _ Ep Ep' ER E V1 V2).
  - cbn. lia.
  - cbn. lia.
  - intros i Hi. apply EY. exact Hi.
Qed.

(** ** C96: far from all observations the prediction is the prior mean with the prior variance *)
Theorem C96_far : forall name h d ls s nz K pm m inv X Y eps,
  regression name h d ls s nz K pm m -> inv_contract inv -> fits name X d -> column (alen X) Y -> 0 < eps ->
  exists D, forall Xs mu sd S j, fits name Xs d -> (j < alen Xs)%nat ->
    @predict_with_hyps NumR exp inv X Y Xs h name pm = Ok (mu, sd, S) ->
    (forall i, (i < alen X)%nat -> far ls d D (elem_nth X i) (elem_nth Xs j)) ->
    Rabs (at_ mu j 0 - m (elem_nth Xs j)) < eps /\ Rabs (at_ S j j - (K (elem_nth Xs j) (elem_nth Xs j) + jitter_cov)) < eps.
Proof. intros name h d ls s nz K pm m inv X Y eps RG HI. exact (@far_prior name h d ls s nz K pm m inv RG HI X Y eps). Qed.
Print Assumptions C96_far.
(** for points the prior variance is the square of the signal *)
Theorem C96_points : forall name pr h d ls s nz K pm m inv X Y eps,
  profile_of name = Some pr -> regression name h d ls s nz K pm m -> inv_contract inv -> fits name X d -> column (alen X) Y -> 0 < eps ->
  exists D, forall x mu sd S j, fits name (A2 NumR x) d -> (j < nrows x)%nat ->
    @predict_with_hyps NumR exp inv X Y (A2 NumR x) h name pm = Ok (mu, sd, S) ->
    (forall i, (i < alen X)%nat -> far ls d D (elem_nth X i) (elem_nth (A2 NumR x) j)) ->
    Rabs (at_ mu j 0 - m (elem_nth (A2 NumR x) j)) < eps /\ Rabs (at_ S j j - (s * s + jitter_cov)) < eps.
Proof.
  intros name pr h d ls s nz K pm m inv X Y eps P RG HI F HY He.
  destruct (C96_far _ _ _ _ _ _ _ _ _ _ _ _ _ RG HI F HY He) as [D HD]. exists D. intros x mu sd S j Fx Hj E HF.
  destruct (HD _ _ _ _ _ Fx Hj E HF) as [A B]. split; [exact A|].
  rewrite (@self_cov name pr ls s d K x j P (reg_cov RG)) in B. exact B.
Qed.
Print Assumptions C96_points.
(** at every distance there are points for the data of the example *)
Example C96_example : forall D, exists x, fits "matern52" (A2 NumR x) 2 /\ nrows x = 1%nat /\
  forall i, (i < 3)%nat -> far (PArr NumR [1; 3]) 2 D (elem_nth ex_X i) (elem_nth (A2 NumR x) 0).
Proof.
  intros D. exists (mkmat ([[Rabs D + 3; 1]] : list (list NumR)) 2). pose proof (Rle_abs D) as AD. pose proof (Rabs_pos D) as PD.
  split; [split; [intros r [<-|[]]; reflexivity|split; [discriminate|reflexivity]]|]. split; [reflexivity|].
  assert (G : forall a b, 0 <= a <= 2 -> D < scaled_dist (ls_at (PArr NumR [1; 3])) 2 [a; b] [Rabs D + 3; 1]).
  { intros a b [A1 A2]. unfold scaled_dist, scaled_sq. cbn [seq map Rsum nth ls_at].
    apply Rle_lt_trans with (sqrt (D * D)); [rewrite sqrt_Rsqr_abs || (change (D * D) with (Rsqr D); rewrite sqrt_Rsqr_abs); exact AD|].
    apply sqrt_lt_1_alt. split; [apply Rle_0_sqr|].
    replace (D * D) with (Rabs D * Rabs D) by (rewrite <- Rabs_mult; apply Rabs_pos_eq, Rle_0_sqr).
    pose proof (Rle_0_sqr ((b - 1) / 3)) as Q. unfold Rsqr in Q.
    replace ((a - (Rabs D + 3)) / 1) with (a - (Rabs D + 3)) by field. nra. }
  intros i Hi x y Hx Hy. destruct i as [|[|[|i]]]; [| | |lia];
    destruct Hx as [<-|[]]; destruct Hy as [<-|[]]; apply G; lra.
Qed.
