(** Properties C128-C130: confidence bands, pure exploration, and the regret of the upper confidence bound, for functions of
    the kernel's space and fixed hyperparameters.  Exact real arithmetic. *)
From Verif Require Import Base Num UtilsSpec UtilsModel HypsModel CovModel KernelSpec CovSpec CovProps CovProofs GPModel GPSpec Contracts GPProofs2 GPProps NearReal AcqModel BOAcqModel
  RegretSpec RegretReal RegretProofs RegretRun RegretMain.
From Coq Require Import List ZArith Bool String Reals Lra Lia Arith.
Import ListNotations.
Open Scope R_scope.
Local Open Scope string_scope.
Unset Asymmetric Patterns.
Set Bullet Behavior "Strict Subproofs".

(** ** C128: the true value lies within [sqrt (B^2 + total squared error / noise)] deviations of the predicted mean; the returned
    deviation includes the jitter, which the band does not need *)
Theorem C128_band : forall name h d ls s nz K pm m inv X Xs Y mu sd S B f,
  regression name h d ls s nz K pm m -> inv_contract inv -> fits name X d -> fits name Xs d -> column (alen X) Y ->
  @predict_with_hyps NumR exp inv X Y Xs h name pm = Ok (mu, sd, S) -> in_ball K m B f ->
  forall j, (j < alen Xs)%nat ->
    jitter_cov <= at_ sd j 0 * at_ sd j 0 /\
    Rabs (f (elem_nth Xs j) - at_ mu j 0) <= sqrt (B * B + errors_sq f X Y / (nz * nz + jitter_cov)) * sqrt (at_ sd j 0 * at_ sd j 0 - jitter_cov).
Proof. intros name h d ls s nz K pm m inv X Xs Y mu sd S B f RG HI F Fs HY E HB j Hj. exact (@band_sd name h d ls s nz K pm m inv RG HI X Xs Y mu sd S B f F Fs HY E HB j Hj). Qed.
Print Assumptions C128_band.
(** exact measurements: B deviations *)
Theorem C128_exact : forall name h d ls s nz K pm m inv X Xs Y mu sd S B f,
  regression name h d ls s nz K pm m -> inv_contract inv -> fits name X d -> fits name Xs d -> column (alen X) Y ->
  @predict_with_hyps NumR exp inv X Y Xs h name pm = Ok (mu, sd, S) -> 0 <= B -> in_ball K m B f -> (forall i, (i < alen X)%nat -> out Y i = f (elem_nth X i)) ->
  forall j, (j < alen Xs)%nat -> at_ mu j 0 - B * at_ sd j 0 <= f (elem_nth Xs j) <= at_ mu j 0 + B * at_ sd j 0.
Proof. intros name h d ls s nz K pm m inv X Xs Y mu sd S B f RG HI F Fs HY E B0 HB HE j Hj. exact (@band_exact name h d ls s nz K pm m inv RG HI X Xs Y mu sd S B f F Fs HY E B0 HB HE j Hj). Qed.
Print Assumptions C128_exact.
(** the functions meant: combinations of kernel functions, added to the prior mean *)
Theorem C128_combinations : forall name h d ls s nz K pm m a B, regression name h d ls s nz K pm m -> B * B = qform K a ->
  in_ball K m B (fun e => m e + Rsum (map (fun p => fst p * K (snd p) e) a)).
Proof. intros name h d ls s nz K pm m a B RG. exact (@combination_in_ball name h d ls s nz K pm m RG a B). Qed.
Print Assumptions C128_combinations.

(** the function of the examples: a bump of height 4 at (0, 1) over the prior mean *)
Definition ex_bump (e : elem) : R := ex_m e + Rsum (map (fun p => fst p * ex_K (snd p) e) [(1, EPoint [0; 1])]).
Lemma ex_bump_ball : in_ball ex_K ex_m 2 ex_bump.
Proof.
  apply (C128_combinations _ _ _ _ _ _ _ _ _ _ 2 ex_regression). unfold qform. cbn [map Rsum fst snd]. unfold ex_K, base_kernel. cbn [point].
  unfold scaled_dist. rewrite scaled_sq_self, sqrt_0. unfold matern52_profile. rewrite !Rmult_0_r, Ropp_0, exp_0. lra.
Qed.
Example C128_example : in_ball ex_K ex_m 2 ex_bump /\ ex_bump (EPoint [0; 1]) = 4 /\
  exists mu sd S, @predict_with_hyps NumR exp some_inv ex_X ex_Y ex_Xs ex_hyps "matern52" ex_prior = Ok (mu, sd, S).
Proof.
  split; [exact ex_bump_ball|]. split; [|exact (proj2 (proj2 C30_example))].
  unfold ex_bump, ex_m. cbn [map Rsum fst snd point]. unfold ex_K, base_kernel. cbn [point]. unfold scaled_dist. rewrite scaled_sq_self, sqrt_0. unfold matern52_profile. rewrite !Rmult_0_r, Ropp_0, exp_0. lra.
Qed.

(** ** C129: evaluating, up to [delta], the most uncertain point each time: after enough rounds, the number of which depends neither on the
    function nor on the choices, the deviation is at most [sqrt (jitter + eps) + delta] everywhere, for ever *)
Theorem C129_explore : forall name h d ls s nz K pm m inv cdf pdf range eps n0,
  regression name h d ls s nz K pm m -> inv_contract inv -> profile_of name <> None -> List.length range = d -> 0 < eps -> (0 < n0)%nat ->
  exists N, forall f delta x, (forall i, (i < n0)%nat -> List.length (x i) = d) ->
    follows (acquisition_values cdf pdf inv d name h pm "pure_explore") d range (fun x => f (EPoint x)) n0 delta x ->
    forall n pts mu sd S, (N <= n)%nat -> Forall (in_box range) pts ->
      @predict_with_hyps NumR exp inv (A2 NumR (points_of d x n)) (column_of NumR (values_of (fun x => f (EPoint x)) x n)) (A2 NumR (mkmat pts d)) h name pm = Ok (mu, sd, S) ->
      forall j, (j < List.length pts)%nat -> at_ sd j 0 <= sqrt (jitter_cov + eps) + delta.
Proof. intros name h d ls s nz K pm m inv cdf pdf range eps n0 RG HI HN HR. exact (@explore name h d ls s nz K pm m inv cdf pdf RG HI HN range HR eps n0). Qed.
Print Assumptions C129_explore.

(** ** C130: evaluating, up to [delta], the point with the best upper confidence bound each time: after enough rounds, the number of which depends on
    the function through its norm only, a point has been evaluated whose value is within [eps + delta] of the minimum over the search space *)
Theorem C130_regret : forall name h d ls s nz K pm m inv cdf pdf range B eps n0,
  regression name h d ls s nz K pm m -> inv_contract inv -> profile_of name <> None -> List.length range = d -> 0 <= B -> 0 < eps -> (0 < n0)%nat ->
  exists N, forall f delta x, in_ball K m B f -> (forall i, (i < n0)%nat -> List.length (x i) = d) ->
    follows (acquisition_values cdf pdf inv d name h pm "ucb") d range (fun x => f (EPoint x)) n0 delta x ->
    exists n, (n0 <= n < N)%nat /\ forall z, in_box range z -> f (EPoint (x n)) <= f (EPoint z) + eps + delta.
Proof. intros name h d ls s nz K pm m inv cdf pdf range B eps n0 RG HI HN HR. exact (@ucb_regret name h d ls s nz K pm m inv cdf pdf RG HI HN range HR B eps n0). Qed.
Print Assumptions C130_regret.
(** the best recorded response is then that good as well *)
Theorem C130_recorded : forall name h d ls s nz K pm m inv cdf pdf range B eps n0,
  regression name h d ls s nz K pm m -> inv_contract inv -> profile_of name <> None -> List.length range = d -> 0 <= B -> 0 < eps -> (0 < n0)%nat ->
  exists N, forall f delta x, in_ball K m B f -> (forall i, (i < n0)%nat -> List.length (x i) = d) ->
    follows (acquisition_values cdf pdf inv d name h pm "ucb") d range (fun x => f (EPoint x)) n0 delta x ->
    forall n best, (N <= n)%nat -> npmin NumR (values_of (fun x => f (EPoint x)) x n) = Ok best -> forall z, in_box range z -> best <= f (EPoint z) + eps + delta.
Proof. intros name h d ls s nz K pm m inv cdf pdf range B eps n0 RG HI HN HR. exact (@ucb_recorded name h d ls s nz K pm m inv cdf pdf RG HI HN range HR B eps n0). Qed.
Print Assumptions C130_recorded.
(** such loops exist for every positive tolerance, every function and every start *)
Theorem C130_loops : forall name h d ls s nz K pm m inv cdf pdf range f str_acq delta start z0,
  regression name h d ls s nz K pm m -> inv_contract inv -> profile_of name <> None -> List.length range = d -> In str_acq ["ucb"; "pure_explore"] ->
  (exists M, forall z, in_box range z -> Rabs (m (EPoint z)) <= M) -> in_box range z0 -> 0 < delta -> start <> [] -> Forall (fun p => List.length p = d) start ->
  exists x, follows (acquisition_values cdf pdf inv d name h pm str_acq) d range (fun x => f (EPoint x)) (List.length start) delta x /\ forall i, (i < List.length start)%nat -> x i = nth i start z0.
Proof. intros name h d ls s nz K pm m inv cdf pdf range f str_acq delta start z0 RG HI HN HR. exact (@loops_exist name h d ls s nz K pm m inv cdf pdf RG HI HN range HR f str_acq delta start z0). Qed.
Print Assumptions C130_loops.

(** for the bump, the search space [0, 1] x [-2, 3], the first point (1, 0) and a tolerance of 1/100 *)
Example C130_example : exists N x,
  follows (acquisition_values exp exp some_inv 2 "matern52" ex_hyps ex_prior "ucb") 2 [(0, 1); (-2, 3)] (fun x => ex_bump (EPoint x)) 1 (/ 100) x /\ x 0%nat = [1; 0] /\
  exists n, (1 <= n < N)%nat /\ forall z, in_box [(0, 1); (-2, 3)] z -> ex_bump (EPoint (x n)) <= ex_bump (EPoint z) + / 100 + / 100.
Proof.
  destruct (C130_regret _ _ _ _ _ _ _ _ _ some_inv exp exp [(0, 1); (-2, 3)] 2 (/ 100) 1 ex_regression some_inv_ok ltac:(discriminate) eq_refl ltac:(lra) ltac:(lra) ltac:(lia)) as [N HN].
  destruct (C130_loops _ _ _ _ _ _ _ _ _ some_inv exp exp [(0, 1); (-2, 3)] ex_bump "ucb" (/ 100) [[1; 0]] [0; 0] ex_regression some_inv_ok ltac:(discriminate) eq_refl) as (x & HF & HS).
  - now left.
  - exists 3. intros z Hz. inversion Hz as [|b v r t0 Hv _ Q1 Q2]; subst. cbn [fst snd] in Hv. unfold ex_m. cbn [point]. apply Rabs_le. lra.
  - repeat constructor; cbn; lra.
  - lra.
  - discriminate.
  - repeat constructor.
  - exists N, x. split; [exact HF|]. split; [exact (HS 0%nat ltac:(cbn; lia))|]. apply (HN ex_bump (/ 100) x); [exact ex_bump_ball| |exact HF].
    intros i Hi. rewrite (HS i) by exact Hi. destruct i as [|i]; [reflexivity|lia].
Qed.
Example C129_example : exists N x,
  follows (acquisition_values exp exp some_inv 2 "matern52" ex_hyps ex_prior "pure_explore") 2 [(0, 1); (-2, 3)] (fun x => ex_bump (EPoint x)) 1 (/ 1000) x /\
  forall n z, (N <= n)%nat -> in_box [(0, 1); (-2, 3)] z -> exists mu sd S,
    @predict_with_hyps NumR exp some_inv (A2 NumR (points_of 2 x n)) (column_of NumR (values_of (fun x => ex_bump (EPoint x)) x n)) (A2 NumR (mkmat [z] 2)) ex_hyps "matern52" ex_prior = Ok (mu, sd, S) /\
    at_ sd 0 0 <= / 200.
Proof.
  destruct (C129_explore _ _ _ _ _ _ _ _ _ some_inv exp exp [(0, 1); (-2, 3)] (/ 1000000) 1 ex_regression some_inv_ok ltac:(discriminate) eq_refl ltac:(lra) ltac:(lia)) as [N HN].
  destruct (C130_loops _ _ _ _ _ _ _ _ _ some_inv exp exp [(0, 1); (-2, 3)] ex_bump "pure_explore" (/ 1000) [[1; 0]] [0; 0] ex_regression some_inv_ok ltac:(discriminate) eq_refl) as (x & HF & HS).
  - right. now left.
  - exists 3. intros z Hz. inversion Hz as [|b v r t0 Hv _ Q1 Q2]; subst. cbn [fst snd] in Hv. unfold ex_m. cbn [point]. apply Rabs_le. lra.
  - repeat constructor; cbn; lra.
  - lra.
  - discriminate.
  - repeat constructor.
  - exists N, x. split; [exact HF|]. intros n z Hn Hz.
    assert (HX : forall i, List.length (x i) = 2%nat).
    { intros i. destruct i as [|i]; [now rewrite (HS 0%nat) by (cbn; lia)|]. exact (@box_len "" 2 (POther NumR 0) 0 [(0, 1); (-2, 3)] eq_refl (x (S i)) (proj1 (HF (S i) ltac:(cbn; lia)))). }
    assert (Fs : fits "matern52" (A2 NumR (mkmat [z] 2)) 2) by (split; [|split; [discriminate|reflexivity]]; intros r [<-|[]]; exact (@box_len "" 2 (POther NumR 0) 0 [(0, 1); (-2, 3)] eq_refl z Hz)).
    destruct (predict_ok ex_regression some_inv_ok (@X_fits "matern52" 2 ltac:(discriminate) x n (fun i _ => HX i)) Fs (@Y_column 2 x n ex_bump)) as (mu & sd & S & E & _).
    exists mu, sd, S. split; [exact E|].
    assert (Q := HN ex_bump (/ 1000) x ltac:(intros i _; apply HX) HF n [z] mu sd S Hn ltac:(now constructor) E 0%nat ltac:(cbn; lia)).
    assert (SQ : sqrt (jitter_cov + / 1000000) <= / 250) by (rewrite <- (sqrt_square (/ 250)) by lra; apply sqrt_le_1_alt; unfold jitter_cov; lra). lra.
Qed.
