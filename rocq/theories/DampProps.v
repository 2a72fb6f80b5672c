(** Property C132: measurement errors are damped; and the consequence of C128 and C129 for predictions after pure exploration.
    Exact real arithmetic. *)
From Verif Require Import Base Num UtilsSpec UtilsModel HypsModel CovModel KernelSpec CovSpec CovProps CovProofs GPModel GPSpec Contracts GPProofs2 GPProps AcqModel BOAcqModel
  RegretSpec RegretProofs RegretRun RegretMain RegretProps DampSpec DampProofs.
From Coq Require Import List ZArith Bool String Reals Lra Lia Arith.
Import ListNotations.
Open Scope R_scope.
Local Open Scope string_scope.
Unset Asymmetric Patterns.
Set Bullet Behavior "Strict Subproofs".

(** ** C132: changing the responses by a vector of length [r] changes every predicted mean by at most [s / (2 sqrt (noise^2 + jitter)) * r],
    however many points have been measured and wherever they lie, and no predicted deviation *)
Theorem C132_damped : forall name h d ls s nz K pm m inv X Xs Y Y' mu sd S mu' sd' S',
  regression name h d ls s nz K pm m -> inv_contract inv -> 0 < s -> fits name X d -> fits name Xs d -> column (alen X) Y -> column (alen X) Y' ->
  @predict_with_hyps NumR exp inv X Y Xs h name pm = Ok (mu, sd, S) -> @predict_with_hyps NumR exp inv X Y' Xs h name pm = Ok (mu', sd', S') ->
  forall j, (j < alen Xs)%nat -> Rabs (at_ mu j 0 - at_ mu' j 0) <= s / (2 * sqrt (nz * nz + jitter_cov)) * response_change (alen X) Y Y' /\ at_ sd' j 0 = at_ sd j 0.
Proof. intros name h d ls s nz K pm m inv X Xs Y Y' mu sd S mu' sd' S' RG HI. exact (@mean_change_s name h d ls s nz K pm m inv RG HI X Xs Y Y' mu sd S mu' sd' S'). Qed.
Print Assumptions C132_damped.
(** the factor cannot be improved *)
Theorem C132_sharp : forall name h d ls s nz K pm m inv X Xs Y Y' mu sd S mu' sd' S',
  regression name h d ls s nz K pm m -> inv_contract inv -> 0 < s -> s * s = nz * nz + jitter_cov -> alen X = 1%nat -> fits name X d -> fits name Xs d ->
  (0 < alen Xs)%nat -> elem_nth Xs 0 = elem_nth X 0 -> K (elem_nth X 0) (elem_nth X 0) = s * s -> column (alen X) Y -> column (alen X) Y' ->
  @predict_with_hyps NumR exp inv X Y Xs h name pm = Ok (mu, sd, S) -> @predict_with_hyps NumR exp inv X Y' Xs h name pm = Ok (mu', sd', S') ->
  Rabs (at_ mu 0 0 - at_ mu' 0 0) = s / (2 * sqrt (nz * nz + jitter_cov)) * response_change (alen X) Y Y'.
Proof. intros name h d ls s nz K pm m inv X Xs Y Y' mu sd S mu' sd' S' RG HI. exact (@mean_change_sharp name h d ls s nz K pm m inv RG HI X Xs Y Y' mu sd S mu' sd' S'). Qed.
Print Assumptions C132_sharp.

Definition ex_Y' : mat NumR := mkmat ([[1]; [8]; [-1]] : list (list NumR)) 1.
Lemma ex_column' : column (alen ex_X) ex_Y'.
Proof. split; [reflexivity|]. split; [reflexivity|]. intros r [<-|[<-|[<-|[]]]]; reflexivity. Qed.
(** responses that differ by 4 and 3: the means change by at most 5 times the factor *)
Example C132_example : exists mu sd S mu' sd' S',
  @predict_with_hyps NumR exp some_inv ex_X ex_Y ex_Xs ex_hyps "matern52" ex_prior = Ok (mu, sd, S) /\
  @predict_with_hyps NumR exp some_inv ex_X ex_Y' ex_Xs ex_hyps "matern52" ex_prior = Ok (mu', sd', S') /\
  response_change (alen ex_X) ex_Y ex_Y' = 5 /\ Rabs (at_ mu 1 0 - at_ mu' 1 0) <= 2 / (2 * sqrt (1 / 10 * (1 / 10) + jitter_cov)) * 5.
Proof.
  destruct (predict_ok ex_regression some_inv_ok ex_fits ex_fits_s ex_column) as (mu & sd & S & E & _).
  destruct (predict_ok ex_regression some_inv_ok ex_fits ex_fits_s ex_column') as (mu' & sd' & S' & E' & _).
  assert (C : response_change (alen ex_X) ex_Y ex_Y' = 5).
  { unfold response_change, out, at_. cbn. rewrite <- (sqrt_square 5) by lra. f_equal. lra. }
  exists mu, sd, S, mu', sd', S'. repeat (split; [assumption|]). rewrite <- C.
  exact (proj1 (C132_damped _ _ _ _ _ _ _ _ _ _ _ _ _ _ _ _ _ _ _ _ ex_regression some_inv_ok ltac:(lra) ex_fits ex_fits_s ex_column ex_column' E E' 1%nat ltac:(cbn; lia))).
Qed.

(** ** C129, continued: predictions for functions of the kernel's space are then accurate everywhere *)
Theorem C129_error : forall name h d ls s nz K pm m inv cdf pdf range eps n0,
  regression name h d ls s nz K pm m -> inv_contract inv -> profile_of name <> None -> List.length range = d -> 0 < eps -> (0 < n0)%nat ->
  exists N, forall f delta x B, 0 <= B -> in_ball K m B f -> (forall i, (i < n0)%nat -> List.length (x i) = d) ->
    follows (acquisition_values cdf pdf inv d name h pm "pure_explore") d range (fun x => f (EPoint x)) n0 delta x ->
    forall n pts mu sd S, (N <= n)%nat -> Forall (in_box range) pts ->
      @predict_with_hyps NumR exp inv (A2 NumR (points_of d x n)) (column_of NumR (values_of (fun x => f (EPoint x)) x n)) (A2 NumR (mkmat pts d)) h name pm = Ok (mu, sd, S) ->
      let err := B * sqrt ((sqrt (jitter_cov + eps) + delta) * (sqrt (jitter_cov + eps) + delta) - jitter_cov) in
      (forall j, (j < List.length pts)%nat -> Rabs (f (EPoint (nth j pts [])) - at_ mu j 0) <= err) /\
      forall j, (j < List.length pts)%nat -> (forall i, (i < List.length pts)%nat -> at_ mu j 0 <= at_ mu i 0) ->
        forall i, (i < List.length pts)%nat -> f (EPoint (nth j pts [])) <= f (EPoint (nth i pts [])) + 2 * err.
Proof. intros name h d ls s nz K pm m inv cdf pdf range eps n0 RG HI HN HR. exact (@explore_error name h d ls s nz K pm m inv cdf pdf RG HI HN range HR eps n0). Qed.
Print Assumptions C129_error.
(** for the bump and a tolerance of 1/1000: within 1/50 *)
Example C129_error_example : exists N x,
  follows (acquisition_values exp exp some_inv 2 "matern52" ex_hyps ex_prior "pure_explore") 2 [(0, 1); (-2, 3)] (fun x => ex_bump (EPoint x)) 1 (/ 1000) x /\
  forall n z mu sd S, (N <= n)%nat -> in_box [(0, 1); (-2, 3)] z ->
    @predict_with_hyps NumR exp some_inv (A2 NumR (points_of 2 x n)) (column_of NumR (values_of (fun x => ex_bump (EPoint x)) x n)) (A2 NumR (mkmat [z] 2)) ex_hyps "matern52" ex_prior = Ok (mu, sd, S) ->
    Rabs (ex_bump (EPoint z) - at_ mu 0 0) <= / 50.
Proof.
  destruct (C129_error _ _ _ _ _ _ _ _ _ some_inv exp exp [(0, 1); (-2, 3)] (/ 1000000) 1 ex_regression some_inv_ok ltac:(discriminate) eq_refl ltac:(lra) ltac:(lia)) as [N HN].
  destruct (C130_loops _ _ _ _ _ _ _ _ _ some_inv exp exp [(0, 1); (-2, 3)] ex_bump "pure_explore" (/ 1000) [[1; 0]] [0; 0] ex_regression some_inv_ok ltac:(discriminate) eq_refl) as (x & HF & HS).
  - right. now left.
  - exists 3. intros z Hz. inversion Hz as [|b v r t0 Hv _ Q1 Q2]; subst. cbn [fst snd] in Hv. unfold ex_m. cbn [point]. apply Rabs_le. lra.
  - repeat constructor; cbn; lra.
  - lra.
  - discriminate.
  - repeat constructor.
  - exists N, x. split; [exact HF|]. intros n z mu sd S Hn Hz E.
    assert (L0 : forall i, (i < 1)%nat -> List.length (x i) = 2%nat) by (intros i Hi; rewrite (HS i) by exact Hi; destruct i as [|i]; [reflexivity|lia]).
    assert (Q := proj1 (HN ex_bump (/ 1000) x 2 ltac:(lra) ex_bump_ball L0 HF n [z] mu sd S Hn ltac:(now constructor) E) 0%nat ltac:(cbn; lia)). cbn [nth] in Q.
    eapply Rle_trans; [exact Q|]. set (u := sqrt (jitter_cov + / 1000000)).
    assert (U2 : u * u = jitter_cov + / 1000000) by (apply sqrt_sqrt; unfold jitter_cov; lra).
    assert (SQ : u <= / 250) by (unfold u; rewrite <- (sqrt_square (/ 250)) by lra; apply sqrt_le_1_alt; unfold jitter_cov; lra).
    assert (SS : sqrt ((u + / 1000) * (u + / 1000) - jitter_cov) <= / 100); [|lra].
    rewrite <- (sqrt_square (/ 100)) by lra. apply sqrt_le_1_alt. replace ((u + / 1000) * (u + / 1000)) with (u * u + 2 * (/ 1000) * u + / 1000000) by field. rewrite U2. lra.
Qed.
