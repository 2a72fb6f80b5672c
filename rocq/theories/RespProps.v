(** Property C115: the unit and the origin of the responses.  Exact real arithmetic. *)
From Verif Require Import Base Num UtilsSpec HypsModel CovModel KernelSpec CovSpec CovProps GPModel GPSpec GPProofs2 Contracts GPProps
  LikModel LikSpec LikProofs2 LikProps GradSpec RespProofs.
From Coq Require Import List ZArith Bool String Reals Lra Lia Arith.
Import ListNotations.
Open Scope R_scope.
Local Open Scope string_scope.
Unset Asymmetric Patterns.
Set Bullet Behavior "Strict Subproofs".

(** Finding: responses, signal and noise in another unit do not give the mean in that unit, because the jitter on the
    training covariance has a fixed value *)
Definition resp_X : arr NumR := A2 NumR (mkmat ([[0]] : list (list NumR)) 1).
Definition resp_hyps (s nz : R) : dict NumR := [("signal", PFloat NumR s); ("noise", PFloat NumR nz); ("lengthscales", PArr NumR [1])].
Theorem C115_refuted : exists name X d ls s nz c (Y Y' : mat NumR) h h' K K',
  regression name h d ls s nz K None (fun _ => 0) /\ regression name h' d ls (c * s) (c * nz) K' None (fun _ => 0) /\
  0 < c /\ 0 < nz /\ fits name X d /\ column (alen X) Y /\ column (alen X) Y' /\ (forall i, (i < alen X)%nat -> out Y' i = c * out Y i) /\
  forall inv mu sd S mu' sd' S', inv_contract inv ->
    @predict_with_hyps NumR exp inv X Y X h name None = Ok (mu, sd, S) ->
    @predict_with_hyps NumR exp inv X Y' X h' name None = Ok (mu', sd', S') -> at_ mu' 0 0 <> c * at_ mu 0 0.
Proof.
  set (K := fun s e e' => base_kernel se_profile (PArr NumR [1]) s 1 (point e) (point e')).
  assert (RG : forall s nz, regression "se" (resp_hyps s nz) 1 (PArr NumR [1]) s nz (K s) None (fun _ => 0)).
  { intros s nz. split; [repeat split|reflexivity|intros e; reflexivity]. }
  assert (F : fits "se" resp_X 1) by (split; [intros r [<-|[]]; reflexivity|split; [discriminate|reflexivity]]).
  exists "se", resp_X, 1%nat, (PArr NumR [1]), 1, 1, 2, (mkmat ([[1]] : list (list NumR)) 1), (mkmat ([[2]] : list (list NumR)) 1), (resp_hyps 1 1), (resp_hyps (2 * 1) (2 * 1)), (K 1), (K (2 * 1)).
  split; [apply RG|]. split; [apply RG|]. split; [lra|]. split; [lra|]. split; [exact F|].
  split; [split; [reflexivity|split; [reflexivity|intros r [<-|[]]; reflexivity]]|].
  split; [split; [reflexivity|split; [reflexivity|intros r [<-|[]]; reflexivity]]|].
  split. { intros i Hi. assert (i = 0%nat) by (cbn in Hi; lia). subst i. cbv -[Rmult IZR]. lra. }
  intros inv mu sd S mu' sd' S' HI E E'.
  pose proof (predict_one (RG 1 1) HI F E) as V. pose proof (predict_one (RG (2 * 1) (2 * 1)) HI F E') as V'.
  assert (P : forall s, K s (EPoint [0]) (EPoint [0]) = s * s).
  { intros s. unfold K, base_kernel, se_profile, scaled_dist, scaled_sq. cbn [point ls_at List.seq map nth].
    replace (Rsum [(0 - 0) / 1 * ((0 - 0) / 1)]) with 0 by (unfold Rsum; cbn; field). rewrite sqrt_0.
    replace (- (0 * 0) / 2) with 0 by field. rewrite exp_0. ring. }
  rewrite V, V'. rewrite !P. unfold GPProofs2.shift. change (/ 100000) with jitter_cov. intros H. assert (J : 0 < jitter_cov) by (unfold jitter_cov; lra). revert H J. generalize jitter_cov. intros e H J.
  apply (f_equal (fun v => v * (2 * 1 * (2 * 1) + (e + 2 * 1 * (2 * 1))) * (1 * 1 + (e + 1 * 1)))) in H. 
  assert (A : 2 * 1 * (2 * 1) + (e + 2 * 1 * (2 * 1)) <> 0) by lra. assert (B : 1 * 1 + (e + 1 * 1) <> 0) by lra.
  assert (L : 2 * 1 * (2 * 1) / (2 * 1 * (2 * 1) + (e + 2 * 1 * (2 * 1))) * 2 * (2 * 1 * (2 * 1) + (e + 2 * 1 * (2 * 1))) * (1 * 1 + (e + 1 * 1)) = 8 * (2 + e)) by (field; lra).
  assert (M : 2 * (1 * 1 / (1 * 1 + (e + 1 * 1)) * 1) * (2 * 1 * (2 * 1) + (e + 2 * 1 * (2 * 1))) * (1 * 1 + (e + 1 * 1)) = 2 * (8 + e)) by (field; lra).
  rewrite L, M in H. lra.
Qed.
Print Assumptions C115_refuted.

(** what holds: with the noise adjusted so that noise^2 + jitter follows the unit, the means follow the unit and the origin
    exactly, and covariances and variances do apart from the jitter they contain; missing: the plain noise *)
Theorem C115_predictions_partial : forall name h h' d ls s nz nz' c b K K' pm pm' m m' inv X Y Y' Xs mu sd S,
  regression name h d ls s nz K pm m -> regression name h' d ls (c * s) nz' K' pm' m' -> inv_contract inv ->
  c <> 0 -> nz' * nz' + jitter_cov = c * c * (nz * nz + jitter_cov) -> (forall e, m' e = c * m e + b) ->
  fits name X d -> fits name Xs d -> column (alen X) Y -> column (alen X) Y' ->
  (forall i, (i < alen X)%nat -> out Y' i = c * out Y i + b) ->
  @predict_with_hyps NumR exp inv X Y Xs h name pm = Ok (mu, sd, S) ->
  exists mu' sd' S', @predict_with_hyps NumR exp inv X Y' Xs h' name pm' = Ok (mu', sd', S') /\
    (forall j, (j < alen Xs)%nat -> at_ mu' j 0 = c * at_ mu j 0 + b) /\
    (forall j k, (j < alen Xs)%nat -> (k < alen Xs)%nat -> let e := if Nat.eqb j k then jitter_cov else 0 in
       at_ S' j k - e = c * c * (at_ S j k - e)) /\
    (forall j, (j < alen Xs)%nat -> at_ sd' j 0 * at_ sd' j 0 - jitter_cov = c * c * (at_ sd j 0 * at_ sd j 0 - jitter_cov)).
Proof.
  intros name h h' d ls s nz nz' c b K K' pm pm' m m' inv X Y Y' Xs mu sd S RG RG' HI HC HN HM F Fs HY HY' EY.
  exact (@predict_scaled name h h' d ls s nz nz' c b K K' pm pm' m m' inv RG RG' HI HN HM X Y Y' F HY HY' EY Xs mu sd S Fs).
Qed.
Print Assumptions C115_predictions_partial.
(** Student-t: the means follow too, and both covariances are the same multiple of the Gaussian ones *)
Theorem C115_student_partial : forall name h h' d ls s nz nz' c b K K' pm pm' m m' inv X Y Y' Xs nu r mu sd S,
  regression name h d ls s nz K pm m -> regression name h' d ls (c * s) nz' K' pm' m' -> inv_contract inv ->
  c <> 0 -> nz' * nz' + jitter_cov = c * c * (nz * nz + jitter_cov) -> (forall e, m' e = c * m e + b) ->
  fits name X d -> fits name Xs d -> column (alen X) Y -> column (alen X) Y' ->
  (forall i, (i < alen X)%nat -> out Y' i = c * out Y i + b) ->
  dget h "dof" = Some (PFloat NumR nu) -> dget h' "dof" = Some (PFloat NumR nu) ->
  @tp_predict_with_hyps NumR exp inv X Y Xs h name pm = Ok (r, mu, sd, S) ->
  exists mu' sd' S' f m0 d0 S0 m0' d0' S0', @tp_predict_with_hyps NumR exp inv X Y' Xs h' name pm' = Ok (r, mu', sd', S') /\
    (forall j, (j < alen Xs)%nat -> at_ mu' j 0 = c * at_ mu j 0 + b) /\
    @predict_with_hyps NumR exp inv X Y Xs h name pm = Ok (m0, d0, S0) /\ @predict_with_hyps NumR exp inv X Y' Xs h' name pm' = Ok (m0', d0', S0') /\
    (forall j k, (j < alen Xs)%nat -> (k < alen Xs)%nat -> at_ S j k = f * at_ S0 j k /\ at_ S' j k = f * at_ S0' j k).
Proof.
  intros name h h' d ls s nz nz' c b K K' pm pm' m m' inv X Y Y' Xs nu r mu sd S RG RG' HI HC HN HM F Fs HY HY' EY.
  exact (@tpredict_scaled name h h' d ls s nz nz' c b K K' pm pm' m m' inv RG RG' HI HC HN HM X Y Y' F HY HY' EY Xs nu r mu sd S Fs).
Qed.
Print Assumptions C115_student_partial.
(** the negative log likelihoods per observation change by ln |c| only, whatever the data: the same hyperparameters are best in
    both units *)
Theorem C115_likelihood_partial : forall name h h' d ls s nz nz' c b K K' pm pm' m m' inv X Y Y' q q' th th' ard ard' fx fx' chol cho_solve slogdet ug ug',
  regression name h d ls s nz K pm m -> regression name h' d ls (c * s) nz' K' pm' m' -> inv_contract inv -> slogdet_contract slogdet ->
  c <> 0 -> nz' * nz' + jitter_cov = c * c * (nz * nz + jitter_cov) ->
  fits name X d -> (0 < alen X)%nat -> column (alen X) Y -> column (alen X) Y' -> column (alen X) q -> column (alen X) q' ->
  (forall i, (i < alen X)%nat -> out Y' i = c * out Y i + b /\ out q' i = c * out q i + b) ->
  @restore_hyps NumR name th true ard fx (GP_NOISE NumR) = Ok h -> @restore_hyps NumR name th' true ard' fx' (GP_NOISE NumR) = Ok h' ->
  exists v v', @neg_log_ml NumR exp ln PI inv chol cho_solve slogdet X Y th name q ard fx false ug = Ok (v, None) /\
    @neg_log_ml NumR exp ln PI inv chol cho_solve slogdet X Y' th' name q' ard' fx' false ug' = Ok (v', None) /\ v' = v + ln (Rabs c).
Proof.
  intros name h h' d ls s nz nz' c b K K' pm pm' m m' inv X Y Y' q q' th th' ard ard' fx fx' chol cho_solve slogdet ug ug' RG RG' HI HD HC HN F Hn HY HY' Hq Hq' E.
  exact (@ml_scaled name h h' d ls s nz nz' c b K K' pm pm' m m' inv RG RG' HI HC HN X Y Y' F HY HY' (fun i Hi => proj1 (E i Hi)) q q' th th' ard ard' fx fx' chol cho_solve slogdet ug ug' Hq Hq' HD Hn (fun i Hi => proj2 (E i Hi))).
Qed.
Print Assumptions C115_likelihood_partial.
(** the default computation: up to the offset 1e-7 of its logarithms *)
Theorem C115_default_likelihood_partial : forall name h h' d ls s nz nz' c b K K' pm pm' m m' X Y Y' q q' th th' ard ard' fx fx' inv' chol cho_solve slogdet ug ug' v g v' g',
  regression name h d ls s nz K pm m -> regression name h' d ls (c * s) nz' K' pm' m' -> chol_contract chol -> cho_solve_contract cho_solve ->
  c <> 0 -> nz' * nz' + jitter_cov = c * c * (nz * nz + jitter_cov) ->
  fits name X d -> (0 < alen X)%nat -> column (alen X) Y -> column (alen X) Y' -> column (alen X) q -> column (alen X) q' ->
  (forall i, (i < alen X)%nat -> out Y' i = c * out Y i + b /\ out q' i = c * out q i + b) ->
  @restore_hyps NumR name th true ard fx (GP_NOISE NumR) = Ok h -> @restore_hyps NumR name th' true ard' fx' (GP_NOISE NumR) = Ok h' ->
  @neg_log_ml NumR exp ln PI inv' chol cho_solve slogdet X Y th name q ard fx true ug = Ok (v, g) ->
  @neg_log_ml NumR exp ln PI inv' chol cho_solve slogdet X Y' th' name q' ard' fx' true ug' = Ok (v', g') ->
  - (/ 10000000 / sqrt (jitter_cov + nz * nz)) <= v' - v - ln (Rabs c) <= / 10000000 / sqrt (jitter_cov + nz' * nz').
Proof.
  intros name h h' d ls s nz nz' c b K K' pm pm' m m' X Y Y' q q' th th' ard ard' fx fx' inv' chol cho_solve slogdet ug ug' v g v' g' RG RG' HCh HS HC HN F Hn HY HY' Hq Hq' E.
  exact (@mlc_scaled name h h' d ls s nz nz' c b K K' pm pm' m m' some_inv RG RG' some_inv_ok HC HN X Y Y' F HY HY' (fun i Hi => proj1 (E i Hi)) q q' th th' ard ard' fx fx' inv' chol cho_solve slogdet ug ug' v g v' g' Hq Hq' HCh HS Hn (fun i Hi => proj2 (E i Hi))).
Qed.
Print Assumptions C115_default_likelihood_partial.
Theorem C115_student_likelihood_partial : forall name h h' d ls s nz nz' c b K K' pm pm' m m' inv X Y Y' q q' th th' ard ard' fx fx' slogdet gamma digamma nu,
  regression name h d ls s nz K pm m -> regression name h' d ls (c * s) nz' K' pm' m' -> inv_contract inv -> slogdet_contract slogdet ->
  c <> 0 -> nz' * nz' + jitter_cov = c * c * (nz * nz + jitter_cov) ->
  fits name X d -> (0 < alen X)%nat -> column (alen X) Y -> column (alen X) Y' -> column (alen X) q -> column (alen X) q' ->
  (forall i, (i < alen X)%nat -> out Y' i = c * out Y i + b /\ out q' i = c * out q i + b) ->
  @restore_hyps NumR name th false ard fx (GP_NOISE NumR) = Ok h -> @restore_hyps NumR name th' false ard' fx' (GP_NOISE NumR) = Ok h' ->
  dget h "dof" = Some (PFloat NumR nu) -> dget h' "dof" = Some (PFloat NumR nu) ->
  exists v v', @tp_neg_log_ml NumR exp ln PI inv slogdet gamma digamma X Y th name q ard fx false = Ok (v, None) /\
    @tp_neg_log_ml NumR exp ln PI inv slogdet gamma digamma X Y' th' name q' ard' fx' false = Ok (v', None) /\ v' = v + ln (Rabs c).
Proof.
  intros name h h' d ls s nz nz' c b K K' pm pm' m m' inv X Y Y' q q' th th' ard ard' fx fx' slogdet gamma digamma nu RG RG' HI HD HC HN F Hn HY HY' Hq Hq' E.
  exact (@tml_scaled name h h' d ls s nz nz' c b K K' pm pm' m m' inv RG RG' HI HC HN X Y Y' F HY HY' (fun i Hi => proj1 (E i Hi)) q q' th th' ard ard' fx fx' slogdet gamma digamma nu Hq Hq' HD Hn (fun i Hi => proj2 (E i Hi))).
Qed.
Print Assumptions C115_student_likelihood_partial.
(** responses doubled and shifted by 1 *)
Example C115_example : exists nz', nz' * nz' + jitter_cov = 2 * 2 * (1 / 10 * (1 / 10) + jitter_cov) /\
  regression "matern52" [("signal", PFloat NumR (2 * 2)); ("noise", PFloat NumR nz'); ("lengthscales", PArr NumR [1; 3])] 2 (PArr NumR [1; 3]) (2 * 2) nz'
    (fun e e' => base_kernel matern52_profile (PArr NumR [1; 3]) (2 * 2) 2 (point e) (point e')) None (fun _ => 0) /\
  column (alen ex_X) (mkmat ([[3]; [9]; [5]] : list (list NumR)) 1) /\
  (forall i, (i < alen ex_X)%nat -> out (mkmat ([[3]; [9]; [5]] : list (list NumR)) 1) i = 2 * out ex_Y i + 1).
Proof.
  exists (sqrt (2 * 2 * (1 / 10 * (1 / 10) + jitter_cov) - jitter_cov)). split.
  { rewrite sqrt_sqrt; unfold jitter_cov; lra. }
  split; [split; [repeat split|reflexivity|intros e; reflexivity]|].
  split; [split; [reflexivity|split; [reflexivity|intros r [<-|[<-|[<-|[]]]]; reflexivity]]|].
  intros [|[|[|i]]] Hi; [| | |cbn in Hi; lia]; unfold out, at_; cbn [mrows ex_Y nth]; change (@eq NumR) with (@eq R); lra.
Qed.
