(** Properties C26 and C29-C35 (Gaussian and Student-t process regression), in exact real arithmetic. *)
From Verif Require Import Base Num UtilsSpec HypsModel CovModel KernelSpec CovSpec CovProps CovProofs GPModel GPSpec Contracts GPProofs GPProofs2 GPProofs3.
From Coq Require Import List ZArith Bool String Reals Lra Lia Arith Permutation.
Import ListNotations.
Open Scope R_scope.
Local Open Scope string_scope.
Unset Asymmetric Patterns.
Set Bullet Behavior "Strict Subproofs".

(** data used in the examples: three points with a repetition, a linear prior mean *)
Definition ex_Y : mat NumR := mkmat ([[1]; [4]; [2]] : list (list NumR)) 1.
Definition ex_prior : prior NumR :=
  Some (fun a => Ok (mkmat (map (fun e => [match point e with x :: _ => 3 * x | [] => 0 end]) (elems a)) 1)).
Definition ex_m (e : elem) : R := match point e with x :: _ => 3 * x | [] => 0 end.
Lemma ex_prior_ok : prior_is ex_prior ex_m.
Proof.
  intros a. eexists. split; [reflexivity|].
  assert (L : List.length (elems a) = alen a) by (destruct a; cbn; now rewrite map_length).
  split.
  - split; [reflexivity|]. split; [cbn; now rewrite map_length|].
    intros r Hr. cbn in Hr. apply in_map_iff in Hr as [e [<- _]]. reflexivity.
  - intros i Hi. unfold at_, elem_nth. cbn [mrows].
    rewrite (@CovMx.nth_map_in _ _ _ (elems a) (EPoint [])) by now rewrite L. reflexivity.
Qed.
Definition ex_K : elem -> elem -> R := fun e e' => base_kernel matern52_profile (PArr NumR [1; 3]) 2 2 (point e) (point e').
Lemma ex_regression : regression "matern52" ex_hyps 2 (PArr NumR [1; 3]) 2 (1 / 10) ex_K ex_prior ex_m.
Proof. split; [apply ex_hyps_ok|reflexivity|apply ex_prior_ok]. Qed.
Lemma ex_column : column (alen ex_X) ex_Y.
Proof. split; [reflexivity|]. split; [reflexivity|]. intros r [<-|[<-|[<-|[]]]]; reflexivity. Qed.
Definition ex_Xs : arr NumR := A2 NumR (mkmat ([[0; 1]; [7; 5]] : list (list NumR)) 2).
Lemma ex_fits_s : fits "matern52" ex_Xs 2.
Proof. split; [|split; [discriminate|reflexivity]]. intros r [<-|[<-|[]]]; reflexivity. Qed.

(** ** C26 *)
Theorem C26_inverse : forall name X h d ls s nz K inv, fits name X d -> has_hyps h d ls s nz -> cov_of name ls s d = Some K ->
  inv_contract inv ->
  exists C B, @get_kernel_inverse NumR exp inv X h name true false = Ok (C, B, None) /\
    is_mx (alen X) (alen X) C /\ symmetric (alen X) C /\ definite (alen X) C /\ is_inverse (alen X) C B.
Proof.
  intros name X h d ls s nz K inv F H HK HI. destruct (inverse_ok F H HK HI) as (C & B & E & _ & SC & HB & Y & D).
  exists C, B. repeat split; try assumption; try apply SC; try apply HB.
Qed.
Print Assumptions C26_inverse.
(** the factorisation succeeds at jitter zero: the returned covariance is the training covariance itself *)
Theorem C26_cholesky : forall name X h d ls s nz K chol, fits name X d -> has_hyps h d ls s nz -> cov_of name ls s d = Some K ->
  chol_contract chol ->
  exists C L, @get_kernel_cholesky NumR exp chol X h name true false = Ok (C, L, None) /\
    @train_cov NumR exp X h name = Ok C /\ chol C = Ok L /\ is_cholesky (alen X) C L.
Proof.
  intros name X h d ls s nz K chol F H HK HC. destruct (cholesky_ok F H HK HC) as (C & L & E & ET & _ & HL & EL).
  exists C, L. auto.
Qed.
Print Assumptions C26_cholesky.
Example C26_example : fits "matern52" ex_X 2 /\ has_hyps ex_hyps 2 (PArr NumR [1; 3]) 2 (1 / 10) /\
  elem_nth ex_X 0 = elem_nth ex_X 2 /\ inv_contract some_inv /\ chol_contract some_chol.
Proof.
  split; [apply ex_fits|]. split; [apply ex_hyps_ok|]. split; [reflexivity|]. split; [apply some_inv_ok|apply some_chol_ok].
Qed.

(** ** C29 *)
Theorem C29_posterior : forall name h d ls s nz K pm m inv X Xs Y,
  regression name h d ls s nz K pm m -> inv_contract inv -> fits name X d -> fits name Xs d -> column (alen X) Y ->
  exists mu sd S, @predict_with_hyps NumR exp inv X Y Xs h name pm = Ok (mu, sd, S) /\
    is_mx (alen Xs) 1 mu /\ is_mx (alen Xs) 1 sd /\ is_mx (alen Xs) (alen Xs) S /\
    symmetric (alen Xs) S /\ semidefinite (alen Xs) S /\ definite (alen Xs) S /\
    forall j, (j < alen Xs)%nat ->
      jitter_cov <= at_ S j j /\ at_ S j j <= K (elem_nth Xs j) (elem_nth Xs j) + jitter_cov /\
      K (elem_nth Xs j) (elem_nth Xs j) <= s * s /\ at_ sd j 0 = sqrt (at_ S j j).
Proof. intros name h d ls s nz K pm m inv X Xs Y RG HI. exact (posterior_definite RG HI (X := X) (Xs := Xs) (Y := Y)). Qed.
Print Assumptions C29_posterior.
Example C29_example : regression "matern52" ex_hyps 2 (PArr NumR [1; 3]) 2 (1 / 10) ex_K ex_prior ex_m /\ inv_contract some_inv /\
  fits "matern52" ex_X 2 /\ fits "matern52" ex_Xs 2 /\ column (alen ex_X) ex_Y /\ alen ex_Xs = 2%nat.
Proof. split; [apply ex_regression|]. split; [apply some_inv_ok|]. split; [apply ex_fits|]. split; [apply ex_fits_s|]. split; [apply ex_column|reflexivity]. Qed.

(** ** C30 *)
Theorem C30_affine : forall name h d ls s nz K pm m inv X Xs Y1 Y2 Y a b mu1 mu2 mu sd1 sd2 sd S1 S2 S,
  regression name h d ls s nz K pm m -> inv_contract inv -> fits name X d -> fits name Xs d ->
  column (alen X) Y1 -> column (alen X) Y2 -> column (alen X) Y ->
  a + b = 1 -> (forall i, (i < alen X)%nat -> out Y i = a * out Y1 i + b * out Y2 i) ->
  @predict_with_hyps NumR exp inv X Y1 Xs h name pm = Ok (mu1, sd1, S1) ->
  @predict_with_hyps NumR exp inv X Y2 Xs h name pm = Ok (mu2, sd2, S2) ->
  @predict_with_hyps NumR exp inv X Y Xs h name pm = Ok (mu, sd, S) ->
  (forall j, (j < alen Xs)%nat -> at_ mu j 0 = a * at_ mu1 j 0 + b * at_ mu2 j 0) /\ S = S1 /\ sd = sd1.
Proof.
  intros name h d ls s nz K pm m inv X Xs Y1 Y2 Y a b mu1 mu2 mu sd1 sd2 sd S1 S2 S RG HI.
  intros F Fs H1 H2 H AB V E1 E2 E. exact (mean_affine RG HI F Fs H1 H2 H AB V E1 E2 E).
Qed.
Print Assumptions C30_affine.
(** the covariance and the deviations do not depend on the outputs *)
Theorem C30_covariance : forall name h d ls s nz K pm m inv X Xs Y Y' mu mu' sd sd' S S',
  regression name h d ls s nz K pm m -> inv_contract inv -> fits name X d -> fits name Xs d ->
  column (alen X) Y -> column (alen X) Y' ->
  @predict_with_hyps NumR exp inv X Y Xs h name pm = Ok (mu, sd, S) ->
  @predict_with_hyps NumR exp inv X Y' Xs h name pm = Ok (mu', sd', S') -> S' = S /\ sd' = sd.
Proof.
  intros name h d ls s nz K pm m inv X Xs Y Y' mu mu' sd sd' S S' RG HI F Fs HY HY' E E'.
  refine (proj2 (mean_affine RG HI F Fs HY HY' HY' (a := 0) (b := 1) _ _ E E' E')); [lra|intros; lra].
Qed.
Print Assumptions C30_covariance.
Theorem C30_prior : forall name h d ls s nz K pm m inv X Xs Y mu sd S,
  regression name h d ls s nz K pm m -> inv_contract inv -> fits name X d -> fits name Xs d -> column (alen X) Y ->
  (forall i, (i < alen X)%nat -> out Y i = m (elem_nth X i)) ->
  @predict_with_hyps NumR exp inv X Y Xs h name pm = Ok (mu, sd, S) ->
  forall j, (j < alen Xs)%nat -> at_ mu j 0 = m (elem_nth Xs j).
Proof. intros name h d ls s nz K pm m inv X Xs Y mu sd S RG HI. exact (@mean_prior name h d ls s nz K pm m inv RG HI X Xs Y mu sd S). Qed.
Print Assumptions C30_prior.
Theorem C30_centred : forall name h d ls s nz K pm m inv X Xs Y Y0 mu sd S mu0 sd0 S0,
  regression name h d ls s nz K pm m -> inv_contract inv -> fits name X d -> fits name Xs d ->
  column (alen X) Y -> column (alen X) Y0 ->
  (forall i, (i < alen X)%nat -> out Y0 i = out Y i - m (elem_nth X i)) ->
  @predict_with_hyps NumR exp inv X Y Xs h name pm = Ok (mu, sd, S) ->
  @predict_with_hyps NumR exp inv X Y0 Xs h name None = Ok (mu0, sd0, S0) ->
  (forall j, (j < alen Xs)%nat -> at_ mu j 0 = at_ mu0 j 0 + m (elem_nth Xs j)) /\ S = S0 /\ sd = sd0.
Proof. exact predict_centred. Qed.
Print Assumptions C30_centred.
(** the outputs of the example are not the prior means *)
Example C30_example : out ex_Y 1 = 4 /\ ex_m (elem_nth ex_X 1) = 3 * 2 /\
  exists mu sd S, @predict_with_hyps NumR exp some_inv ex_X ex_Y ex_Xs ex_hyps "matern52" ex_prior = Ok (mu, sd, S).
Proof.
  split; [reflexivity|]. split; [reflexivity|].
  destruct (C29_posterior _ _ _ _ _ _ _ _ _ _ _ _ _ ex_regression some_inv_ok ex_fits ex_fits_s ex_column) as (mu & sd & S & E & _).
  now exists mu, sd, S.
Qed.

(** ** C31 *)
Theorem C31_order : forall name h d ls s nz K pm m inv X Xs Y p,
  regression name h d ls s nz K pm m -> inv_contract inv -> fits name X d -> fits name Xs d -> column (alen X) Y ->
  Permutation p (seq 0 (alen X)) ->
  @predict_with_hyps NumR exp inv (take_rows X p) (take_out Y p) Xs h name pm = @predict_with_hyps NumR exp inv X Y Xs h name pm.
Proof. intros name h d ls s nz K pm m inv X Xs Y p RG HI. exact (predict_perm RG HI (X := X) (Xs := Xs) (Y := Y) (p := p)). Qed.
Print Assumptions C31_order.
Example C31_example : Permutation [2; 0; 1]%nat (seq 0 (alen ex_X)) /\ mrows (take_out ex_Y [2; 0; 1]%nat) = [[2]; [1]; [4]].
Proof.
  split; [|reflexivity]. cbn. exact (Permutation_app_comm (2 :: nil)%nat (0 :: 1 :: nil)%nat).
Qed.

(** ** C32 *)
Theorem C32_batch : forall name h d ls s nz K pm m inv X Xs Y q mu sd S,
  regression name h d ls s nz K pm m -> inv_contract inv -> fits name X d -> fits name Xs d -> column (alen X) Y ->
  (forall k, In k q -> (k < alen Xs)%nat) -> @predict_with_hyps NumR exp inv X Y Xs h name pm = Ok (mu, sd, S) ->
  exists mu' sd' S', @predict_with_hyps NumR exp inv X Y (take_rows Xs q) h name pm = Ok (mu', sd', S') /\
    is_mx (List.length q) 1 mu' /\ is_mx (List.length q) 1 sd' /\ is_mx (List.length q) (List.length q) S' /\
    (forall j, (j < List.length q)%nat -> at_ mu' j 0 = at_ mu (nth j q 0%nat) 0 /\ at_ sd' j 0 = at_ sd (nth j q 0%nat) 0) /\
    (forall j k, (j < List.length q)%nat -> (k < List.length q)%nat -> j = k \/ nth j q 0%nat <> nth k q 0%nat ->
       at_ S' j k = at_ S (nth j q 0%nat) (nth k q 0%nat)).
Proof. intros name h d ls s nz K pm m inv X Xs Y q mu sd S RG HI. exact (@predict_sub name h d ls s nz K pm m inv RG HI X Xs Y q mu sd S). Qed.
Print Assumptions C32_batch.
(** in particular one test point on its own *)
Theorem C32_single : forall name h d ls s nz K pm m inv X Xs Y j mu sd S,
  regression name h d ls s nz K pm m -> inv_contract inv -> fits name X d -> fits name Xs d -> column (alen X) Y ->
  (j < alen Xs)%nat -> @predict_with_hyps NumR exp inv X Y Xs h name pm = Ok (mu, sd, S) ->
  @predict_with_hyps NumR exp inv X Y (take_rows Xs [j]) h name pm = Ok ([[at_ mu j 0]], [[at_ sd j 0]], [[at_ S j j]]).
Proof.
  intros name h d ls s nz K pm m inv X Xs Y j mu sd S RG HI F Fs HY Hj E.
  destruct (C32_batch _ _ _ _ _ _ _ _ _ _ _ _ _ [j] _ _ _ RG HI F Fs HY ltac:(intros k [<-|[]]; exact Hj) E)
    as (mu' & sd' & S' & E' & M1 & M2 & M3 & V & W).
  rewrite E'. destruct (V 0%nat ltac:(cbn; lia)) as [V1 V2]. specialize (W 0%nat 0%nat ltac:(cbn; lia) ltac:(cbn; lia) (or_introl eq_refl)).
  cbn [nth] in *.
  assert (ONE : forall a, is_mx (List.length [j]) 1 a -> a = [[at_ a 0 0]]).
  { intros a [L1 L2]. destruct a as [|r [|? ?]]; cbn in L1; try lia. specialize (L2 r (or_introl eq_refl)).
    destruct r as [|v [|? ?]]; cbn in L2; try lia. reflexivity. }
  rewrite (ONE mu'), (ONE sd'), (ONE S') by assumption. now rewrite V1, V2, W.
Qed.
Print Assumptions C32_single.
Example C32_example : elem_nth (take_rows ex_Xs [1]%nat) 0 = EPoint [7; 5] /\ (1 < alen ex_Xs)%nat.
Proof. split; [reflexivity|cbn; lia]. Qed.

(** ** C33 *)
Theorem C33_residual : forall name h d ls s nz K pm m inv X Y mu sd S C B,
  regression name h d ls s nz K pm m -> inv_contract inv -> fits name X d -> column (alen X) Y ->
  @predict_with_hyps NumR exp inv X Y X h name pm = Ok (mu, sd, S) ->
  @get_kernel_inverse NumR exp inv X h name true false = Ok (C, B, None) ->
  (forall i, (i < alen X)%nat -> out Y i - at_ mu i 0
     = (nz * nz + jitter_cov) * Rsum (map (fun j => at_ B i j * (out Y j - m (elem_nth X j))) (seq 0 (alen X)))) /\
  Rsum (map (fun i => (out Y i - at_ mu i 0) * (out Y i - at_ mu i 0)) (seq 0 (alen X)))
     <= Rsum (map (fun i => (out Y i - m (elem_nth X i)) * (out Y i - m (elem_nth X i))) (seq 0 (alen X))).
Proof. intros name h d ls s nz K pm m inv X Y mu sd S C B RG HI. exact (@predict_train name h d ls s nz K pm m inv RG HI X Y mu sd S C B). Qed.
Print Assumptions C33_residual.
Example C33_example : exists mu sd S C B,
  @predict_with_hyps NumR exp some_inv ex_X ex_Y ex_X ex_hyps "matern52" ex_prior = Ok (mu, sd, S) /\
  @get_kernel_inverse NumR exp some_inv ex_X ex_hyps "matern52" true false = Ok (C, B, None) /\ is_inverse 3 C B.
Proof.
  destruct (C29_posterior _ _ _ _ _ _ _ _ _ _ _ _ _ ex_regression some_inv_ok ex_fits ex_fits ex_column) as (mu & sd & S & E & _).
  destruct (C26_inverse _ _ _ _ _ _ _ _ _ ex_fits ex_hyps_ok eq_refl some_inv_ok) as (C & B & E' & _ & _ & _ & I).
  now exists mu, sd, S, C, B.
Qed.

(** ** C34 *)
Theorem C34_more_data : forall name h d ls s nz K pm m inv X X' Xs Y Y' mu sd S mu' sd' S' E,
  regression name h d ls s nz K pm m -> inv_contract inv -> fits name X d -> fits name X' d -> fits name Xs d ->
  column (alen X) Y -> column (alen X') Y' -> elems X' = (elems X ++ E)%list ->
  @predict_with_hyps NumR exp inv X Y Xs h name pm = Ok (mu, sd, S) ->
  @predict_with_hyps NumR exp inv X' Y' Xs h name pm = Ok (mu', sd', S') ->
  forall j, (j < alen Xs)%nat -> at_ sd' j 0 <= at_ sd j 0.
Proof.
  intros name h d ls s nz K pm m inv X X' Xs Y Y' mu sd S mu' sd' S' E RG HI.
  exact (@predict_more name h d ls s nz K pm m inv RG HI X X' Xs Y Y' mu sd S mu' sd' S' E).
Qed.
Print Assumptions C34_more_data.
Example C34_example : elems ex_X = (elems (take_rows ex_X [0; 1]%nat) ++ [EPoint [0; 1]])%list /\ fits "matern52" (take_rows ex_X [0; 1]%nat) 2.
Proof.
  split; [reflexivity|]. apply fits_take; [|apply ex_fits]. intros k [<-|[<-|[]]]; cbn; lia.
Qed.

(** ** C35 *)
Theorem C35_student : forall name h d ls s nz K pm m inv nu X Xs Y,
  regression name h d ls s nz K pm m -> inv_contract inv -> fits name X d -> fits name Xs d -> column (alen X) Y ->
  dget h "dof" = Some (PFloat NumR nu) ->
  exists mu sd S B C sd' S', let beta := beta_of m X Y B in let factor := t_factor nu beta (alen X) in
    @get_kernel_inverse NumR exp inv X h name true false = Ok (C, B, None) /\
    @predict_with_hyps NumR exp inv X Y Xs h name pm = Ok (mu, sd, S) /\
    @tp_predict_with_hyps NumR exp inv X Y Xs h name pm = Ok (nu + INR (alen X), mu, sd', S') /\
    is_mx (alen Xs) 1 sd' /\ is_mx (alen Xs) (alen Xs) S' /\
    0 <= beta /\
    (forall j k, (j < alen Xs)%nat -> (k < alen Xs)%nat -> at_ S' j k = factor * at_ S j k) /\
    (forall j, (j < alen Xs)%nat -> at_ sd' j 0 = sqrt (Rmax (at_ S' j j) 0)).
Proof. exact tp_predict_ok. Qed.
Print Assumptions C35_student.
Theorem C35_positive : forall nu beta n, 2 < nu -> 0 <= beta -> 0 < t_factor nu beta n.
Proof. intros nu beta n H B. unfold t_factor. pose proof (pos_INR n). apply Rdiv_lt_0_compat; lra. Qed.
Print Assumptions C35_positive.
Theorem C35_covariance : forall name h d ls s nz K pm m inv nu X Xs Y r mu sd S,
  regression name h d ls s nz K pm m -> inv_contract inv -> fits name X d -> fits name Xs d -> column (alen X) Y ->
  dget h "dof" = Some (PFloat NumR nu) -> 2 < nu ->
  @tp_predict_with_hyps NumR exp inv X Y Xs h name pm = Ok (r, mu, sd, S) ->
  symmetric (alen Xs) S /\ semidefinite (alen Xs) S /\
  forall j, (j < alen Xs)%nat -> 0 <= at_ S j j /\ at_ sd j 0 = sqrt (at_ S j j).
Proof.
  intros name h d ls s nz K pm m inv nu X Xs Y r mu sd S RG HI F Fs HY D N E.
  destruct (tp_predict_ok (m := m) RG HI F Fs HY D) as (mu0 & sd0 & S0 & B & C & sd' & S' & _ & E0 & E' & _ & _ & HB & V & W).
  rewrite E in E'. injection E' as -> -> -> ->.
  destruct (posterior_definite RG HI F Fs HY) as (mu1 & sd1 & S1 & E1 & _ & _ & _ & Sy & Sd & _ & Dg).
  rewrite E0 in E1. injection E1 as -> -> ->.
  pose proof (C35_positive nu _ (alen X) N HB) as FP. set (f := t_factor _ _ _) in *.
  assert (P : forall j, (j < alen Xs)%nat -> 0 <= at_ S' j j).
  { intros j Hj. rewrite V by assumption. destruct (Dg j Hj) as (G & _). unfold jitter_cov in G. apply Rmult_le_pos; lra. }
  split; [|split].
  - intros i j Hi Hj. rewrite !V by assumption. now rewrite (Sy i j).
  - intros w. replace (quad (alen Xs) S' w) with (f * quad (alen Xs) S1 w); [apply Rmult_le_pos; [lra|apply Sd]|].
    unfold quad. rewrite <- UtilsRProofs.Rsum_map_scal. apply UtilsRProofs.Rsum_map_ext. intros i Hi. apply in_seq in Hi.
    rewrite <- UtilsRProofs.Rsum_map_scal. apply UtilsRProofs.Rsum_map_ext. intros j Hj. apply in_seq in Hj. rewrite V by lia. ring.
  - intros j Hj. split; [now apply P|]. rewrite W by assumption. f_equal. apply Rmax_left. now apply P.
Qed.
Print Assumptions C35_covariance.
(** with the data and the other hyperparameters fixed, the factor tends to 1 as nu grows *)
Theorem C35_limit : forall beta n eps, 0 < eps -> exists M, forall nu, M < nu -> Rabs (t_factor nu beta n - 1) < eps.
Proof.
  intros beta n eps He. exists (2 + INR n + Rabs (beta - INR n) / eps). intros nu H. unfold t_factor. pose proof (pos_INR n) as Hn.
  assert (G : 0 <= Rabs (beta - INR n) / eps) by (apply Rmult_le_pos; [apply Rabs_pos|left; now apply Rinv_0_lt_compat]).
  assert (P : 0 < nu + INR n - 2) by lra.
  replace ((nu + beta - 2) / (nu + INR n - 2) - 1) with ((beta - INR n) / (nu + INR n - 2)) by (field; lra).
  unfold Rdiv. rewrite Rabs_mult, (Rabs_pos_eq (/ _)) by (left; now apply Rinv_0_lt_compat).
  apply Rmult_lt_reg_r with (nu + INR n - 2); [exact P|]. rewrite Rmult_assoc, Rinv_l, Rmult_1_r by lra.
  replace (Rabs (beta - INR n)) with (eps * (Rabs (beta - INR n) / eps)) by (field; lra). apply Rmult_lt_compat_l; lra.
Qed.
Print Assumptions C35_limit.
Definition ex_hyps_t : dict NumR := (ex_hyps ++ [("dof", PFloat NumR 5)])%list.
Example C35_example : dget ex_hyps_t "dof" = Some (PFloat NumR 5) /\
  regression "matern52" ex_hyps_t 2 (PArr NumR [1; 3]) 2 (1 / 10) ex_K ex_prior ex_m /\ 2 < 5.
Proof. split; [reflexivity|]. split; [split; [repeat split|reflexivity|apply ex_prior_ok]|lra]. Qed.
