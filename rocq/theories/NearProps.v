(** Properties C119-C120: predictions near measured inputs, and how fast predictions change with the
    input.  Exact real arithmetic. *)
From Verif Require Import Base Num UtilsSpec HypsModel CovModel KernelSpec CovSpec CovProps GPModel GPSpec Contracts GPProps
  PredSpec PredProps NearSpec NearReal NearProofs2.
From Coq Require Import List ZArith Bool String Reals Lra Lia Arith.
Import ListNotations.
Open Scope R_scope.
Local Open Scope string_scope.
Unset Asymmetric Patterns.
Set Bullet Behavior "Strict Subproofs".

(** ** C119: after [k] measurements of one input, the returned variance at any other input is at most the variance of the
    difference of the function at the two inputs, plus the noise variance divided by [k], plus the jitter *)
Theorem C119_near : forall name h d ls s nz K pm m inv X Xs Y mu sd S,
  regression name h d ls s nz K pm m -> inv_contract inv -> fits name X d -> fits name Xs d -> column (alen X) Y ->
  @predict_with_hyps NumR exp inv X Y Xs h name pm = Ok (mu, sd, S) ->
  forall j e k, (j < alen Xs)%nat -> measured X e k -> (0 < k)%nat ->
    at_ S j j <= kernel_gap K e (elem_nth Xs j) + (nz * nz + jitter_cov) / INR k + jitter_cov.
Proof. intros name h d ls s nz K pm m inv X Xs Y mu sd S RG HI F Fs HY E j e k. exact (@near name h d ls s nz K pm m inv RG HI X Xs Y mu sd S F Fs HY E j e k). Qed.
Print Assumptions C119_near.
(** at the measured input itself: noise / k + jitter *)
Theorem C119_measured : forall name h d ls s nz K pm m inv X Xs Y mu sd S,
  regression name h d ls s nz K pm m -> inv_contract inv -> fits name X d -> fits name Xs d -> column (alen X) Y ->
  @predict_with_hyps NumR exp inv X Y Xs h name pm = Ok (mu, sd, S) ->
  forall j e k, (j < alen Xs)%nat -> elem_nth Xs j = e -> measured X e k -> (0 < k)%nat ->
    at_ S j j <= (nz * nz + jitter_cov) / INR k + jitter_cov.
Proof. intros name h d ls s nz K pm m inv X Xs Y mu sd S RG HI F Fs HY E j e k. exact (@near_at name h d ls s nz K pm m inv RG HI X Xs Y mu sd S F Fs HY E j e k). Qed.
Print Assumptions C119_measured.
(** points: at scaled distance [r] from the measured input *)
Theorem C119_points : forall name h d ls s nz K pm m inv X Xs Y mu sd S,
  regression name h d ls s nz K pm m -> inv_contract inv -> fits name X d -> fits name Xs d -> column (alen X) Y ->
  @predict_with_hyps NumR exp inv X Y Xs h name pm = Ok (mu, sd, S) ->
  forall j x y k, profile_of name <> None -> (j < alen Xs)%nat -> elem_nth Xs j = EPoint y -> measured X (EPoint x) k -> (0 < k)%nat ->
    let r := scaled_dist (ls_at ls) d x y in
    at_ S j j <= s * s * curvature name * (r * r) + (nz * nz + jitter_cov) / INR k + jitter_cov.
Proof. intros name h d ls s nz K pm m inv X Xs Y mu sd S RG HI F Fs HY E j x y k. exact (@near_points name h d ls s nz K pm m inv RG HI X Xs Y mu sd S F Fs HY E j x y k). Qed.
Print Assumptions C119_points.
(** the point (0, 1) is measured twice among the example inputs and is the first test input *)
Example C119_example : measured ex_X (EPoint [0; 1]) 2 /\ elem_nth ex_Xs 0 = EPoint [0; 1] /\ profile_of "matern52" <> None /\
  kernel_gap ex_K (EPoint [0; 1]) (EPoint [0; 1]) = 0 /\
  exists mu sd S, @predict_with_hyps NumR exp some_inv ex_X ex_Y ex_Xs ex_hyps "matern52" ex_prior = Ok (mu, sd, S) /\
    at_ S 0 0 <= (1 / 100 + / 100000) / 2 + / 100000.
Proof.
  assert (M : measured ex_X (EPoint [0; 1]) 2).
  { exists [0; 2]%nat. split; [repeat constructor; cbn; intuition lia|]. split; [reflexivity|]. intros i [<-|[<-|[]]]; (split; [cbn; lia|reflexivity]). }
  split; [exact M|]. split; [reflexivity|]. split; [discriminate|]. split; [unfold kernel_gap; ring|].
  destruct (proj2 (proj2 C30_example)) as [mu [sd [S E]]]. exists mu, sd, S. split; [exact E|].
  assert (B := C119_measured _ _ _ _ _ _ _ _ _ _ _ _ _ _ _ _ ex_regression some_inv_ok ex_fits ex_fits_s ex_column E 0%nat _ 2%nat ltac:(cbn; lia) eq_refl M ltac:(lia)).
  unfold jitter_cov in B. cbn [INR] in B. lra.
Qed.

(** ** C120: how far the predictions can move between two inputs, and how far the mean can be from the prior mean *)
Theorem C120_mean : forall name h d ls s nz K pm m inv X Xs Y mu sd S,
  regression name h d ls s nz K pm m -> inv_contract inv -> fits name X d -> fits name Xs d -> column (alen X) Y ->
  @predict_with_hyps NumR exp inv X Y Xs h name pm = Ok (mu, sd, S) ->
  forall j k, (j < alen Xs)%nat -> (k < alen Xs)%nat ->
    let zj := elem_nth Xs j in let zk := elem_nth Xs k in
    Rabs ((at_ mu j 0 - m zj) - (at_ mu k 0 - m zk)) <= sqrt (kernel_gap K zj zk * deviation_sq m X Y / (nz * nz + jitter_cov)).
Proof. intros name h d ls s nz K pm m inv X Xs Y mu sd S RG HI F Fs HY E j k. exact (@mean_move name h d ls s nz K pm m inv RG HI X Xs Y mu sd S F Fs HY E j k). Qed.
Print Assumptions C120_mean.
Theorem C120_mean_size : forall name h d ls s nz K pm m inv X Xs Y mu sd S,
  regression name h d ls s nz K pm m -> inv_contract inv -> fits name X d -> fits name Xs d -> column (alen X) Y ->
  @predict_with_hyps NumR exp inv X Y Xs h name pm = Ok (mu, sd, S) ->
  forall j, (j < alen Xs)%nat -> let z := elem_nth Xs j in
    Rabs (at_ mu j 0 - m z) <= sqrt (K z z * deviation_sq m X Y / (nz * nz + jitter_cov)).
Proof. intros name h d ls s nz K pm m inv X Xs Y mu sd S RG HI F Fs HY E j. exact (@mean_size name h d ls s nz K pm m inv RG HI X Xs Y mu sd S F Fs HY E j). Qed.
Print Assumptions C120_mean_size.
Theorem C120_deviation : forall name h d ls s nz K pm m inv X Xs Y mu sd S,
  regression name h d ls s nz K pm m -> inv_contract inv -> fits name X d -> fits name Xs d -> column (alen X) Y ->
  @predict_with_hyps NumR exp inv X Y Xs h name pm = Ok (mu, sd, S) ->
  forall j k, (j < alen Xs)%nat -> (k < alen Xs)%nat ->
    Rabs (at_ sd j 0 - at_ sd k 0) <= sqrt (kernel_gap K (elem_nth Xs j) (elem_nth Xs k)).
Proof. intros name h d ls s nz K pm m inv X Xs Y mu sd S RG HI F Fs HY E j k. exact (@sd_move name h d ls s nz K pm m inv RG HI X Xs Y mu sd S F Fs HY E j k). Qed.
Print Assumptions C120_deviation.
(** points: the mean (less the prior mean) and the standard deviation are Lipschitz in the scaled distance *)
Theorem C120_lipschitz : forall name h d ls s nz K pm m inv X Xs Y mu sd S,
  regression name h d ls s nz K pm m -> inv_contract inv -> fits name X d -> fits name Xs d -> column (alen X) Y ->
  @predict_with_hyps NumR exp inv X Y Xs h name pm = Ok (mu, sd, S) ->
  forall j k x y, profile_of name <> None -> (j < alen Xs)%nat -> (k < alen Xs)%nat -> elem_nth Xs j = EPoint x -> elem_nth Xs k = EPoint y ->
    let r := scaled_dist (ls_at ls) d x y in let L := Rabs s * sqrt (curvature name) in
    Rabs ((at_ mu j 0 - m (EPoint x)) - (at_ mu k 0 - m (EPoint y))) <= L * sqrt (deviation_sq m X Y / (nz * nz + jitter_cov)) * r /\
    Rabs (at_ sd j 0 - at_ sd k 0) <= L * r.
Proof. intros name h d ls s nz K pm m inv X Xs Y mu sd S RG HI F Fs HY E j k x y. exact (@lipschitz name h d ls s nz K pm m inv RG HI X Xs Y mu sd S F Fs HY E j k x y). Qed.
Print Assumptions C120_lipschitz.
Example C120_example : deviation_sq ex_m ex_X ex_Y = 9 /\ curvature "matern52" = 5 / 3 /\ elem_nth ex_Xs 1 = EPoint [7; 5] /\
  exists mu sd S, @predict_with_hyps NumR exp some_inv ex_X ex_Y ex_Xs ex_hyps "matern52" ex_prior = Ok (mu, sd, S).
Proof.
  split; [|split; [reflexivity|split; [reflexivity|exact (proj2 (proj2 C30_example))]]].
  unfold deviation_sq, out, at_, ex_m, elem_nth. cbn. lra.
Qed.
