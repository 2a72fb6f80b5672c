(** Properties C136 and C137: measurement errors, targets of the kernel's space and the Student-t process.  Exact real arithmetic. *)
From Verif Require Import Base Num UtilsSpec UtilsModel HypsModel CovModel KernelSpec CovSpec CovProps CovProofs GPModel GPSpec Contracts GPProofs2 GPProofs3 GPProps PredSpec NearSpec
  RegretSpec RegretProps NearReal DampSpec DampProofs DampProps TDampProofs.
From Coq Require Import List ZArith Bool String Reals Lra Lia Arith.
Import ListNotations.
Open Scope R_scope.
Local Open Scope string_scope.
Unset Asymmetric Patterns.
Set Bullet Behavior "Strict Subproofs".

(** ** C136: changing the responses by a vector of length [r] changes predicted means as in C132, and predicted deviations by at most
    a multiple of [r] that tends to zero with the number of measurements *)
Theorem C136_damped : forall name h d ls s nz K pm m inv nu, regression name h d ls s nz K pm m -> inv_contract inv ->
  dget h "dof" = Some (PFloat NumR nu) -> 2 < nu ->
  forall X Xs Y Y' r mu sd S r' mu' sd' S', 0 < s -> fits name X d -> fits name Xs d -> column (alen X) Y -> column (alen X) Y' ->
  @tp_predict_with_hyps NumR exp inv X Y Xs h name pm = Ok (r, mu, sd, S) -> @tp_predict_with_hyps NumR exp inv X Y' Xs h name pm = Ok (r', mu', sd', S') ->
  forall j, (j < alen Xs)%nat ->
    Rabs (at_ mu j 0 - at_ mu' j 0) <= s / (2 * sqrt (nz * nz + jitter_cov)) * response_change (alen X) Y Y' /\
    Rabs (at_ sd j 0 - at_ sd' j 0) <= sqrt ((s * s + jitter_cov) / ((nz * nz + jitter_cov) * (nu + INR (alen X) - 2))) * response_change (alen X) Y Y'.
Proof. exact tp_change. Qed.
Print Assumptions C136_damped.
(** the deviations lie between two multiples of those of the Gaussian process with the same hyperparameters; the upper one depends on how far
    the responses are from the prior mean *)
Theorem C136_between : forall name h d ls s nz K pm m inv nu, regression name h d ls s nz K pm m -> inv_contract inv ->
  dget h "dof" = Some (PFloat NumR nu) -> 2 < nu ->
  forall X Xs Y mu sd S r tmu tsd tS, fits name X d -> fits name Xs d -> column (alen X) Y ->
  @predict_with_hyps NumR exp inv X Y Xs h name pm = Ok (mu, sd, S) -> @tp_predict_with_hyps NumR exp inv X Y Xs h name pm = Ok (r, tmu, tsd, tS) ->
  forall j, (j < alen Xs)%nat -> let n := INR (alen X) in
    sqrt ((nu - 2) / (nu + n - 2)) * at_ sd j 0 <= at_ tsd j 0 <= sqrt ((nu - 2 + deviation_sq m X Y / (nz * nz + jitter_cov)) / (nu + n - 2)) * at_ sd j 0.
Proof. exact tp_between. Qed.
Print Assumptions C136_between.

(** the responses of C132, which differ by 5, and five degrees of freedom *)
Example C136_example : exists r mu sd S r' mu' sd' S' gm gs gS,
  @tp_predict_with_hyps NumR exp some_inv ex_X ex_Y ex_Xs ex_hyps_t "matern52" ex_prior = Ok (r, mu, sd, S) /\
  @tp_predict_with_hyps NumR exp some_inv ex_X ex_Y' ex_Xs ex_hyps_t "matern52" ex_prior = Ok (r', mu', sd', S') /\
  @predict_with_hyps NumR exp some_inv ex_X ex_Y ex_Xs ex_hyps_t "matern52" ex_prior = Ok (gm, gs, gS) /\
  Rabs (at_ sd 1 0 - at_ sd' 1 0) <= sqrt ((2 * 2 + jitter_cov) / ((1 / 10 * (1 / 10) + jitter_cov) * 6)) * 5 /\
  sqrt (1 / 2) * at_ gs 1 0 <= at_ sd 1 0.
Proof.
  destruct C35_example as (D & RG & N5).
  destruct (tp_predict_ok RG some_inv_ok ex_fits ex_fits_s ex_column D) as (gm & gs & gS & B & C & sd & S & _ & E & ET & _).
  destruct (tp_predict_ok RG some_inv_ok ex_fits ex_fits_s ex_column' D) as (gm' & gs' & gS' & B' & C' & sd' & S' & _ & E' & ET' & _).
  do 11 eexists. split; [exact ET|]. split; [exact ET'|]. split; [exact E|]. split.
  - destruct (C136_damped _ _ _ _ _ _ _ _ _ _ _ RG some_inv_ok D N5 _ _ _ _ _ _ _ _ _ _ _ _ ltac:(lra) ex_fits ex_fits_s ex_column ex_column' ET ET' 1%nat ltac:(cbn; lia)) as [_ H].
    eapply Rle_trans; [exact H|]. apply Req_le. f_equal.
    + do 2 f_equal. cbn [alen ex_X mrows nrows List.length INR]. f_equal. cbn. lra.
    + unfold response_change, out, at_. cbn. rewrite <- (sqrt_square 5) by lra. f_equal. lra.
  - destruct (C136_between _ _ _ _ _ _ _ _ _ _ _ RG some_inv_ok D N5 _ _ _ _ _ _ _ _ _ _ ex_fits ex_fits_s ex_column E ET 1%nat ltac:(cbn; lia)) as [H _].
    eapply Rle_trans; [|exact H]. apply Req_le. f_equal. f_equal. cbn. lra.
Qed.

(** ** C137: exact measurements of a function [f] of the kernel's space, of norm at most [B] *)
Theorem C137_band : forall name h d ls s nz K pm m inv nu, regression name h d ls s nz K pm m -> inv_contract inv ->
  dget h "dof" = Some (PFloat NumR nu) -> 2 < nu ->
  forall X Xs Y B f r mu sd S, fits name X d -> fits name Xs d -> column (alen X) Y ->
  @tp_predict_with_hyps NumR exp inv X Y Xs h name pm = Ok (r, mu, sd, S) -> 0 <= B -> in_ball K m B f -> (forall i, (i < alen X)%nat -> out Y i = f (elem_nth X i)) ->
  forall j, (j < alen Xs)%nat -> let n := INR (alen X) in
    Rabs (f (elem_nth Xs j) - at_ mu j 0) <= B * sqrt ((nu + n - 2) / (nu - 2)) * at_ sd j 0 /\
    at_ sd j 0 <= sqrt ((nu - 2 + B * B) * (s * s + jitter_cov) / (nu + n - 2)).
Proof. exact tp_target. Qed.
Print Assumptions C137_band.
(** the deviations vanish everywhere, wherever the measurements were made *)
Theorem C137_shrinks : forall name h d ls s nz K pm m inv nu, regression name h d ls s nz K pm m -> inv_contract inv ->
  dget h "dof" = Some (PFloat NumR nu) -> 2 < nu ->
  forall B eps, 0 <= B -> 0 < eps -> exists N, forall X Xs Y f r mu sd S, fits name X d -> fits name Xs d -> column (alen X) Y ->
  @tp_predict_with_hyps NumR exp inv X Y Xs h name pm = Ok (r, mu, sd, S) -> in_ball K m B f -> (forall i, (i < alen X)%nat -> out Y i = f (elem_nth X i)) -> (N <= alen X)%nat ->
  forall j, (j < alen Xs)%nat -> at_ sd j 0 < eps.
Proof. exact tp_shrinks. Qed.
Print Assumptions C137_shrinks.
(** small moves of the input *)
Theorem C137_move : forall name h d ls s nz K pm m inv nu, regression name h d ls s nz K pm m -> inv_contract inv ->
  dget h "dof" = Some (PFloat NumR nu) -> 2 < nu ->
  forall X Xs Y r mu sd S, fits name X d -> fits name Xs d -> column (alen X) Y -> @tp_predict_with_hyps NumR exp inv X Y Xs h name pm = Ok (r, mu, sd, S) ->
  forall j k, (j < alen Xs)%nat -> (k < alen Xs)%nat -> let zj := elem_nth Xs j in let zk := elem_nth Xs k in let n := INR (alen X) in
    Rabs ((at_ mu j 0 - m zj) - (at_ mu k 0 - m zk)) <= sqrt (kernel_gap K zj zk * deviation_sq m X Y / (nz * nz + jitter_cov)) /\
    Rabs (at_ sd j 0 - at_ sd k 0) <= sqrt ((nu - 2 + deviation_sq m X Y / (nz * nz + jitter_cov)) / (nu + n - 2)) * sqrt (kernel_gap K zj zk).
Proof. exact tp_move. Qed.
Print Assumptions C137_move.

(** the function of C128 measured exactly, five degrees of freedom *)
Definition ex_Yb : mat NumR := mkmat ([[ex_bump (EPoint [0; 1])]; [ex_bump (EPoint [2; 5])]; [ex_bump (EPoint [0; 1])]] : list (list NumR)) 1.
Lemma ex_column_b : column (alen ex_X) ex_Yb.
Proof. split; [reflexivity|]. split; [reflexivity|]. intros r [<-|[<-|[<-|[]]]]; reflexivity. Qed.
Example C137_example : exists r mu sd S, @tp_predict_with_hyps NumR exp some_inv ex_X ex_Yb ex_Xs ex_hyps_t "matern52" ex_prior = Ok (r, mu, sd, S) /\
  Rabs (ex_bump (EPoint [7; 5]) - at_ mu 1 0) <= 2 * sqrt 2 * at_ sd 1 0 /\ at_ sd 1 0 <= sqrt (7 * (4 + jitter_cov) / 6).
Proof.
  destruct C35_example as (D & RG & N5).
  destruct (tp_predict_ok RG some_inv_ok ex_fits ex_fits_s ex_column_b D) as (gm & gs & gS & B & C & sd & S & _ & E & ET & _).
  exists (5 + INR 3), gm, sd, S. split; [exact ET|].
  destruct (C137_band _ _ _ _ _ _ _ _ _ _ _ RG some_inv_ok D N5 _ _ _ 2 ex_bump _ _ _ _ ex_fits ex_fits_s ex_column_b ET ltac:(lra) ex_bump_ball) with (j := 1%nat) as [H1 H2].
  - intros [|[|[|i]]] Hi; [reflexivity|reflexivity|reflexivity|cbn in Hi; lia].
  - cbn; lia.
  - split.
    + eapply Rle_trans; [exact H1|]. apply Req_le. f_equal. f_equal. f_equal. cbn. lra.
    + eapply Rle_trans; [exact H2|]. apply Req_le. f_equal. cbn. lra.
Qed.

(** far from all measurements the deviation would be that of the prior, as for the Gaussian process (C96): false *)
Theorem C137_far_refuted : forall D eps, 0 < eps -> exists X Y Xs r mu sd S, fits "matern52" X 2 /\ fits "matern52" Xs 2 /\ column (alen X) Y /\ (0 < alen X)%nat /\
  @tp_predict_with_hyps NumR exp some_inv X Y Xs ex_hyps_t "matern52" ex_prior = Ok (r, mu, sd, S) /\
  (forall i, (i < alen X)%nat -> far (PArr NumR [1; 3]) 2 D (elem_nth X i) (elem_nth Xs 0)) /\
  ex_K (elem_nth Xs 0) (elem_nth Xs 0) = 4 /\ at_ sd 0 0 < eps.
Proof.
  intros D eps e0. destruct C35_example as (DD & RG & N5).
  destruct (C137_shrinks _ _ _ _ _ _ _ _ _ _ _ RG some_inv_ok DD N5 0 eps ltac:(lra) e0) as (N & H).
  set (X := A2 NumR (mkmat (repeat ([0; 1] : list NumR) (S N)) 2)). set (Y := mkmat (repeat ([0] : list NumR) (S N)) 1 : mat NumR).
  set (Xs := A2 NumR (mkmat ([[Rabs D + 3; 1]] : list (list NumR)) 2)).
  assert (AX : alen X = S N) by (unfold X; cbn [alen nrows mrows]; apply repeat_length).
  assert (EX : forall i, (i < S N)%nat -> elem_nth X i = EPoint [0; 1]).
  { intros i Hi. unfold X, elem_nth. cbn [elems mrows]. rewrite (nth_indep _ _ (EPoint [0; 1])) by (rewrite map_length, repeat_length; exact Hi).
    rewrite map_nth. f_equal. apply nth_repeat. }
  assert (F : fits "matern52" X 2).
  { split; [|split; [discriminate|reflexivity]]. intros r Hr. apply repeat_spec in Hr. subst r. reflexivity. }
  assert (Fs : fits "matern52" Xs 2) by (split; [|split; [discriminate|reflexivity]]; intros r [<-|[]]; reflexivity).
  assert (HY : column (alen X) Y).
  { rewrite AX. split; [reflexivity|]. split; [apply repeat_length|]. intros r Hr. apply repeat_spec in Hr. subst r. reflexivity. }
  destruct (tp_predict_ok RG some_inv_ok F Fs HY DD) as (gm & gs & gS & B & C & sd & S' & _ & E & ET & _).
  exists X, Y, Xs. do 4 eexists. split; [exact F|split; [exact Fs|split; [exact HY|split; [rewrite AX; lia|split; [exact ET|split; [|split]]]]]].
  - intros i Hi. rewrite AX in Hi. rewrite (EX i Hi). intros x y [<-|[]] [<-|[]].
    assert (AD := Rle_abs D). assert (PD := Rabs_pos D). unfold scaled_dist, scaled_sq. cbn [seq map Rsum nth ls_at].
    apply Rle_lt_trans with (Rabs D); [exact AD|]. set (a := Rabs D) in *. clearbody a. rewrite <- (sqrt_square a) at 1 by exact PD. apply sqrt_lt_1_alt. split; [apply Rle_0_sqr|].
    replace ((0 - (a + 3)) / 1) with (- (a + 3)) by field. replace ((1 - 1) / 3) with 0 by field. nra.
  - unfold ex_K, base_kernel. unfold scaled_dist. rewrite scaled_sq_self, sqrt_0. unfold matern52_profile. rewrite !Rmult_0_r, Ropp_0, exp_0. lra.
  - apply (H X Xs Y ex_m _ _ _ _ F Fs HY ET).
    + intros l. cbv zeta. replace (Rsum _) with 0; [lra|]. induction l as [|p l IH]; cbn [map Rsum]; [reflexivity|]. rewrite <- IH. ring.
    + intros i Hi. rewrite AX in Hi. rewrite (EX i Hi). unfold out, at_, Y, ex_m. cbn [mrows point]. rewrite (nth_indep _ _ [0]) by (rewrite repeat_length; exact Hi); rewrite nth_repeat. cbn. lra.
    + rewrite AX. lia.
    + cbn. lia.
Qed.
Print Assumptions C137_far_refuted.
