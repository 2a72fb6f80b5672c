(** Properties C40 (gradient of the Student-t likelihood), C76 (gradient of the Gaussian likelihood) and
    C77 (value of the Student-t likelihood). *)
From Verif Require Import Base Num UtilsModel UtilsSpec HypsModel CovModel KernelSpec CovSpec CovProps CovProofs GPModel GPSpec Contracts GPProps
  LikModel LikSpec LikProofs2 LikProps GradSpec GradReal GammaWitness LikGrad TPGrad.
From Coq Require Import List ZArith Bool String Reals Lra Lia Arith.
Import ListNotations.
Open Scope R_scope.
Local Open Scope string_scope.
Unset Asymmetric Patterns.
Set Bullet Behavior "Strict Subproofs".

(** ** C76: every entry of the gradient is the derivative of the Gaussian formula, except for that of the signal,
    which carries a term with the covariance jitter *)
Theorem C76 : forall name pr m d h ls s nz Y p th ard fx inv chol cho_solve slogdet,
  let X := A2 NumR m in let n := alen X in
  let nll := @neg_log_ml NumR exp ln PI inv chol cho_solve slogdet X Y in
  profile_of name = Some pr -> fits name X d -> column n Y -> column n p -> (0 < n)%nat ->
  inv_contract inv -> chol_contract chol -> cho_solve_contract cho_solve -> slogdet_contract slogdet ->
  @restore_hyps NumR name th true ard fx (GP_NOISE NumR) = Ok h -> has_hyps h d ls s nz -> s <> 0 -> ls_nonzero ls d ->
  exists v g C B, nll th name p ard fx true true = Ok (v, Some g) /\ nll th name p ard fx true false = Ok (v, None) /\
    List.length g = List.length th /\ @train_cov NumR exp X h name = Ok C /\ is_inverse n C B /\
    forall q, (q < List.length th)%nat ->
      exists G, derivable_pt_lim (value_at (fun t => nll t name p ard fx false false) th q) (nth q th 0) G /\
        nth q g 0 = G + (if Nat.eqb q (gp_signal fx) then
          / 100000 / s * Rsum (map (fun i => at_ B i i - apply_mx n B (residual Y p) i * apply_mx n B (residual Y p) i) (seq 0 n)) / INR n
          else 0).
Proof.
  intros name pr m d h ls s nz Y p th ard fx inv chol cho_solve slogdet X n nll P F HY Hp Hn HI HC HS HD ER H Hs Hl.
  destruct (restore_gp_inv _ _ _ _ _ _ _ _ _ _ ER H) as (-> & <- & Hz).
  exact (@gp_gradient name pr m d h ls s nz fx P F H Hs Hl Hz Y p HY Hp (ssrbool.introT ssrnat.ltP Hn) inv chol cho_solve slogdet HI HC HS HD ER).
Qed.
Print Assumptions C76.

(** ** C77 *)
Theorem C77 : forall name X d h ls s nz K nu Y p th ard fx inv slogdet gamma digamma,
  fits name X d -> has_hyps h d ls s nz -> cov_of name ls s d = Some K -> column (alen X) Y -> column (alen X) p ->
  inv_contract inv -> slogdet_contract slogdet ->
  @restore_hyps NumR name th false ard fx (GP_NOISE NumR) = Ok h -> dget h "dof" = Some (PFloat NumR nu) ->
  exists C B, @train_cov NumR exp X h name = Ok C /\ is_inverse (alen X) C B /\ 0 < det (alen X) C /\
    @tp_neg_log_ml NumR exp ln PI inv slogdet gamma digamma X Y th name p ard fx false
    = Ok (student_nll gamma (alen X) C B (residual Y p) nu, None).
Proof.
  intros name X d h ls s nz K nu Y p th ard fx inv slogdet gamma digamma F HH HK HY Hp HI HD ER EN.
  destruct (tp_value F HH HK HY Hp gamma digamma HI HD ER EN) as (C & B & E & HB & D & _ & _ & V). exists C, B. auto.
Qed.
Print Assumptions C77.

(** ** C40 *)
(** the entries of the gradient are the derivatives of the value, up to a term with the covariance jitter for the signal,
    and except for the degrees of freedom, whose entry misses a factor 1/2 on the difference of the digammas *)
Theorem C40_partial : forall name pr m d h ls s nz nu Y p th ard fx inv slogdet gamma digamma,
  let X := A2 NumR m in let n := alen X in
  let nll := @tp_neg_log_ml NumR exp ln PI inv slogdet gamma digamma X Y in
  profile_of name = Some pr -> fits name X d -> column n Y -> column n p -> (0 < n)%nat ->
  inv_contract inv -> slogdet_contract slogdet -> gamma_contract gamma digamma ->
  @restore_hyps NumR name th false ard fx (GP_NOISE NumR) = Ok h -> has_hyps h d ls s nz -> dget h "dof" = Some (PFloat NumR nu) ->
  2 < nu -> s <> 0 -> ls_nonzero ls d ->
  exists v g C B, nll th name p ard fx true = Ok (v, Some g) /\ nll th name p ard fx false = Ok (v, None) /\
    List.length g = List.length th /\ @train_cov NumR exp X h name = Ok C /\ is_inverse n C B /\
    forall q, (q < List.length th)%nat ->
      exists G, derivable_pt_lim (value_at (fun t => nll t name p ard fx false) th q) (nth q th 0) G /\
        nth q g 0 = G +
          (if Nat.eqb q (tp_dof fx) then - (digamma ((nu + INR n) / 2) - digamma (nu / 2)) / (2 * INR n)
           else if Nat.eqb q (tp_signal fx) then
             / 100000 / s * Rsum (map (fun i => at_ B i i - (nu + INR n) / (nu - 2 + quad n B (residual Y p))
                * (apply_mx n B (residual Y p) i * apply_mx n B (residual Y p) i)) (seq 0 n)) / INR n
           else 0).
Proof.
  intros name pr m d h ls s nz nu Y p th ard fx inv slogdet gamma digamma X n nll P F HY Hp Hn HI HD HG ER H EN Hnu Hs Hl.
  destruct (restore_tp_inv _ _ _ _ _ _ _ _ _ _ _ ER H EN) as (-> & <- & Hz).
  exact (@tp_gradient name pr m d h ls s nz nu fx P F H Hs Hl Hz Hnu Y p HY Hp (ssrbool.introT ssrnat.ltP Hn) inv slogdet gamma digamma HI HD HG ER EN).
Qed.
Print Assumptions C40_partial.
(** so with an even number of points the entry of the degrees of freedom is never the derivative of the value *)
Theorem C40_refuted : forall name pr m d h ls s nz nu Y p th ard fx inv slogdet gamma digamma k,
  let X := A2 NumR m in let n := alen X in
  let nll := @tp_neg_log_ml NumR exp ln PI inv slogdet gamma digamma X Y in
  profile_of name = Some pr -> fits name X d -> column n Y -> column n p -> n = (2 * k)%nat -> (0 < k)%nat ->
  inv_contract inv -> slogdet_contract slogdet -> gamma_contract gamma digamma ->
  @restore_hyps NumR name th false ard fx (GP_NOISE NumR) = Ok h -> has_hyps h d ls s nz -> dget h "dof" = Some (PFloat NumR nu) ->
  2 < nu -> s <> 0 -> ls_nonzero ls d ->
  exists v g, nll th name p ard fx true = Ok (v, Some g) /\
    ~ derivable_pt_lim (value_at (fun t => nll t name p ard fx false) th (tp_dof fx)) (nth (tp_dof fx) th 0) (nth (tp_dof fx) g 0).
Proof.
  intros name pr m d h ls s nz nu Y p th ard fx inv slogdet gamma digamma k X n nll P F HY Hp En Hk HI HD HG ER H EN Hnu Hs Hl.
  assert (Hn : (0 < n)%nat) by lia.
  destruct (C40_partial name pr m d h ls s nz nu Y p th ard fx inv slogdet gamma digamma P F HY Hp Hn HI HD HG ER H EN Hnu Hs Hl)
    as (v & g & C & B & E1 & _ & _ & _ & _ & Q).
  exists v, g. split; [exact E1|]. intros D.
  assert (L : (tp_dof fx < List.length th)%nat).
  { destruct (restore_tp_inv _ _ _ _ _ _ _ _ _ _ _ ER H EN) as (-> & _ & _). unfold ttheta. rewrite length_ins.
    assert (0 < List.length (CovGrad.theta fx nz s ls))%nat by (unfold CovGrad.theta; rewrite !app_length; cbn; lia). destruct fx; cbn; lia. }
  destruct (Q _ L) as (G & DG & E). rewrite Nat.eqb_refl in E.
  rewrite (uniqueness_limite _ _ _ _ D DG) in E. fold X n in E. 
  assert (GP := digamma_gap gamma digamma (nu / 2) k HG ltac:(lra) Hk).
  assert (EI : INR n = 2 * INR k) by (rewrite En, mult_INR; reflexivity).
  replace ((nu + INR n) / 2) with (nu / 2 + INR k) in E by (rewrite EI; field).
  assert (0 < INR n) by (now apply lt_0_INR).
  assert (Z : - (digamma (nu / 2 + INR k) - digamma (nu / 2)) / (2 * INR n) = 0) by lra.
  assert (W : - (digamma (nu / 2 + INR k) - digamma (nu / 2)) = 0 * (2 * INR n)) by (rewrite <- Z; field; lra). lra.
Qed.
Print Assumptions C40_refuted.

(** two points, each with one output, and the hyperparameters (noise, degrees of freedom, signal, two lengthscales) *)
Definition ex_m2 : mat NumR := mkmat ([[0; 1]; [2; 5]] : list (list NumR)) 2.
Definition ex_y2 : mat NumR := mkmat ([[1]; [4]] : list (list NumR)) 1.
Definition ex_th5 : list R := [1 / 10; 5; 2; 1; 3].
Definition ex_th4 : list R := [1 / 10; 2; 1; 3].
Example C40_example : exists h, @restore_hyps NumR "matern52" ex_th5 false true false (GP_NOISE NumR) = Ok h /\
  has_hyps h 2 (PArr NumR [1; 3]) 2 (1 / 10) /\ dget h "dof" = Some (PFloat NumR 5) /\ ls_nonzero (PArr NumR [1; 3]) 2 /\
  (exists pr, profile_of "matern52" = Some pr) /\ fits "matern52" (A2 NumR ex_m2) 2 /\
  column 2 ex_y2 /\ alen (A2 NumR ex_m2) = (2 * 1)%nat /\
  inv_contract some_inv /\ slogdet_contract some_slogdet /\ gamma_contract some_gamma some_digamma.
Proof.
  eexists. split; [reflexivity|]. split; [repeat split|]. split; [reflexivity|].
  split; [intros [|[|i]] Hi; cbn; try lra; lia|]. split; [eexists; reflexivity|].
  split; [split; [|split; [discriminate|reflexivity]]; intros r [<-|[<-|[]]]; reflexivity|].
  split; [split; [reflexivity|]; split; [reflexivity|]; intros r [<-|[<-|[]]]; reflexivity|]. split; [reflexivity|].
  split; [apply some_inv_ok|]. split; [apply some_slogdet_ok|apply some_gamma_ok].
Qed.
Example C76_example : exists h, @restore_hyps NumR "matern52" ex_th4 true true false (GP_NOISE NumR) = Ok h /\
  has_hyps h 2 (PArr NumR [1; 3]) 2 (1 / 10) /\ chol_contract some_chol /\ cho_solve_contract some_cho_solve.
Proof. eexists. split; [reflexivity|]. split; [repeat split|]. split; [apply some_chol_ok|apply some_cho_solve_ok]. Qed.
(** the specification on a one-dimensional problem *)
Example C77_example : student_nll some_gamma 1 [[4]] [[/ 4]] (fun _ => 2) 4
  = ln (2 * PI) / 2 + ln 4 / 2 - ln (some_gamma (5 / 2) / some_gamma 2) + 5 / 2 * ln (3 / 2).
Proof.
  unfold student_nll. replace (quad 1 [[/ 4]] (fun _ => 2)) with 1 by (unfold quad, at_, Rsum; cbn; field).
  replace (det 1 [[4]]) with 4 by (unfold det, at_, Rsum; cbn; ring). cbn [INR].
  replace (4 - 2) with 2 by ring. replace ((4 + 1) / 2) with (5 / 2) by field. replace (4 / 2) with 2 by field.
  replace (1 + 1 / 2) with (3 / 2) by field. field.
Qed.
