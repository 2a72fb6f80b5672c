(** Properties C122-C124: the posterior mean is a penalised least squares fit; repeated measurements count through their
    totals; only the mutual distances of the inputs matter.  Exact real arithmetic. *)
From Verif Require Import Base Num UtilsSpec HypsModel CovModel KernelSpec CovSpec CovProps GPModel GPSpec Contracts GPProps
  LikModel LikSpec PredSpec PredProps RidgeSpec RidgeReal RidgeProofs.
From Coq Require Import List ZArith Bool String Reals Lra Lia Arith ClassicalEpsilon.
Import ListNotations.
Open Scope R_scope.
Local Open Scope string_scope.
Unset Asymmetric Patterns.
Set Bullet Behavior "Strict Subproofs".

(** ** C122: the predicted mean is the prior mean plus the kernel expansion over the measured inputs that minimises the sum
    of the squared errors plus (noise^2 + jitter) times the squared kernel norm; the minimiser is unique as a function *)
Theorem C122_least_squares : forall name h d ls s nz K pm m inv X Y,
  regression name h d ls s nz K pm m -> inv_contract inv -> fits name X d -> column (alen X) Y ->
  let cost := penalised K m (nz * nz + jitter_cov) X Y in let f := expansion K (alen X) (elem_nth X) in
  exists c,
    (forall Xs mu sd S j, fits name Xs d -> @predict_with_hyps NumR exp inv X Y Xs h name pm = Ok (mu, sd, S) -> (j < alen Xs)%nat ->
       at_ mu j 0 = m (elem_nth Xs j) + f c (elem_nth Xs j)) /\
    (forall u, cost c <= cost u) /\
    (forall u, cost u = cost c -> forall e, f u e = f c e).
Proof. intros name h d ls s nz K pm m inv X Y RG HI F HY. exact (@least_squares name h d ls s nz K pm m inv RG HI X Y F HY). Qed.
Print Assumptions C122_least_squares.
(** one centre: f(z) = c K(x, z); cost of c = 0 is the deviation of the outputs from the prior mean *)
Example C122_example : penalised ex_K ex_m (1 / 100 + / 100000) ex_X ex_Y (fun _ => 0) = 9 /\
  expansion ex_K (alen ex_X) (elem_nth ex_X) (fun _ => 0) (EPoint [7; 5]) = 0 /\
  exists mu sd S, @predict_with_hyps NumR exp some_inv ex_X ex_Y ex_Xs ex_hyps "matern52" ex_prior = Ok (mu, sd, S).
Proof.
  split; [|split; [|exact (proj2 (proj2 C30_example))]].
  - unfold penalised, roughness, expansion, out, at_, ex_m, elem_nth. cbn [alen ex_X ex_Y elems map mrows seq Rsum nth point nrows List.length]. lra.
  - unfold expansion. cbn [alen ex_X map mrows seq Rsum nrows List.length]. lra.
Qed.

(** ** C123: outputs measured at equal inputs may be exchanged, averaged or otherwise redistributed without any effect on
    the predictions, as long as their total stays the same *)
Theorem C123_totals : forall name h d ls s nz K pm m inv X Y Y' Xs,
  regression name h d ls s nz K pm m -> inv_contract inv -> fits name X d -> fits name Xs d -> column (alen X) Y -> column (alen X) Y' ->
  (forall e, total_out X Y e = total_out X Y' e) ->
  @predict_with_hyps NumR exp inv X Y' Xs h name pm = @predict_with_hyps NumR exp inv X Y Xs h name pm.
Proof. intros name h d ls s nz K pm m inv X Y Y' Xs RG HI F Fs HY HY'. exact (@repeated name h d ls s nz K pm m inv RG HI X Y Y' Xs F Fs HY HY'). Qed.
Print Assumptions C123_totals.
(** the inputs 0 and 2 are equal: outputs 1 and 2 may be replaced by 3/2 and 3/2 *)
Definition ex_Y_avg : mat NumR := mkmat ([[3 / 2]; [4]; [3 / 2]] : list (list NumR)) 1.
Example C123_example : column (alen ex_X) ex_Y_avg /\ (forall e, total_out ex_X ex_Y e = total_out ex_X ex_Y_avg e) /\
  @predict_with_hyps NumR exp some_inv ex_X ex_Y_avg ex_Xs ex_hyps "matern52" ex_prior
  = @predict_with_hyps NumR exp some_inv ex_X ex_Y ex_Xs ex_hyps "matern52" ex_prior /\
  exists mu sd S, @predict_with_hyps NumR exp some_inv ex_X ex_Y ex_Xs ex_hyps "matern52" ex_prior = Ok (mu, sd, S).
Proof.
  assert (C : column (alen ex_X) ex_Y_avg) by (split; [reflexivity|split; [reflexivity|intros r [<-|[<-|[<-|[]]]]; reflexivity]]).
  assert (T : forall e, total_out ex_X ex_Y e = total_out ex_X ex_Y_avg e).
  { intros e. unfold total_out, out, at_, elem_nth. cbn [alen ex_X ex_Y ex_Y_avg elems map mrows seq Rsum nth nrows List.length].
    destruct (excluded_middle_informative (EPoint [0; 1] = e)); lra. }
  split; [exact C|]. split; [exact T|]. split; [|exact (proj2 (proj2 C30_example))].
  exact (C123_totals _ _ _ _ _ _ _ _ _ _ _ _ _ _ ex_regression some_inv_ok ex_fits ex_fits_s ex_column C T).
Qed.

(** ** C124: inputs with the same mutual scaled distances (in possibly different dimensions) get the same predictions *)
Theorem C124_distances : forall name h h' d d' ls ls' s nz K K' pm pm' m m' inv X Y Xs X' Xs',
  regression name h d ls s nz K pm m -> regression name h' d' ls' s nz K' pm' m' -> inv_contract inv ->
  fits name X d -> fits name Xs d -> fits name X' d' -> fits name Xs' d' -> alen X' = alen X -> column (alen X) Y ->
  isometric ls d ls' d' (elems X ++ elems Xs)%list (elems X' ++ elems Xs')%list ->
  (forall i, (i < alen X)%nat -> m' (elem_nth X' i) = m (elem_nth X i)) ->
  (forall i, (i < alen Xs)%nat -> m' (elem_nth Xs' i) = m (elem_nth Xs i)) ->
  @predict_with_hyps NumR exp inv X' Y Xs' h' name pm' = @predict_with_hyps NumR exp inv X Y Xs h name pm.
Proof.
  intros name h h' d d' ls ls' s nz K K' pm pm' m m' inv X Y Xs X' Xs' RG RG' HI.
  exact (@predict_iso name h h' d d' ls ls' s nz K K' pm pm' m m' inv RG RG' HI X Y Xs X' Xs').
Qed.
Print Assumptions C124_distances.
Theorem C124_likelihood : forall name h h' d d' ls ls' s nz K K' pm pm' m m' inv X X' Y q th th' ard ard' fx fx' chol cho_solve slogdet ug ug',
  regression name h d ls s nz K pm m -> regression name h' d' ls' s nz K' pm' m' -> inv_contract inv -> slogdet_contract slogdet ->
  fits name X d -> fits name X' d' -> alen X' = alen X -> column (alen X) Y -> column (alen X) q ->
  isometric ls d ls' d' (elems X) (elems X') ->
  @restore_hyps NumR name th true ard fx (GP_NOISE NumR) = Ok h ->
  @restore_hyps NumR name th' true ard' fx' (GP_NOISE NumR) = Ok h' ->
  @neg_log_ml NumR exp ln PI inv chol cho_solve slogdet X' Y th' name q ard' fx' false ug'
  = @neg_log_ml NumR exp ln PI inv chol cho_solve slogdet X Y th name q ard fx false ug.
Proof.
  intros name h h' d d' ls ls' s nz K K' pm pm' m m' inv X X' Y q th th' ard ard' fx fx' chol cho_solve slogdet ug ug' RG RG' HI HD F F' LX HY Hq I.
  exact (@ml_iso name h h' d d' ls ls' s nz K K' pm pm' m m' inv RG RG' HI X X' Y q th th' ard ard' fx fx' chol cho_solve slogdet ug ug' F F' LX HY Hq I HD).
Qed.
Print Assumptions C124_likelihood.
(** one lengthscale for all coordinates: any motion of the inputs that keeps their Euclidean distances *)
Theorem C124_euclidean : forall name h d d' l s nz K K' pm pm' m m' inv X Y Xs X' Xs',
  regression name h d (PFloat NumR l) s nz K pm m -> regression name h d' (PFloat NumR l) s nz K' pm' m' -> inv_contract inv -> l <> 0 ->
  fits name X d -> fits name Xs d -> fits name X' d' -> fits name Xs' d' -> alen X' = alen X -> column (alen X) Y ->
  isometric (PFloat NumR 1) d (PFloat NumR 1) d' (elems X ++ elems Xs)%list (elems X' ++ elems Xs')%list ->
  (forall i, (i < alen X)%nat -> m' (elem_nth X' i) = m (elem_nth X i)) ->
  (forall i, (i < alen Xs)%nat -> m' (elem_nth Xs' i) = m (elem_nth Xs i)) ->
  @predict_with_hyps NumR exp inv X' Y Xs' h name pm' = @predict_with_hyps NumR exp inv X Y Xs h name pm.
Proof.
  intros name h d d' l s nz K K' pm pm' m m' inv X Y Xs X' Xs' RG RG' HI HL F Fs F' Fs' LX HY I.
  exact (@predict_iso name h h d d' _ _ s nz K K' pm pm' m m' inv RG RG' HI X Y Xs X' Xs' F Fs F' Fs' LX HY (isometric_scaled HL I)).
Qed.
Print Assumptions C124_euclidean.
(** a coordinate that is the same everywhere may be dropped, with its lengthscale *)
Theorem C124_constant : forall name h h' d ls s nz K K' pm pm' m m' inv k v X Y Xs,
  regression name h d ls s nz K pm m -> regression name h' (pred d) (without_ls k ls) s nz K' pm' m' -> inv_contract inv ->
  (k < d)%nat -> (1 < d)%nat -> fits name X d -> fits name Xs d -> column (alen X) Y ->
  constant_at k v (elems X ++ elems Xs)%list ->
  (forall e, In e (elems X ++ elems Xs)%list -> m' (without_elem k e) = m e) ->
  @predict_with_hyps NumR exp inv (without_arr k X) Y (without_arr k Xs) h' name pm' = @predict_with_hyps NumR exp inv X Y Xs h name pm.
Proof.
  intros name h h' d ls s nz K K' pm pm' m m' inv k v X Y Xs RG RG' HI Hk _.
  exact (@predict_without name h h' d ls s nz K K' pm pm' m m' inv k v RG RG' HI Hk X Y Xs).
Qed.
Print Assumptions C124_constant.
(** a rotation by a quarter turn keeps distances; the third coordinate of (x, y, 7) may be dropped *)
Definition ex_X3 : arr NumR := A2 NumR (mkmat ([[0; 1; 7]; [2; 5; 7]; [0; 1; 7]] : list (list NumR)) 3).
Definition ex_Xs3 : arr NumR := A2 NumR (mkmat ([[0; 1; 7]; [7; 5; 7]] : list (list NumR)) 3).
Definition ex_hyps3 : dict NumR := [("signal", PFloat NumR 2); ("noise", PFloat NumR (1 / 10)); ("lengthscales", PArr NumR [1; 3; 9])].
Example C124_example : without_arr 2 ex_X3 = ex_X /\ without_arr 2 ex_Xs3 = ex_Xs /\ without_ls 2 (PArr NumR [1; 3; 9]) = PArr NumR [1; 3] /\
  constant_at 2 7 (elems ex_X3 ++ elems ex_Xs3)%list /\ fits "matern52" ex_X3 3 /\ fits "matern52" ex_Xs3 3 /\
  regression "matern52" ex_hyps3 3 (PArr NumR [1; 3; 9]) 2 (1 / 10)
    (fun e e' => base_kernel matern52_profile (PArr NumR [1; 3; 9]) 2 3 (point e) (point e')) ex_prior ex_m /\
  isometric (PFloat NumR 1) 2 (PFloat NumR 1) 2 [EPoint [2; 5]; EPoint [0; 1]] [EPoint [-5; 2]; EPoint [-1; 0]].
Proof.
  split; [reflexivity|]. split; [reflexivity|]. split; [reflexivity|].
  split; [intros e x I J; cbn in I; destruct I as [<-|[<-|[<-|[<-|[<-|[]]]]]]; destruct J as [<-|[]]; reflexivity|].
  split; [split; [intros r [<-|[<-|[<-|[]]]]; reflexivity|split; [discriminate|reflexivity]]|].
  split; [split; [intros r [<-|[<-|[]]]; reflexivity|split; [discriminate|reflexivity]]|].
  split; [split; [repeat split|reflexivity|exact ex_prior_ok]|].
  split; [reflexivity|]. intros [|[|a]] [|[|b]] Ha Hb; cbn in Ha, Hb; try lia; (split; [reflexivity|split; [reflexivity|]]);
    intros [|i] [|j] Hi Hj; cbn in Hi, Hj; try lia; unfold scaled_dist, scaled_sq; cbn; f_equal; field.
Qed.
