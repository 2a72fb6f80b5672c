(** A run in units in which the search space is narrower than 10^-8, for C126. *)
From Verif Require Import Base Lists Num NumLaws UtilsModel UtilsRProofs Monad HypsModel CovModel GPModel LikModel HypOptModel AcqModel TreesModel TreesSpec TreesUnitsSpec
  SamplingModel WrapperModel BOModel BOAcqModel BOFullModel BOProgram BOTotalSpec MoveSpec MoveSamplers.
From Coq Require Import List ZArith Bool String Lia Lra Arith Reals.
From Flocq Require Import Core.Raux.
Import ListNotations.
Unset Asymmetric Patterns.
Set Bullet Behavior "Strict Subproofs".
Local Open Scope R_scope.
Local Open Scope string_scope.
Notation N := NumR.

Definition w_mk (seed : option Z) (w : unit) : unit * res unit := (w, Ok tt).
Definition w_draw (g : unit) : unit * N := (g, 0 : N).
(** initial points are the centre of the search space, candidates its upper corner *)
Definition w_qmc (k : qmc_kind) (d : nat) (seed : option Z) (num : Z) (w : unit) : unit * res (list (list N)) :=
  (w, Ok (repeat (repeat ((match k with Sobol => / 2 | Halton => 1 end) : N) d) (Z.to_nat num))).
Definition w_samples := get_samples N w_mk w_draw w_draw w_qmc.
Definition w_args (s : R) : bo_args N := mkargs N [(0, s)] 1 "rf" "eq" "ei" true true "sobol" "halton" "BFGS" "SLSQP" "random_search" "regular" "ml" 1.
Lemma w_qmc_rows : qmc_rows w_qmc.
Proof. intros k d seed num w w' s H. injection H as _ <-. apply Forall_forall. intros x Hx. apply repeat_spec in Hx. subst x. apply repeat_length. Qed.
Lemma w_proper (r : list (R * R)) : r <> [] -> sound_range r -> proper_samples r (w_samples r).
Proof.
  apply samplers_proper.
  - intros seed w. exists w, tt. reflexivity.
  - intros g. cbn. lra.
  - intros k d seed num w. eexists _, _. split; [reflexivity|]. split; [apply repeat_length|]. apply Forall_forall. intros x Hx. apply repeat_spec in Hx. subst x. split; [apply repeat_length|].
    apply Forall_forall. intros u Hu. apply repeat_spec in Hu. subst u. destruct k; lra.
Qed.
Lemma w_init s : 0 <= s -> bo_init N true true (w_args s) = Ok (MRF N (mkrfo N [(0, s)] "ei" true)).
Proof.
  intros H. unfold bo_init, rf_init, base_init, w_args. cbn [a_range a_num_iter a_surrogate a_cov a_acq a_norm a_ard a_init a_samp a_opt_gp a_opt_tp a_opt_bo a_mlm a_msel a_num_samples].
  assert (RO : range_ok N [(0, s)] = true) by (unfold range_ok; cbn [forallb fst snd nle NumR]; now rewrite Rle_bool_true).
  rewrite RO. reflexivity.
Qed.
Lemma w_sobol s w : w_samples [(0, s)] "sobol" 1 None w = (w, Ok [[/ 2 * (s - 0) + 0]]).
Proof. reflexivity. Qed.
Lemma w_halton s w : w_samples [(0, s)] "halton" 1 None w = (w, Ok [[1 * (s - 0) + 0]]).
Proof. reflexivity. Qed.

Section Run.
Context (cdf pdf nlog : N -> N) (choice : nat -> nat -> bool -> unit -> unit * res (list nat)) (uniform : N -> N -> unit -> unit * res N) (trunc : N -> option Z) (schedule : nat -> list nat) (time_ : unit -> unit * N).
Lemma w_proposal s X Y sw sw' t p g :
  rf_optimize_full nlog cdf pdf (w_samples [(0, s)]) time_ choice uniform trunc schedule (mkrfo N [(0, s)] "ei" true) X Y "halton" 1 None sw = (sw', t, Ok (p, g)) ->
  p = [1 * (s - 0) + 0] /\ ri_points N _ g = mkmat [[1 * (s - 0) + 0]] 1.
Proof.
  intros H. unfold rf_optimize_full, rf_optimize in H. repeat (apply bind_ok in H; destruct H as (?w & ?t & ?a & ?t & ?H & H & _)).
  apply ret_ok in H as (H & _ & _). unfold onW, ext in H11. rewrite w_halton in H11. injection H11 as _ _ <-. apply lift_ok in H12 as (H12 & _ & _). injection H12 as <-.
  apply lift_ok in H13 as (H13 & _ & _). assert (E : a12 = mkmat [[1 * (s - 0) + 0]] 1).
  { unfold check_points_in_bounds in H13. do 3 (destruct (assert_ _) in H13; [|discriminate]; cbn [rbind] in H13). injection H13 as <-. reflexivity. }
  subst a12. apply lift_ok in H16 as (H16 & _ & _). injection H as <- <-. split; [|reflexivity]. cbn [mrows] in H16.
  destruct a14 as [|k]; [injection H16 as <-; reflexivity|]. cbn in H16. destruct k; discriminate.
Qed.

Notation lower s := [/ 2 * (s - 0) + 0 : N].
Notation upper s := [1 * (s - 0) + 0 : N].
Lemma norm1 (u v : R) : nnorm N (vsub N [u] [v]) = Rabs (u - v).
Proof. unfold nnorm, vsub, nsum. cbn. rewrite Rplus_0_l. apply sqrt_Rsqr_abs. Qed.
Lemma w_next s p di X (H1 : mrows X = [lower s]) (H2 : mcols X = 1%nat) (H3 : p = upper s) (H4 : in_points di = mkmat [upper s] 1) o :
  0 < s -> get_next_best_sample N p X (in_points di) (in_acqs di) = Ok o ->
  o = Some (if Rlt_bool (s / 2) (/ 100000000) then lower s else upper s).
Proof.
  intros HS H. subst p. unfold get_next_best_sample in H. rewrite H2, H4 in H. cbn [List.length Nat.eqb negb] in H. rewrite H1 in H. cbn [existsb] in H.
  assert (EN : nlt N (nnorm N (vsub N (upper s) (lower s))) (tol_dup N) = Rlt_bool (s / 2) (/ 100000000)).
  { rewrite norm1. replace (Rabs _) with (s / 2) by (rewrite Rabs_pos_eq; lra). cbn [nlt NumR tol_dup nlit]. f_equal. unfold tol_dup. cbn. lra. }
  rewrite EN in H. rewrite orb_false_r in H. destruct (Rlt_bool (s / 2) (/ 100000000)) eqn:EB; [|injection H as <-; reflexivity].
  unfold get_next_best_acquisition in H. rewrite H1 in H. cbn [mrows] in H. do 2 (destruct (assert_ _) in H; [|discriminate]; cbn [rbind] in H).
  destruct (in_acqs di) as [|v l]; cbn [combine] in H.
  - cbn in H. injection H as <-. reflexivity.
  - unfold drop_dups in H. cbn [fold_left filter fst] in H. unfold is_dup in H. rewrite EN in H. cbn [negb] in H. cbn in H. injection H as <-. reflexivity.
Qed.

Context (nexp : N -> N) (npi : N) (inv chol : list (list N) -> res (list (list N))) (cho_solve : list (list N) -> list (list N) -> res (list (list N))) (slogdet : list (list N) -> N * N)
  (ngamma ndigamma : N -> N) (lbfgsb : (list N -> res N) -> list N -> list (N * N) -> unit -> unit * res (list N)) (direct : (list N -> res N) -> list (N * N) -> unit -> unit * res (list N))
  (cma : (list N -> res N) -> list N -> list (N * N) -> unit -> unit * res (list N)) (minimize : unit -> minimizer N) (aft : mat N -> list N -> string -> unit -> unit) (prior_mu : prior N)
  (f : list N -> unit -> unit * res N).
Lemma w_rows s w' t r : 0 < s ->
  bo_program N nexp nlog cdf pdf npi inv chol cho_solve slogdet ngamma ndigamma unit (w_samples [(0, s)]) lbfgsb direct cma time_ minimize aft prior_mu choice uniform trunc schedule
    f true true (w_args s) 1 None tt = (w', t, Ok r) ->
  mrows (ro_X r) = [lower s; if Rlt_bool (s / 2) (/ 100000000) then lower s else upper s].
Proof.
  intros HS H. unfold bo_program in H. rewrite (w_init s (Rlt_le _ _ HS)) in H. cbn [w_args a_init a_num_iter a_samp a_num_samples] in H. unfold forget in H.
  destruct (run_class _ _ _ _ _ _ _ _ _ _ _) as [[sw t'] [r'|e]] eqn:ER in H; [|discriminate]. injection H as _ _ <-. unfold run_class, class_optimize in ER.
  repeat (apply bind_ok in ER; destruct ER as (?w & ?t & ?a & ?t & ?H & ER & _)). apply ret_ok in ER as (<- & _ & _).
  apply ext_ok in H1 as (H1 & _). unfold onsnd, BOModel.get_initials in H1. rewrite w_sobol in H1. cbn [fst snd rbind] in H1. injection H1 as _ <-.
  unfold class_initial_inputs in H2. repeat (apply bind_ok in H2; destruct H2 as (?w & ?t & ?a & ?t & ?H & H2 & _)). apply ret_ok in H2 as (<- & _ & _). cbn [ro_X].
  unfold class_all_initial in H4. repeat (apply bind_ok in H4; destruct H4 as (?w & ?t & ?a & ?t & ?H & H4 & _)). apply ret_ok in H4 as (<- & _ & _).
  change (Z.to_nat 1) with 1%nat in H6. cbn [class_loop] in H6. apply bind_ok in H6. destruct H6 as (? & ? & q & ? & HS1 & H6 & _). destruct q as [[[[X' Y'] c1] c2] c3]. apply ret_ok in H6 as (<- & _ & _). cbn [ro_X].
  unfold class_step in HS1. apply bind_ok in HS1; destruct HS1 as (? & ? & ? & ? & _ & HS1 & _). apply bind_ok in HS1; destruct HS1 as (? & ? & [p di] & ? & HM & HS1 & _).
  apply bind_ok in HS1; destruct HS1 as (? & ? & o & ? & HO & HS1 & _). apply lift_ok in HO as (HO & _ & _).
  apply bind_ok in HS1; destruct HS1 as (? & ? & [X2 xx] & ? & HV & HS1 & _). apply lift_ok in HV as (HV & _ & _).
  repeat (apply bind_ok in HS1; destruct HS1 as (? & ? & ? & ? & _ & HS1 & _)). apply ret_ok in HS1 as (HS1 & _ & _). injection HS1 as <- _ _ _ _.
  apply ext_ev_inv in HM as (HM & _). unfold rf_single, untraced in HM. destruct (rf_optimize_full _ _ _ _ _ _ _ _ _ _ _ _ _ _ _ _) as [[swb tb] [[p' g]|e]] eqn:EO in HM; [|discriminate].
  cbn [rmap fst snd] in HM. injection HM as _ <- <-. apply w_proposal in EO as (E1 & E2).
  eapply (w_next s) in HO; [|reflexivity|reflexivity|exact E1|exact E2|exact HS]. subst o. unfold vstack_row in HV. cbn [mcols mrows] in HV.
  destruct (Rlt_bool _ _); cbn in HV; injection HV as <- _; reflexivity.
Qed.
End Run.
