(** Property theorems about the units of the responses (C82). *)
From Verif Require Import Base Lists Num NumLaws UtilsModel UtilsRProofs HypsModel GPModel LikModel HypOptModel Monad WrapperModel BOModel BOAffineSpec BOAffineProofs
  BOAcqModel BOFullModel BOFullProps View.
From Coq Require Import List ZArith Bool String Lia Lra Arith Reals FunctionalExtensionality.
Import ListNotations.
Unset Asymmetric Patterns.
Set Bullet Behavior "Strict Subproofs".
Local Open Scope string_scope.

(** ** C82 *)
Section Oracles.
Notation N := NumR.
Context (W K : Type).
Context (get_samples : string -> Z -> option Z -> W -> W * res (list (list N))).
Context (lbfgsb : (list N -> res N) -> list N -> list (N * N) -> W -> W * res (list N)).
Context (direct : (list N -> res N) -> list (N * N) -> W -> W * res (list N)).
Context (cma : (list N -> res N) -> list N -> list (N * N) -> W -> W * res (list N)).
Context (time_ : W -> W * N).
Context (fit : mat N -> list N -> string -> string -> string -> bool -> W -> W * res (K * K * dict N)).
Context (kernel_inverse : mat N -> dict N -> string -> res (K * K)).
Context (neg_log_ml : mat N -> list N -> list N -> string -> bool -> res N).
Context (acq : string -> string -> mat N -> list N -> K -> K -> dict N -> list (list N) -> res (list N)).
Context (tfit : mat N -> list N -> string -> string -> bool -> W -> W * res (K * K * dict N)).
Context (T : Type) (get_trees : mat N -> list N -> W -> W * res T).
Context (tacq : string -> mat N -> list N -> T -> list (list N) -> res (list N)).
Notation gp_optimize := (gp_optimize N W K get_samples lbfgsb direct cma time_ fit kernel_inverse neg_log_ml acq).
Notation tp_optimize := (tp_optimize N W K get_samples lbfgsb direct cma time_ tfit acq).
Notation rf_optimize := (rf_optimize N W get_samples time_ T get_trees tacq).

(** one call of optimize: the same world, fits and result; only dict_info's original responses are in the other unit *)
Theorem C82_gp_optimize_affine :
  forall (a b : R) o X Y samp num mlm seed sw sw' t r, (0 < a)%R -> nonconstant Y -> go_norm N o = true -> mlm <> "converged" ->
  gp_optimize o X Y samp num mlm seed sw = (sw', t, r) ->
  gp_optimize o X (map (affine a b) Y) samp num mlm seed sw = (sw', t, rmap (fun p => (fst p, set_gp_responses K (map (affine a b) Y) (snd p))) r).
Proof. intros a b o X Y samp num mlm seed sw sw' t r HA NC HN HM E. rewrite (gp_affine _ _ _ _ _ _ _ _ _ _ _ a b HA o X Y samp num mlm seed NC HN HM sw), E. reflexivity. Qed.
Theorem C82_tp_optimize_affine :
  forall (a b : R) o X Y samp num seed w w' t r, (0 < a)%R -> nonconstant Y -> to_norm N o = true ->
  tp_optimize o X Y samp num seed w = (w', t, r) ->
  tp_optimize o X (map (affine a b) Y) samp num seed w = (w', t, rmap (fun p => (fst p, set_gp_responses K (map (affine a b) Y) (snd p))) r).
Proof. intros a b o X Y samp num seed w w' t r HA NC HN E. rewrite (tp_affine _ _ _ _ _ _ _ _ _ a b HA o X Y samp num seed NC HN w), E. reflexivity. Qed.
Theorem C82_rf_optimize_affine :
  forall (a b : R) o X Y samp num seed w w' t r, (0 < a)%R -> nonconstant Y -> ro_norm N o = true ->
  rf_optimize o X Y samp num seed w = (w', t, r) ->
  rf_optimize o X (map (affine a b) Y) samp num seed w = (w', t, rmap (fun p => (fst p, set_rf_responses (map (affine a b) Y) (snd p))) r).
Proof. intros a b o X Y samp num seed w w' t r HA NC HN E. rewrite (rf_affine _ _ _ _ _ _ a b HA o X Y samp num seed NC HN w), E. reflexivity. Qed.

(** a whole run of BayesianOptimization.optimize evaluates the same points in the same order *)
Context (fun_target : list N -> W -> W * res N).
Notation gp_whole f := (gp_whole N W K get_samples lbfgsb direct cma time_ fit kernel_inverse neg_log_ml acq f).
Theorem C82_gp_run_affine :
  forall (a b : R) o meth samp num mlm num_iter num_init seed sw sw' t r, (0 < a)%R -> go_norm N o = true -> mlm <> "converged" ->
  gp_whole fun_target o meth samp num mlm num_iter num_init seed sw = (sw', t, Ok r) -> nonconstant (first_responses num_iter r) ->
  gp_whole (affine_target a b fun_target) o meth samp num mlm num_iter num_init seed sw = (sw', map (affine_event a b) t, Ok (affine_run a b r)).
Proof.
  intros a b o meth samp num mlm num_iter num_init seed sw sw' t r HA HN HM H NC. unfold BOModel.gp_whole in *.
  replace (fun x : list N => @onsnd W (gp_state N) _ (affine_target a b fun_target x)) with (affine_target a b (fun x : list N => @onsnd W (gp_state N) _ (fun_target x))).
  - apply class_optimize_affine; [|exact H|exact NC]. intros X Y w NCY. unfold gp_iteration, untraced.
    rewrite (gp_affine _ _ _ _ _ _ _ _ _ _ _ a b HA o X Y samp num mlm None NCY HN HM w).
    destruct (gp_optimize o X Y samp num mlm None w) as [[s' t'] [[p g]|e]]; reflexivity.
  - extensionality x. extensionality q. unfold affine_target, onsnd. destruct (fun_target x (snd q)). reflexivity.
Qed.
Theorem C82_tp_run_affine :
  forall (a b : R) (target : list N -> list (dict N) * W -> (list (dict N) * W) * res N) clock_ get_initials o meth samp num num_iter num_init seed sw sw' t r,
  let run f := class_optimize N (list (dict N) * W) f clock_ (fun X Y => untraced N W (gp_to_info N K) (tp_optimize o X Y samp num None)) get_initials meth num_iter num_init seed in
  (0 < a)%R -> to_norm N o = true -> run target sw = (sw', t, Ok r) -> nonconstant (first_responses num_iter r) ->
  run (affine_target a b target) sw = (sw', map (affine_event a b) t, Ok (affine_run a b r)).
Proof.
  intros a b target clock_ get_initials o meth samp num num_iter num_init seed sw sw' t r run HA HN H NC. unfold run in *.
  apply class_optimize_affine; [|exact H|exact NC]. intros X Y w NCY. unfold untraced.
  rewrite (tp_affine _ _ _ _ _ _ _ _ _ a b HA o X Y samp num None NCY HN w). destruct (tp_optimize o X Y samp num None w) as [[s' t'] [[p g]|e]]; reflexivity.
Qed.
Theorem C82_rf_run_affine :
  forall (a b : R) (target : list N -> unit * W -> (unit * W) * res N) clock_ get_initials o meth samp num num_iter num_init seed sw sw' t r,
  let run f := class_optimize N (unit * W) f clock_ (fun X Y => untraced N W (rf_to_info N) (rf_optimize o X Y samp num None)) get_initials meth num_iter num_init seed in
  (0 < a)%R -> ro_norm N o = true -> run target sw = (sw', t, Ok r) -> nonconstant (first_responses num_iter r) ->
  run (affine_target a b target) sw = (sw', map (affine_event a b) t, Ok (affine_run a b r)).
Proof.
  intros a b target clock_ get_initials o meth samp num num_iter num_init seed sw sw' t r run HA HN H NC. unfold run in *.
  apply class_optimize_affine; [|exact H|exact NC]. intros X Y w NCY. unfold untraced.
  rewrite (rf_affine _ _ _ _ _ _ a b HA o X Y samp num None NCY HN w). destruct (rf_optimize o X Y samp num None w) as [[s' t'] [[p g]|e]]; reflexivity.
Qed.
End Oracles.
Print Assumptions C82_gp_optimize_affine.
Print Assumptions C82_tp_optimize_affine.
Print Assumptions C82_rf_optimize_affine.
Print Assumptions C82_gp_run_affine.
Print Assumptions C82_tp_run_affine.
Print Assumptions C82_rf_run_affine.

(** Constant responses are left as they are, so there the unit matters: subtracting 2 from the only response moves the proposal. *)
Section Cases.
Notation F := (car NumF).
Definition norm_gp (acq : string) := gp_optimize_full (N := NumF) ex_exp (fun x => x) (fun x => x) (fun x => x) (nofZ NumF 3) ex_inv (fun m => Ok m) (fun _ b => Ok b)
  (fun _ => (nofZ NumF 1, nofZ NumF 0)) (W := unit) (fun _ _ _ w => (w, Ok ex_points)) (fun _ x0 _ w => (w, Ok x0)) (fun _ _ w => (w, Raise ValueError))
  (fun _ x0 _ w => (w, Ok x0)) (fun w => (w, nofZ NumF 0)) (fun _ _ start _ _ _ => Ok start) (fun _ _ _ w => w) None
  (mkgpo NumF [(nofZ NumF 0, nofZ NumF 1)] "se" acq true true "BFGS" "L-BFGS-B" "ml").
Definition proposal (r : (gp_state NumF * unit) * list (fitev NumF) * res (list F * gp_info NumF (list (list F)))) : res (list _) :=
  match r with (_, _, r) => rmap (fun p => map fview (fst p)) r end.
Theorem C82_constant_responses_refuted :
  exists (Y : list F) (sw : gp_state NumF * unit), let Y' := map (fun y => nsub NumF y (nofZ NumF 2)) Y in
  proposal (norm_gp "pure_exploit" ex_X Y "sobol" 3 "regular" None sw) = Ok [fview (nlit NumF 3 4)] /\
  proposal (norm_gp "pure_exploit" ex_X Y' "sobol" 3 "regular" None sw) = Ok [fview (nlit NumF 1 4)] /\
  fview (nlit NumF 3 4) <> fview (nlit NumF 1 4).
Proof. exists [nofZ NumF 1], (mkgps NumF [] true, tt). vm_compute. repeat split; try reflexivity. discriminate. Qed.
(** two responses are enough for the theorems above *)
Example affine_case : nonconstant [2; 5]%R /\ map (affine 3 (-4)) [2; 5]%R = [2; 11]%R /\
  normalize_min_max NumR [2; 11]%R = normalize_min_max NumR [2; 5]%R.
Proof.
  assert (NC : nonconstant [2; 5]%R) by (exists 2%R, 5%R; cbn; repeat split; auto; lra).
  assert (E : map (affine 3 (-4)) [2; 5]%R = [2; 11]%R) by (cbn; unfold affine; f_equal; [lra|f_equal; lra]).
  split; [exact NC|]. split; [exact E|]. rewrite <- E. apply affine_normalized; [lra|exact NC].
Qed.
End Cases.
Print Assumptions C82_constant_responses_refuted.
