(** Property theorems about the BO classes (C16, C61, C63-C67, C70). *)
From Verif Require Import Base Lists Num NumLaws UtilsModel UtilsSpec UtilsProofs HypsModel HypsSpec HypsProofs
  Monad WrapperModel WrapperSpec WrapperProofs BOModel BOSpec BOProofs BOProofs2 View.
From Coq Require Import List ZArith Bool String Lia Arith.
From Flocq Require Import IEEE754.BinarySingleNaN.
Local Open Scope string_scope.

(** ** C16 *)
Theorem construction_iff_compatible :
  forall (N : Num) da ca (a : bo_args N), otherwise_valid N a ->
  (is_ok (bo_init N da ca a) = true <-> fits_surrogate (a_surrogate N a) (a_opt_bo N a)) /\
  (is_ok (bo_init N da ca a) = false -> bo_init N da ca a = Raise AssertionError).
Proof.
  intros N da ca a V. pose proof (bo_init_spec N da ca a V) as H. destruct (bo_init N da ca a) as [m|e]; cbn.
  - destruct H as [H _]. split; [tauto|discriminate].
  - destruct H as [-> H]. split; [split; [discriminate|contradiction]|reflexivity].
Qed.
Print Assumptions construction_iff_compatible.

(** the object that is built has the requested settings *)
Theorem construction_keeps_settings :
  forall (N : Num) da ca (a : bo_args N) m, otherwise_valid N a -> bo_init N da ca a = Ok m ->
  match m with
  | MGP _ o => a_surrogate N a = "gp" /\ In (go_opt_bo N o) ["L-BFGS-B"; "DIRECT"; "CMA-ES"] /\
      o = mkgpo N (a_range N a) (a_cov N a) (a_acq N a) (a_norm N a) (a_ard N a) (a_opt_gp N a) (go_opt_bo N o) (a_msel N a)
  | MTP _ o => a_surrogate N a = "tp" /\ In (to_opt_bo N o) ["L-BFGS-B"; "DIRECT"; "CMA-ES"] /\
      o = mktpo N (a_range N a) (a_cov N a) (a_acq N a) (a_norm N a) (a_ard N a) (a_opt_tp N a) (to_opt_bo N o)
  | MRF _ o => a_surrogate N a = "rf" /\ o = mkrfo N (a_range N a) (a_acq N a) (a_norm N a)
  end.
Proof. intros N da ca a m V H. pose proof (bo_init_spec N da ca a V) as S. rewrite H in S. apply S. Qed.
Print Assumptions construction_keeps_settings.

(** the default acquisition optimizer does not work with the rf surrogate *)
Theorem construction_rf_default_rejected :
  forall (N : Num) da ca (a : bo_args N), otherwise_valid N a -> a_surrogate N a = "rf" -> a_opt_bo N a = "L-BFGS-B" ->
  bo_init N da ca a = Raise AssertionError.
Proof.
  intros N da ca a V S B. destruct (construction_iff_compatible N da ca a V) as [I J]. apply J.
  destruct (is_ok _); [|reflexivity]. destruct (proj1 I eq_refl) as [[_ H]|[[H|H] _]]; congruence.
Qed.
Print Assumptions construction_rf_default_rejected.

Definition ex_args (surrogate opt_bo : string) : bo_args NumF :=
  mkargs NumF [(fofZ 0, fofZ 1); (fofZ (-1), fofZ 1)] 10 surrogate "matern52" "ei" true true "sobol" "sobol" "BFGS" "SLSQP" opt_bo "regular" "ml" 128.
Example construction_case :
  is_ok (bo_init NumF true false (ex_args "gp" "CMA-ES")) = true /\
  is_ok (bo_init NumF true false (ex_args "rf" "random_search")) = true /\
  err (bo_init NumF true false (ex_args "rf" "L-BFGS-B")) = Some AssertionError /\
  err (bo_init NumF true false (ex_args "tp" "random_search")) = Some AssertionError.
Proof. vm_compute. auto. Qed.
Example otherwise_valid_case : otherwise_valid NumF (ex_args "rf" "L-BFGS-B").
Proof.
  unfold otherwise_valid, ex_args. cbn [a_range a_num_iter a_surrogate a_cov a_acq a_norm a_ard a_init
    a_samp a_opt_gp a_opt_tp a_opt_bo a_mlm a_msel a_num_samples].
  split; [repeat constructor|]. repeat (split; [first [lia|cbn; tauto]|]). cbn; tauto.
Qed.

Section Oracles.
Context (N : Num) (O : NumOrd N) (W K : Type).
Context (get_samples : string -> Z -> option Z -> W -> W * res (list (list N))).
Context (lbfgsb : (list N -> res N) -> list N -> list (N * N) -> W -> W * res (list N)).
Context (direct : (list N -> res N) -> list (N * N) -> W -> W * res (list N)).
Context (cma : (list N -> res N) -> list N -> list (N * N) -> W -> W * res (list N)).
Context (time_ : W -> W * N).
Context (fit : mat N -> list N -> string -> string -> string -> bool -> W -> W * res (K * K * dict N)).
Context (kernel_inverse : mat N -> dict N -> string -> res (K * K)).
Context (neg_log_ml : mat N -> list N -> list N -> string -> bool -> res N).
Context (acq : string -> string -> mat N -> list N -> K -> K -> dict N -> list (list N) -> res (list N)).
Notation gp_optimize := (gp_optimize N W K get_samples lbfgsb direct cma time_ fit kernel_inverse neg_log_ml acq).
Context (tfit : mat N -> list N -> string -> string -> bool -> W -> W * res (K * K * dict N)).
Notation tp_optimize := (tp_optimize N W K get_samples lbfgsb direct cma time_ tfit acq).
Context (T : Type) (get_trees : mat N -> list N -> W -> W * res T).
Context (tacq : string -> mat N -> list N -> T -> list (list N) -> res (list N)).
Notation rf_optimize := (rf_optimize N W get_samples time_ T get_trees tacq).

(** ** C61 *)
(** optimize of each class never proposes or offers a point outside the search space *)
Theorem gp_proposals_inside o X Y samp num mlm seed s w s' w' t np gi :
  gp_optimize o X Y samp num mlm seed (s, w) = ((s', w'), t, Ok (np, gi)) ->
  inside N (go_range N o) np /\ Forall (inside N (go_range N o)) (mrows (gi_points N K gi)).
Proof. intros H. apply gp_optimize_ok in H; [|exact O]. tauto. Qed.
Theorem tp_proposals_inside o X Y samp num seed s w s' w' t np gi :
  tp_optimize o X Y samp num seed (s, w) = ((s', w'), t, Ok (np, gi)) ->
  inside N (to_range N o) np /\ Forall (inside N (to_range N o)) (mrows (gi_points N K gi)).
Proof. intros H. apply tp_optimize_ok in H; [|exact O]. tauto. Qed.
Theorem rf_proposals_inside o X Y samp num seed sw sw' t np gi :
  rf_optimize o X Y samp num seed sw = (sw', t, Ok (np, gi)) ->
  inside N (ro_range N o) np /\ Forall (inside N (ro_range N o)) (mrows (ri_points N T gi)).
Proof. intros H. apply rf_optimize_ok in H. tauto. Qed.

(** so a whole run evaluates and returns only points of the search space *)
Theorem gp_run_inside target clk o samp num mlm num_iter X Y sw sw' t (r : res (run_out N)) :
  class_all_initial N (gp_state N * W) target clk
    (fun X Y => untraced N W (gp_to_info N K) (gp_optimize o X Y samp num mlm None)) num_iter X Y sw = (sw', t, r) ->
  Forall (inside N (go_range N o)) (mrows X) ->
  (forall x rt, In (EvTarget x rt) t -> inside N (go_range N o) x) /\
  (forall out, r = Ok out -> Forall (inside N (go_range N o)) (mrows (ro_X out))).
Proof. apply run_inside; [exact O|]. apply gp_keeps_inside. exact O. Qed.
Theorem tp_run_inside target clk o samp num num_iter X Y sw sw' t (r : res (run_out N)) :
  class_all_initial N (list (dict N) * W) target clk
    (fun X Y => untraced N W (gp_to_info N K) (tp_optimize o X Y samp num None)) num_iter X Y sw = (sw', t, r) ->
  Forall (inside N (to_range N o)) (mrows X) ->
  (forall x rt, In (EvTarget x rt) t -> inside N (to_range N o) x) /\
  (forall out, r = Ok out -> Forall (inside N (to_range N o)) (mrows (ro_X out))).
Proof. apply run_inside; [exact O|]. apply tp_keeps_inside. exact O. Qed.
Theorem rf_run_inside target clk o samp num num_iter X Y sw sw' t (r : res (run_out N)) :
  class_all_initial N (unit * W) target clk
    (fun X Y => untraced N W (rf_to_info N) (rf_optimize o X Y samp num None)) num_iter X Y sw = (sw', t, r) ->
  Forall (inside N (ro_range N o)) (mrows X) ->
  (forall x rt, In (EvTarget x rt) t -> inside N (ro_range N o) x) /\
  (forall out, r = Ok out -> Forall (inside N (ro_range N o)) (mrows (ro_X out))).
Proof. apply run_inside; [exact O|]. apply rf_keeps_inside. Qed.

(** ** C63 *)
(** the acquisition of a batch is the list of the acquisitions of its points *)
Definition pointwise (g : list (list N) -> res (list N)) : Prop :=
  forall pts l, g pts = Ok l -> Forall2 (fun p v => g [p] = Ok [v]) pts l.

Lemma pointwise_negacq g pts vs acqs : pointwise g ->
  rmap (negacq N) (g pts) = Ok acqs -> Forall2 (fun c v => rmap (negacq N) (g [c]) = Ok [v]) pts vs -> vs = acqs.
Proof.
  intros P H F. destruct (g pts) as [l|e] eqn:E; [|discriminate]. apply P in E. cbn in H. apply Ok_inj in H. subst acqs.
  revert vs F. induction E as [|p v pts l Hp E IH]; intros vs F; inversion F; subst; [reflexivity|].
  cbn [negacq map]. f_equal; [|apply IH; assumption].
  match goal with H : rmap _ _ = Ok [_] |- _ => rewrite Hp in H; cbn in H; now inversion H end.
Qed.

Theorem gp_proposal_minimises o X Y samp num mlm seed s w s' w' t np gi :
  (forall a c X Y m i h, pointwise (acq a c X Y m i h)) ->
  gp_optimize o X Y samp num mlm seed (s, w) = ((s', w'), t, Ok (np, gi)) ->
  rmap (negacq N) (acq (go_acq N o) (go_cov N o) X (gi_Ynorm N K gi) (gi_cov N K gi) (gi_inv N K gi) (gi_hyps N K gi) (mrows (gi_points N K gi)))
    = Ok (gi_acqs N K gi) /\
  exists k, nth_error (mrows (gi_points N K gi)) k = Some np /\ first_best N (gi_acqs N K gi) k.
Proof.
  intros P H. apply gp_optimize_ok in H; [|exact O]. destruct H as (_ & _ & _ & _ & _ & _ & _ & H). cbv zeta in H. destruct H as (H1 & vs & k & F & A & B).
  split; [exact H1|]. exists k. split; [exact A|]. now rewrite <- (pointwise_negacq _ _ _ _ (P _ _ _ _ _ _ _) H1 F).
Qed.
Theorem tp_proposal_minimises o X Y samp num seed s w s' w' t np gi :
  (forall a c X Y m i h, pointwise (acq a c X Y m i h)) ->
  tp_optimize o X Y samp num seed (s, w) = ((s', w'), t, Ok (np, gi)) ->
  rmap (negacq N) (acq (to_acq N o) (to_cov N o) X (gi_Ynorm N K gi) (gi_cov N K gi) (gi_inv N K gi) (gi_hyps N K gi) (mrows (gi_points N K gi)))
    = Ok (gi_acqs N K gi) /\
  exists k, nth_error (mrows (gi_points N K gi)) k = Some np /\ first_best N (gi_acqs N K gi) k.
Proof.
  intros P H. apply tp_optimize_ok in H; [|exact O]. destruct H as (_ & _ & _ & _ & _ & _ & _ & H). cbv zeta in H. destruct H as (H1 & vs & k & F & A & B).
  split; [exact H1|]. exists k. split; [exact A|]. now rewrite <- (pointwise_negacq _ _ _ _ (P _ _ _ _ _ _ _) H1 F).
Qed.
(** even for an acquisition that is not pointwise, the choice is made on single-point values *)
Theorem gp_proposal_minimises_single_point_values o X Y samp num mlm seed s w s' w' t np gi :
  gp_optimize o X Y samp num mlm seed (s, w) = ((s', w'), t, Ok (np, gi)) ->
  exists vs k, Forall2 (fun c v => rmap (negacq N) (acq (go_acq N o) (go_cov N o) X (gi_Ynorm N K gi) (gi_cov N K gi) (gi_inv N K gi) (gi_hyps N K gi) [c]) = Ok [v])
      (mrows (gi_points N K gi)) vs /\
    nth_error (mrows (gi_points N K gi)) k = Some np /\ first_best N vs k.
Proof. intros H. apply gp_optimize_ok in H; [|exact O]. destruct H as (_ & _ & _ & _ & _ & _ & _ & _ & H). exact H. Qed.

Theorem rf_proposal_minimises o X Y samp num seed sw sw' t np gi :
  rf_optimize o X Y samp num seed sw = (sw', t, Ok (np, gi)) ->
  rmap (negacq N) (tacq (ro_acq N o) X (ri_Ynorm N T gi) (ri_trees N T gi) (mrows (ri_points N T gi))) = Ok (ri_acqs N T gi) /\
  exists k v, nth_error (mrows (ri_points N T gi)) k = Some np /\ nth_error (ri_acqs N T gi) k = Some v /\
    (nisnan N v = true -> forall j x, (j < k)%nat -> nth_error (ri_acqs N T gi) j = Some x -> nisnan N x = false) /\
    (nisnan N v = false ->
       (forall j x, nth_error (ri_acqs N T gi) j = Some x -> nle N v x = true) /\
       (forall j x, (j < k)%nat -> nth_error (ri_acqs N T gi) j = Some x -> nle N x v = false)).
Proof.
  intros H. apply rf_optimize_ok in H. destruct H as (_ & _ & _ & _ & _ & _ & H & k & E & Hk). split; [exact H|].
  apply (npargmin_spec O) in E. destruct E as (v & E & E1 & E2). exists k, v. auto.
Qed.

(** ** C64 *)
Theorem gp_reports_responses o X Y samp num mlm seed s w s' w' t np gi :
  gp_optimize o X Y samp num mlm seed (s, w) = ((s', w'), t, Ok (np, gi)) ->
  gi_Yorig N K gi = Y /\
  (if go_norm N o && negb (mlm =? "converged") then normalize_min_max N Y = Ok (gi_Ynorm N K gi) else gi_Ynorm N K gi = Y) /\
  (** every surrogate fit used the data X and the normalised responses, and so did the reported acquisitions *)
  fits_on N X (gi_Ynorm N K gi) t /\
  rmap (negacq N) (acq (go_acq N o) (go_cov N o) X (gi_Ynorm N K gi) (gi_cov N K gi) (gi_inv N K gi) (gi_hyps N K gi) (mrows (gi_points N K gi)))
    = Ok (gi_acqs N K gi).
Proof. intros H. apply gp_optimize_ok in H; [|exact O]. destruct H as (H1 & H2 & H3 & _ & _ & _ & _ & H4 & _). auto. Qed.
Theorem tp_reports_responses o X Y samp num seed s w s' w' t np gi :
  tp_optimize o X Y samp num seed (s, w) = ((s', w'), t, Ok (np, gi)) ->
  gi_Yorig N K gi = Y /\
  (if to_norm N o then normalize_min_max N Y = Ok (gi_Ynorm N K gi) else gi_Ynorm N K gi = Y) /\
  t = [(to_opt_tp N o, X, gi_Ynorm N K gi)] /\
  rmap (negacq N) (acq (to_acq N o) (to_cov N o) X (gi_Ynorm N K gi) (gi_cov N K gi) (gi_inv N K gi) (gi_hyps N K gi) (mrows (gi_points N K gi)))
    = Ok (gi_acqs N K gi).
Proof. intros H. apply tp_optimize_ok in H; [|exact O]. destruct H as (H1 & H2 & H3 & _ & _ & _ & _ & H4 & _). auto. Qed.
Theorem rf_reports_responses o X Y samp num seed sw sw' t np gi :
  rf_optimize o X Y samp num seed sw = (sw', t, Ok (np, gi)) ->
  ri_Yorig N T gi = Y /\
  (if ro_norm N o then normalize_min_max N Y = Ok (ri_Ynorm N T gi) else ri_Ynorm N T gi = Y) /\
  t = [("rf", X, ri_Ynorm N T gi)] /\
  rmap (negacq N) (tacq (ro_acq N o) X (ri_Ynorm N T gi) (ri_trees N T gi) (mrows (ri_points N T gi))) = Ok (ri_acqs N T gi).
Proof. intros H. apply rf_optimize_ok in H. tauto. Qed.

(** ** C65 *)
Theorem gp_history_grows_by_one o X Y samp num mlm seed s w s' w' t np gi :
  gp_optimize o X Y samp num mlm seed (s, w) = ((s', w'), t, Ok (np, gi)) ->
  gs_hist N s' = (gs_hist N s ++ [Some (gi_hyps N K gi)])%list.
Proof. intros H. apply gp_optimize_ok in H; [|exact O]. tauto. Qed.
Theorem gp_history_never_rewritten o X Y samp num mlm seed s w s' w' t r :
  gp_optimize o X Y samp num mlm seed (s, w) = ((s', w'), t, r) ->
  exists l, gs_hist N s' = (gs_hist N s ++ l)%list /\ (List.length l <= 1)%nat.
Proof. intros H. apply gp_optimize_state in H. tauto. Qed.
Theorem tp_history_grows_by_one o X Y samp num seed s w s' w' t np gi :
  tp_optimize o X Y samp num seed (s, w) = ((s', w'), t, Ok (np, gi)) -> s' = (s ++ [gi_hyps N K gi])%list.
Proof. intros H. apply tp_optimize_ok in H; [|exact O]. tauto. Qed.
Theorem tp_history_never_rewritten o X Y samp num seed s w s' w' t r :
  tp_optimize o X Y samp num seed (s, w) = ((s', w'), t, r) -> exists l, s' = (s ++ l)%list /\ (List.length l <= List.length t <= 1)%nat.
Proof. apply tp_optimize_state. Qed.

(** ** C66 *)
Theorem converged_flag_set_by_test o X Y samp num seed s w s' w' t np gi :
  gs_opt N s = true ->
  gp_optimize o X Y samp num "converged" seed (s, w) = ((s', w'), t, Ok (np, gi)) ->
  check_convergence N (gs_hist N s) (gi_hyps N K gi) (go_cov N o) = Ok (negb (gs_opt N s')).
Proof. intros E H. apply gp_optimize_state in H. destruct H as (_ & _ & _ & _ & H). exact (H eq_refl E np gi eq_refl). Qed.
Theorem converged_flag_never_returns o X Y samp num mlm seed s w s' w' t r :
  gp_optimize o X Y samp num mlm seed (s, w) = ((s', w'), t, r) -> gs_opt N s = false -> gs_opt N s' = false.
Proof. intros H. apply gp_optimize_state in H. tauto. Qed.
Theorem converged_stays_frozen o cs s w pre h s' w' l :
  gs_opt N s = false -> gs_hist N s = (pre ++ [Some h])%list -> Forall (fun c => ca_mlm N c = "converged") cs ->
  do_calls N W K get_samples lbfgsb direct cma time_ fit kernel_inverse neg_log_ml acq o cs (s, w) = ((s', w'), l) ->
  gs_opt N s' = false /\
  (exists k, gs_hist N s' = (gs_hist N s ++ repeat (Some h) k)%list) /\
  Forall (fun tr => fst tr = [] /\ forall np gi, snd tr = Ok (np, gi) -> gi_hyps N K gi = h) l.
Proof. apply gp_frozen. Qed.

(** ** C67 *)
Theorem combined_keeps_better o X Y s w sw' t f :
  gp_surrogate N W K fit kernel_inverse neg_log_ml o "combined" X Y (s, w) = (sw', t, Ok f) ->
  exists w1 w2 f1 f2 vec1 vec2 v1 v2,
    fit X Y (go_cov N o) "BFGS" (go_msel N o) (go_ard N o) w = (w1, Ok f1) /\
    fit X Y (go_cov N o) "Nelder-Mead" (go_msel N o) (go_ard N o) w1 = (w2, Ok f2) /\
    convert_hyps (go_cov N o) (snd f1) true true = Ok vec1 /\ neg_log_ml X Y vec1 (go_cov N o) (go_ard N o) = Ok v1 /\
    convert_hyps (go_cov N o) (snd f2) true true = Ok vec2 /\ neg_log_ml X Y vec2 (go_cov N o) (go_ard N o) = Ok v2 /\
    ((nltinf N v1 = true /\ nlt N v2 v1 = false /\ f = Some f1) \/
     (nltinf N v1 = true /\ nlt N v2 v1 = true /\ f = Some f2) \/
     (nltinf N v1 = false /\ nltinf N v2 = true /\ f = Some f2) \/
     (nltinf N v1 = false /\ nltinf N v2 = false /\ f = None)).
Proof. apply gp_combined. Qed.
End Oracles.
Print Assumptions gp_proposals_inside.
Print Assumptions tp_proposals_inside.
Print Assumptions rf_proposals_inside.
Print Assumptions gp_run_inside.
Print Assumptions tp_run_inside.
Print Assumptions rf_run_inside.
Print Assumptions gp_proposal_minimises.
Print Assumptions tp_proposal_minimises.
Print Assumptions gp_proposal_minimises_single_point_values.
Print Assumptions rf_proposal_minimises.
Print Assumptions gp_reports_responses.
Print Assumptions tp_reports_responses.
Print Assumptions rf_reports_responses.
Print Assumptions gp_history_grows_by_one.
Print Assumptions gp_history_never_rewritten.
Print Assumptions tp_history_grows_by_one.
Print Assumptions tp_history_never_rewritten.
Print Assumptions converged_flag_set_by_test.
Print Assumptions converged_flag_never_returns.
Print Assumptions converged_stays_frozen.
Print Assumptions combined_keeps_better.

(** ** A concrete program for the examples and for C70.
    The world is one bit of entropy.  The sampler is reproducible when seeded and follows the entropy otherwise; the
    optimizer returns its start; fits, target and acquisition are constant functions of their inputs. *)
Definition e_samples (m : string) (n : Z) (seed : option Z) (w : bool) : bool * res (list (list NumF)) :=
  (w, Ok (match seed with
          | Some z => [[fofZ z]]
          | None => if w then [[fofZ 3]; [fofZ 4]] else [[fofZ 5]; [fofZ 4]]
          end)).
Definition e_lbfgsb (f : list NumF -> res NumF) (x : list NumF) (b : list (NumF * NumF)) (w : bool) : bool * res (list NumF) := (w, Ok x).
Definition e_direct (f : list NumF -> res NumF) (b : list (NumF * NumF)) (w : bool) : bool * res (list NumF) := (w, Ok [fofZ 99]).
Definition e_time (w : bool) : bool * NumF := (w, fofZ 0).
Definition e_hyps (s : Z) : dict NumF := [("noise", PFloat NumF (fofZ 1)); ("signal", PFloat NumF (fofZ s)); ("lengthscales", PArr NumF [fofZ 2])].
Definition e_fit (X : mat NumF) (Y : list NumF) (c m s : string) (a : bool) (w : bool) : bool * res (unit * unit * dict NumF) :=
  (w, Ok (tt, tt, e_hyps (if m =? "BFGS" then 1 else 3))).
Definition e_inv (X : mat NumF) (h : dict NumF) (c : string) : res (unit * unit) := Ok (tt, tt).
(** the likelihood is minus the signal: the Nelder-Mead fit is better *)
Definition e_nll (X : mat NumF) (Y v : list NumF) (c : string) (a : bool) : res NumF :=
  match v with s :: _ => Ok (nmul NumF (fofZ (-1)) s) | [] => Raise IndexError end.
(** acquisition: the first coordinate *)
Definition e_acq (a c : string) (X : mat NumF) (Y : list NumF) (k i : unit) (h : dict NumF) (pts : list (list NumF)) : res (list NumF) :=
  mapM (fun p => match p with v :: _ => Ok v | [] => Raise IndexError end) pts.
Definition e_target (x : list NumF) (w : bool) : bool * res NumF := (w, match x with v :: _ => Ok v | [] => Raise IndexError end).
Definition e_obj (ob : string) : gp_obj NumF := mkgpo NumF [(fofZ 0, fofZ 9)] "se" "ei" true true "BFGS" ob "ml".
Definition e_gp ob X Y mlm seed := gp_optimize NumF bool unit e_samples e_lbfgsb e_direct (fun f x => e_direct f) e_time e_fit e_inv e_nll e_acq
  (e_obj ob) X Y "sobol" 2 mlm seed.
Definition e_run seed := gp_whole NumF bool unit e_samples e_lbfgsb e_direct (fun f x => e_direct f) e_time e_fit e_inv e_nll e_acq e_target
  (e_obj "L-BFGS-B") "sobol" "sobol" 2 "regular" 2 1 seed.
Definition rows_of (r : res (run_out NumF)) := rmap (fun o => map (map fview) (mrows (ro_X o))) r.
Definition fz (z : Z) := fview (fofZ z).

(** largest acquisition value among the offered points; proposals outside the box raise *)
Example gp_optimize_case :
  let '(_, t, r) := e_gp "L-BFGS-B" (mkmat [[fofZ 1]; [fofZ 2]] 1) [fofZ 3; fofZ 5] "combined" None (mkgps NumF [] true, true) in
  rmap (fun p => (map fview (fst p), map fview (gi_acqs NumF unit (snd p)), map fview (gi_Ynorm NumF unit (snd p)),
                  rmap (map fview) (convert_hyps "se" (gi_hyps NumF unit (snd p)) true true))) r =
  Ok ([fz 4], [fz (-30); fz (-40)], [fz 0; fz 10], Ok [fz 3; fz 2]) /\ map (fun e => fst (fst e)) t = ["BFGS"; "Nelder-Mead"].
Proof. vm_compute. auto. Qed.
Example gp_outside_case :
  let '(_, t, r) := e_gp "DIRECT" (mkmat [[fofZ 1]; [fofZ 2]] 1) [fofZ 3; fofZ 5] "regular" None (mkgps NumF [] true, true) in
  err r = Some AssertionError.
Proof. vm_compute. auto. Qed.
(** two fits with equal hyperparameters: the second call converges, the third makes no fit *)
Example gp_frozen_case :
  let X := mkmat [[fofZ 1]; [fofZ 2]] 1 in let Y := [fofZ 3; fofZ 5] in
  let '(s1, t1, r1) := e_gp "L-BFGS-B" X Y "converged" None (mkgps NumF [] true, true) in
  let '(s2, t2, r2) := e_gp "L-BFGS-B" X Y "converged" None s1 in
  let '(s3, t3, r3) := e_gp "L-BFGS-B" X Y "converged" None s2 in
  (gs_opt NumF (fst s1), gs_opt NumF (fst s2), gs_opt NumF (fst s3)) = (true, false, false) /\
  (List.length t1, List.length t2, List.length t3) = (1, 1, 0)%nat /\ is_ok r3 = true /\
  List.length (gs_hist NumF (fst s3)) = 3%nat.
Proof. vm_compute. auto 10. Qed.

(** ** C70 *)
(** with a seed the initial rows are the same in any two runs (the sampler being reproducible when seeded) *)
Theorem seeded_initial_rows_reproducible_partial :
  forall (N : Num) (W : Type) fun_target time_ single_iteration get_initials meth num_iter num_init seed (w1 w2 w1' w2' : W) t1 t2 (o1 o2 : run_out N),
  (forall m n z w w', snd (get_initials m n (Some z) w) = snd (get_initials m n (Some z) w')) ->
  class_optimize N W fun_target time_ single_iteration get_initials meth num_iter num_init (Some seed) w1 = (w1', t1, Ok o1) ->
  class_optimize N W fun_target time_ single_iteration get_initials meth num_iter num_init (Some seed) w2 = (w2', t2, Ok o2) ->
  exists X, firstn (nrows X) (mrows (ro_X o1)) = mrows X /\ firstn (nrows X) (mrows (ro_X o2)) = mrows X /\
    List.length (mrows (ro_X o1)) = (nrows X + Z.to_nat num_iter)%nat /\ List.length (mrows (ro_X o2)) = (nrows X + Z.to_nat num_iter)%nat.
Proof.
  intros until o2. intros R H1 H2.
  apply class_optimize_inv in H1. destruct H1 as [((e & H1) & _)|(a1 & b1 & X1 & c1 & _ & G1 & H1)]; [discriminate|].
  apply class_optimize_inv in H2. destruct H2 as [((e & H2) & _)|(a2 & b2 & X2 & c2 & _ & G2 & H2)]; [discriminate|].
  assert (X1 = X2).
  { pose proof (R meth num_init seed a1 a2) as E. rewrite G1, G2 in E. cbn in E. congruence. }
  subst X2. apply initial_inputs_calls in H1, H2.
  destruct H1 as (p1 & A1 & _ & _ & A2 & A3 & _). destruct H2 as (p2 & B1 & _ & _ & B2 & B3 & _).
  exists X1. split; [exact A3|]. split; [exact B3|]. rewrite A1, B1, !map_length. auto.
Qed.
Print Assumptions seeded_initial_rows_reproducible_partial.

(** the rest of the run is not: optimize(seed) calls the surrogate's optimize without the seed *)
Theorem seeded_run_reproducible_refuted :
  exists (N : Num) (W K : Type) get_samples lbfgsb direct cma time_ fit kernel_inverse neg_log_ml acq (fun_target : list N -> W -> W * res N) o
         meth samp num mlm num_iter num_init seed st (w1 w2 : W) s1 s2 t1 t2 (o1 o2 : run_out N),
  (** everything is a function of its arguments, except the sampler when it is not given a seed *)
  (forall m n z w w', snd (get_samples m n (Some z) w) = snd (get_samples m n (Some z) w')) /\
  (forall x w w', snd (fun_target x w) = snd (fun_target x w')) /\
  (forall X Y c m s a w w', snd (fit X Y c m s a w) = snd (fit X Y c m s a w')) /\
  (forall f x b w w', snd (lbfgsb f x b w) = snd (lbfgsb f x b w')) /\
  gp_whole N W K get_samples lbfgsb direct cma time_ fit kernel_inverse neg_log_ml acq fun_target o meth samp num mlm num_iter num_init (Some seed) (st, w1)
    = (s1, t1, Ok o1) /\
  gp_whole N W K get_samples lbfgsb direct cma time_ fit kernel_inverse neg_log_ml acq fun_target o meth samp num mlm num_iter num_init (Some seed) (st, w2)
    = (s2, t2, Ok o2) /\
  ro_X o1 <> ro_X o2.
Proof.
  set (st := mkgps NumF [] true).
  destruct (e_run (Some 1%Z) (st, true)) as [[s1 t1] [o1|e]] eqn:E1; [|exfalso; apply (f_equal snd) in E1; apply (f_equal rows_of) in E1; vm_compute in E1; discriminate E1].
  destruct (e_run (Some 1%Z) (st, false)) as [[s2 t2] [o2|e]] eqn:E2; [|exfalso; apply (f_equal snd) in E2; apply (f_equal rows_of) in E2; vm_compute in E2; discriminate E2].
  exists NumF, bool, unit, e_samples, e_lbfgsb, e_direct, (fun f x => e_direct f), e_time, e_fit, e_inv, e_nll, e_acq, e_target, (e_obj "L-BFGS-B"),
    "sobol", "sobol", 2%Z, "regular", 2%Z, 1%Z, 1%Z, st, true, false, s1, s2, t1, t2, o1, o2.
  split; [reflexivity|]. split; [reflexivity|]. split; [reflexivity|]. split; [reflexivity|]. unfold e_run in E1, E2. split; [exact E1|]. split; [exact E2|].
  apply (f_equal snd) in E1, E2. apply (f_equal rows_of) in E1, E2. cbn [snd rows_of rmap] in E1, E2.
  intros H. rewrite H in E1. rewrite <- E2 in E1.
  apply (f_equal (fun r => match r with Ok (_ :: [SpecFloat.S754_finite _ m _] :: _) => Pos.eqb m 4503599627370496 | _ => true end)) in E1.
  vm_compute in E1. discriminate E1.
Qed.
Print Assumptions seeded_run_reproducible_refuted.
