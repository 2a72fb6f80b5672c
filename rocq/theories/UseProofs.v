(** Every call of every method of an accepted object returns, whatever was done with the object before. *)
From Verif Require Import Base Lists Num NumLaws NumFin Monad UtilsModel UtilsSpec HypsModel CovModel CovSpec Contracts GPModel GPSpec LikModel LikSpec HypOptModel
  AcqModel TreesModel TreesSpec WrapperModel BOModel BOAcqModel BOAcqSpec BOFullModel BOProgram BOObject ResumeSpec ResumeObject BOTotalSpec BOTotalProofs BOTotalRun BOTotalClass BOTotalOpt BOTotalFull UseSpec.
From Coq Require Import List ZArith Bool String Reals Lra Lia Arith.
Import ListNotations.
Unset Asymmetric Patterns.
Set Bullet Behavior "Strict Subproofs".
Set Implicit Arguments.
Unset Strict Implicit.
Local Open Scope string_scope.
Notation N := NumR.

Section Uses.
Context (cdf pdf : R -> R).
Notation mx := (list (list R)).
Context (inv chol : mx -> res mx) (cho_solve : mx -> mx -> res mx) (slogdet : mx -> R * R) (gamma digamma : R -> R).
Context (W : Type).
Context (get_samples : string -> Z -> option Z -> W -> W * res (list (list N))).
Context (lbfgsb : (list N -> res N) -> list N -> list (N * N) -> W -> W * res (list N)).
Context (direct : (list N -> res N) -> list (N * N) -> W -> W * res (list N)).
Context (cma : (list N -> res N) -> list N -> list (N * N) -> W -> W * res (list N)).
Context (time_ : W -> W * N).
Context (minimize : W -> minimizer N) (after : mat N -> list N -> string -> W -> W).
Context (pm : prior N) (m : elem -> R).
Context (choice : nat -> nat -> bool -> W -> W * res (list nat)) (uniform : N -> N -> W -> W * res N) (trunc : N -> option Z)
  (schedule : nat -> list nat).
Context (target : list N -> W -> W * res N).
Hypotheses (HI : inv_contract inv) (HC : chol_contract chol) (HS : cho_solve_contract cho_solve) (HD : slogdet_contract slogdet)
  (HM : forall w, proper_minimizer (minimize w)) (HP : prior_is pm m).
Hypotheses (HL : proper_from lbfgsb) (HDI : proper_direct direct) (HCM : proper_from cma).
Hypotheses (CC : choice_contract choice) (CT : choice_total choice) (UT : uniform_total NumR uniform) (UC : uniform_contract NumR uniform)
  (TI : int_of_integers trunc) (CS : completes schedule).
Context (a : bo_args N).
Hypotheses (HG : proper_samples (a_range N a) get_samples) (HT : returns_in (a_range N a) target).

Notation osingle := (object_single N exp ln cdf pdf PI inv chol cho_solve slogdet gamma digamma W get_samples lbfgsb direct cma time_ minimize after pm choice uniform trunc schedule).

(** an object as the constructor leaves it, with usable stored hyperparameters *)
Definition object_ok (ob : bo_object N) : Prop :=
  ob_args N ob = a /\ In (a_init N a) ["sobol"; "halton"; "uniform"; "gaussian"] /\
  In (a_samp N a) ["grid"; "sobol"; "halton"; "uniform"; "gaussian"] /\ (0 < a_num_samples N a)%Z /\
  match ob with
  | GPObject _ o s => gp_valid o /\ go_range N o = a_range N a /\ In (a_mlm N a) ["regular"; "combined"; "converged"] /\
      gp_inv (good_hyps (go_cov N o) (List.length (go_range N o)) (go_ard N o)) s
  | TPObject _ o _ => tp_valid o /\ to_range N o = a_range N a
  | RFObject _ o => rf_valid o /\ ro_range N o = a_range N a
  end.

Lemma new_ok da ca ob : new_object N da ca a = Ok ob -> usable_options a -> object_ok ob.
Proof.
  unfold new_object. destruct (bo_init N da ca a) as [M0|] eqn:EI; [|discriminate]. cbn [rbind]. intros EN (U1 & U2 & U3). injection EN as <-.
  unfold bo_init in EI. apply assert_ok in EI as (R0 & EI). apply assert_ok in EI as (_ & EI). apply assert_ok in EI as (NS & EI). apply Z.ltb_lt in NS.
  apply assert_ok in EI as (_ & EI). apply assert_ok in EI as (_ & EI). apply assert_ok in EI as (_ & EI). apply assert_ok in EI as (IM & EI).
  apply assert_ok in EI as (SM & EI). apply samplers_known in SM. apply assert_ok in EI as (_ & EI). apply assert_ok in EI as (_ & EI). apply assert_ok in EI as (_ & EI).
  apply assert_ok in EI as (ML & EI). apply assert_ok in EI as (_ & EI).
  assert (IM' : In (a_init N a) ["sobol"; "halton"; "uniform"; "gaussian"]).
  { destruct (initials_known IM) as (Q1 & Q2). destruct Q1 as [Q1|Q1]; [congruence|exact Q1]. }
  destruct (check_optimizer_method_bo _ _ _ _) as [obo|]; [|discriminate]. cbn [rbind] in EI.
  destruct (str_in (a_surrogate N a) ALLOWED_SURROGATE_TREES) eqn:ES.
  - destruct (rf_init _ _ _ _ _ _ _ _) as [o|] eqn:EO; [|discriminate]. cbn in EI. injection EI as <-. destruct (rf_init_valid EO U1) as (V & ER).
    do 4 (split; [first [reflexivity|assumption]|]). split; assumption.
  - assert (NRF : a_surrogate N a <> "rf") by (intros Q; rewrite Q in ES; discriminate).
    assert (BK : In (a_cov N a) base_kernels) by (destruct U2; [contradiction|assumption]).
    destruct (a_surrogate N a =? "gp") eqn:EG.
    + apply String.eqb_eq in EG. destruct (gp_init _ _ _ _ _ _ _ _ _ _ _) as [o|] eqn:EO; [|discriminate]. cbn in EI. injection EI as <-.
      destruct (gp_init_valid EO BK (U3 EG)) as (V & ER).
      do 4 (split; [first [reflexivity|assumption]|]). split; [exact V|]. split; [exact ER|]. split; [exact (str_in_In ML)|]. split; [constructor|discriminate].
    + destruct (a_surrogate N a =? "tp"); [|discriminate]. destruct (tp_init _ _ _ _ _ _ _ _ _ _) as [o|] eqn:EO; [|discriminate]. cbn in EI. injection EI as <-.
      destruct (tp_init_valid EO BK) as (V & ER). do 4 (split; [first [reflexivity|assumption]|]). split; assumption.
Qed.

Lemma object_returns : @single_returns (bo_object N) W (a_range N a) osingle object_ok.
Proof.
  intros X Y ob w D (EA & IM & SM & NS & V). destruct ob as [a' o s|a' o s|a' o]; cbn [ob_args] in EA; subst a'; cbn [object_single].
  - destruct V as (V & ER & ML & IV). assert (HG' := HG). rewrite <- ER in D, HG'.
    destruct (untraced_total (gp_to_info N mx) (@gp_full_runs cdf pdf inv chol cho_solve slogdet gamma digamma W get_samples lbfgsb direct cma time_ minimize after pm m
      HI HC HS HD HM HP HL HDI HCM o X Y (a_samp N a) (a_num_samples N a) (a_mlm N a) None s w V HG' D SM NS ML IV)) as (s' & w' & p & g & E & IV' & PO & LA).
    exists (GPObject a o s'), w', p, (gp_to_info N mx g). split; [exact (f_equal (fun z : gp_state N * W * res (list N * info N) => match z with ((s1, w1), r) => ((GPObject a o s1, w1), r) end) E)|]. split; [do 4 (split; [first [reflexivity|assumption]|]); auto|].
    rewrite <- ER. split; [exact PO|exact LA].
  - destruct V as (V & ER). assert (HG' := HG). rewrite <- ER in D, HG'.
    destruct (untraced_total (gp_to_info N mx) (@tp_full_runs cdf pdf inv slogdet gamma digamma W get_samples lbfgsb direct cma time_ minimize after pm m
      HI HD HM HP HL HDI HCM o X Y (a_samp N a) (a_num_samples N a) None s w V HG' D SM NS)) as (s' & w' & p & g & E & PO & LA).
    exists (TPObject a o s'), w', p, (gp_to_info N mx g). split; [exact (f_equal (fun z : list (dict N) * W * res (list N * info N) => match z with ((s1, w1), r) => ((TPObject a o s1, w1), r) end) E)|]. split; [do 4 (split; [first [reflexivity|assumption]|]); auto|].
    rewrite <- ER. split; [exact PO|exact LA].
  - destruct V as (V & ER). assert (HG' := HG). rewrite <- ER in D, HG'.
    destruct (untraced_total (@rf_to_info N (list (tree N))) (@rf_full_runs cdf pdf W get_samples time_ choice uniform trunc schedule
      CC CT UT UC TI CS o X Y (a_samp N a) (a_num_samples N a) None (tt, w) V HG' D SM NS)) as (s' & w' & p & g & E & PO & LA).
    exists (RFObject a o), w', p, (rf_to_info N g). split; [exact (f_equal (fun z : unit * W * res (list N * info N) => match z with ((s1, w1), r) => ((RFObject a o, w1), r) end) E)|]. split; [do 4 (split; [first [reflexivity|assumption]|]); auto|].
    rewrite <- ER. split; [exact PO|exact LA].
Qed.

Notation oall := (object_all_initial N exp ln cdf pdf PI inv chol cho_solve slogdet gamma digamma W get_samples lbfgsb direct cma time_ minimize after pm choice uniform trunc schedule target).
Notation oinputs := (object_initial_inputs N exp ln cdf pdf PI inv chol cho_solve slogdet gamma digamma W get_samples lbfgsb direct cma time_ minimize after pm choice uniform trunc schedule target).
Notation ooptimize := (object_optimize N exp ln cdf pdf PI inv chol cho_solve slogdet gamma digamma W get_samples lbfgsb direct cma time_ minimize after pm choice uniform trunc schedule target).
Notation call := (call_of oall oinputs ooptimize).

Lemma complete_seen n X Y : BOTotalClass.seen (a_range N a) X Y -> nrows X = n -> complete_run (a_range N a) n X Y.
Proof. intros ((_ & _ & LX & _) & FX) LN. split; [exact LN|]. split; [congruence|exact FX]. Qed.
Lemma use_runs u ob w : object_ok ob -> sensible (a_range N a) u ->
  runs (call u) (ob, w) (fun r obw => complete_run (a_range N a) (given u + Z.to_nat (a_num_iter N a)) (ro_X r) (ro_Y r) /\ object_ok (fst obw)).
Proof.
  intros HO HU. assert (EA : ob_args N ob = a) by apply HO. assert (IM : In (a_init N a) ["sobol"; "halton"; "uniform"; "gaussian"]) by apply HO.
  destruct u as [X Y|X|n s]; cbn [call_of sensible given] in *.
  - destruct HU as (NX & CX & FX & LY). unfold runs, object_all_initial. cbn [fst]. rewrite EA.
    assert (SX : BOTotalClass.seen (a_range N a) X Y).
    { split; [|exact FX]. split; [intros x Hx; rewrite Forall_forall in FX; exact (range_len (FX x Hx))|]. split; [exact CX|]. split; [symmetry; exact LY|].
      intros ->. apply NX, length_zero_iff_nil. symmetry. exact LY. }
    destruct (all_initial_total time_ HT object_returns (a_num_iter N a) (sw := (ob, w)) SX HO) as (w' & t & r & E & HX & LX & HO').
    exists w', t, r. split; [exact E|]. split; [now apply complete_seen|exact HO'].
  - destruct HU as (NX & CX & FX). unfold runs, object_initial_inputs. cbn [fst]. rewrite EA.
    destruct (initial_inputs_total time_ HT object_returns (a_num_iter N a) (sw := (ob, w)) NX CX FX HO) as (w' & t & r & E & HX & LX & HO').
    exists w', t, r. split; [exact E|]. split; [now apply complete_seen|exact HO'].
  - unfold runs, object_optimize, run_class. cbn [fst]. rewrite EA.
    destruct (optimize_total time_ HT object_returns HG (meth := a_init N a) (a_num_iter N a) (num_init := n) s (sw := (ob, w)) (or_intror IM) HU HO) as (w' & t & r & E & HX & LX & HO').
    exists w', t, r. split; [exact E|]. split; [apply complete_seen; [exact HX|apply LX]|exact HO']. intros Q. rewrite Q in IM. cbn in IM. intuition discriminate.
Qed.
Theorem uses_run us : forall ob w, object_ok ob -> Forall (sensible (a_range N a)) us ->
  runs (mmapM call us) (ob, w) (fun rs obw => Forall2 (fun u r => complete_run (a_range N a) (given u + Z.to_nat (a_num_iter N a)) (ro_X r) (ro_Y r)) us rs /\ object_ok (fst obw)).
Proof.
  induction us as [|u us IH]; intros ob w HO F; cbn [mmapM]; [apply runs_ret; auto|]. inversion F as [|? ? F1 F2]; subst.
  eapply runs_bind; [apply (use_runs w HO F1)|]. intros r [ob' w'] (HR & HO'). eapply runs_bind; [apply (IH ob' w' HO' F2)|].
  intros rs obw (HRS & HO2). apply runs_ret. split; [now constructor|exact HO2].
Qed.
End Uses.
