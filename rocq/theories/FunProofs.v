(** The function wrappers return whenever their arguments make sense; arguments they do not check are found out late. *)
From Verif Require Import Base Lists Num NumLaws NumFin Monad UtilsModel UtilsSpec HypsModel CovModel CovSpec Contracts GPModel GPSpec LikModel LikSpec HypOptModel
  AcqModel WrapperModel WrapperSpec WrapperProofs BOModel BOAcqModel BOAcqSpec BOFullModel BOProgram BOTotalSpec BOTotalProofs BOTotalRun BOTotalClass BOTotalOpt BOTotalFull BOTotalSet FunSpec.
From Coq Require Import List ZArith Bool String Reals Lra Lia Arith.
Import ListNotations.
Unset Asymmetric Patterns.
Set Bullet Behavior "Strict Subproofs".
Set Implicit Arguments.
Unset Strict Implicit.
Local Open Scope string_scope.
Notation N := NumR.

Lemma runs_eq {W Ev A} (p q : M W Ev A) w Q : p w = q w -> runs q w Q -> runs p w Q.
Proof. unfold runs. now intros ->. Qed.

Lemma init_name x : In x ["sobol"; "halton"; "uniform"; "gaussian"] -> str_in x ALLOWED_INITIALIZING_METHOD_BO = true.
Proof. intros H. apply str_in_of. cbn in *. tauto. Qed.
Lemma mlm_name x : In x ["regular"; "combined"; "converged"] -> str_in x ALLOWED_MLM_METHOD = true.
Proof. intros H. apply str_in_of. cbn in *. tauto. Qed.

(** the two shorter functions agree with the methods, as the longest does (C62) *)
Section Agree.
Context (N : Num) (W : Type) (target : list N -> W -> W * res N) (time_ : W -> W * N) (mo : string -> Z -> string -> mat N -> list N -> W -> W * res (list N * info N)).
Lemma fun_all_eq samp num mlm k X Y w : str_in mlm ALLOWED_MLM_METHOD = true ->
  fun_all_initial N W target time_ mo samp num mlm k X Y w = class_all_initial N W target time_ (mo samp num mlm) k X Y w.
Proof.
  intros H. unfold fun_all_initial, class_all_initial. rewrite H. cbn [assert_]. rewrite !bind_lift.
  destruct (assert_ (Nat.eqb (nrows X) (List.length Y))); [|reflexivity]. rewrite ?bind_lift.
  apply bind_ext; [reflexivity|]. intros ts w5. apply bind_ext; [|reflexivity]. intros. apply fun_loop_eq.
Qed.
Lemma fun_inputs_eq samp num mlm k X w : str_in mlm ALLOWED_MLM_METHOD = true ->
  fun_initial_inputs N W target time_ mo samp num mlm k X w = class_initial_inputs N W target time_ (mo samp num mlm) k X w.
Proof.
  intros H. unfold fun_initial_inputs, class_initial_inputs. rewrite H. cbn [assert_]. rewrite bind_lift.
  apply bind_ext; [reflexivity|]. intros l w3. apply bind_ext; [|reflexivity]. intros w4. now apply fun_all_eq.
Qed.
End Agree.

Section Functions.
Context (cdf pdf : R -> R).
Notation mx := (list (list R)).
Context (inv chol : mx -> res mx) (cho_solve : mx -> mx -> res mx) (slogdet : mx -> R * R).
Context (W : Type).
Context (get_samples : string -> Z -> option Z -> W -> W * res (list (list N))).
Context (lbfgsb : (list N -> res N) -> list N -> list (N * N) -> W -> W * res (list N)).
Context (direct : (list N -> res N) -> list (N * N) -> W -> W * res (list N)).
Context (cma : (list N -> res N) -> list N -> list (N * N) -> W -> W * res (list N)).
Context (time_ : W -> W * N).
Context (minimize : W -> minimizer N) (after : mat N -> list N -> string -> W -> W).
Context (pm : prior N) (m : elem -> R).
Context (target : list N -> W -> W * res N).
Context (o : gp_obj N).
Notation range := (go_range N o).
Hypotheses (HG : proper_samples range get_samples) (HT : returns_in range target).
Notation opt := (gp_single N exp ln cdf pdf PI inv chol cho_solve slogdet W get_samples lbfgsb direct cma time_ minimize after pm o).
Notation Wo := (gp_state N * W)%type.
Notation tg := (fun x => onsnd W (target x)).
Notation tm := (onsnd W time_).
Notation gi := (fun ms n s => onsnd W (BOModel.get_initials N W get_samples ms n s)).
Notation call := (fun_call (fun_all_initial N Wo tg tm opt) (fun_initial_inputs N Wo tg tm opt) (run_single_round N Wo tg tm opt gi)).

Section Return.
Hypotheses (HI : inv_contract inv) (HC : chol_contract chol) (HS : cho_solve_contract cho_solve) (HD : slogdet_contract slogdet)
  (HM : forall w, proper_minimizer (minimize w)) (HP : prior_is pm m).
Hypotheses (HL : proper_from lbfgsb) (HDI : proper_direct direct) (HCM : proper_from cma).
Hypothesis V : gp_valid o.
Notation usable := (gp_inv (good_hyps (go_cov N o) (List.length range) (go_ard N o))).

Lemma gp_returns k : kw_ok k -> @single_returns (gp_state N) W range (opt (kw_samp k) (kw_num k) (kw_mlm k)) usable.
Proof.
  intros (SM & NS & ML) X Y s w D IV.
  destruct (untraced_total (gp_to_info N mx) (@gp_full_runs cdf pdf inv chol cho_solve slogdet exp exp W get_samples lbfgsb direct cma time_ minimize after pm m
      HI HC HS HD HM HP HL HDI HCM o X Y (kw_samp k) (kw_num k) (kw_mlm k) None s w V HG D SM NS ML IV)) as (s' & w' & p & g & E & IV' & PO & LA).
  exists s', w', p, (gp_to_info N mx g). split; [exact E|]. split; [exact IV'|]. split; [exact PO|exact LA].
Qed.
Lemma fun_use_runs u s w : usable s -> fun_sensible range u ->
  runs (call u) (s, w) (fun r sw => complete_run range (fun_total u) (ro_X r) (ro_Y r) /\ usable (fst sw)).
Proof.
  assert (CS : forall n X Y, BOTotalClass.seen range X Y -> nrows X = n -> complete_run range n X Y).
  { intros n X Y ((_ & _ & LX & _) & FX) LN. split; [exact LN|]. split; [congruence|exact FX]. }
  intros HO HU. destruct u as [k X Y|k X|k meth n seed]; cbn [fun_call fun_sensible fun_total] in *.
  - destruct HU as (K & NX & CX & FX & LY). pose proof K as (_ & _ & ML).
    eapply runs_eq; [apply fun_all_eq; now apply str_in_of|].
    assert (SX : BOTotalClass.seen range X Y).
    { split; [|exact FX]. split; [intros x Hx; rewrite Forall_forall in FX; exact (range_len (FX x Hx))|]. split; [exact CX|]. split; [symmetry; exact LY|].
      intros ->. apply NX, length_zero_iff_nil. symmetry. exact LY. }
    destruct (all_initial_total time_ HT (gp_returns K) (kw_iter k) (sw := (s, w)) SX HO) as (w' & t & r & E & HX & LX & HO').
    exists w', t, r. split; [exact E|]. split; [now apply CS|exact HO'].
  - destruct HU as (K & NX & CX & FX). pose proof K as (_ & _ & ML).
    eapply runs_eq; [apply fun_inputs_eq; now apply str_in_of|].
    destruct (initial_inputs_total time_ HT (gp_returns K) (kw_iter k) (sw := (s, w)) NX CX FX HO) as (w' & t & r & E & HX & LX & HO').
    exists w', t, r. split; [exact E|]. split; [now apply CS|exact HO'].
  - destruct HU as (K & IM & HN). pose proof K as (_ & _ & ML).
    eapply runs_eq; [apply wrappers_agree; [exact (init_name IM)|exact (mlm_name ML)|exact HN]|].
    destruct (optimize_total time_ HT (gp_returns K) HG (meth := meth) (kw_iter k) (num_init := n) seed (sw := (s, w)) (or_intror IM) HN HO) as (w' & t & r & E & HX & LX & HO').
    exists w', t, r. split; [exact E|]. split; [apply CS; [exact HX|apply LX]|exact HO']. intros Q. rewrite Q in IM. cbn in IM. intuition discriminate.
Qed.
Theorem fun_uses_run us : forall s w, usable s -> Forall (fun_sensible range) us ->
  runs (mmapM call us) (s, w) (fun rs sw => Forall2 (fun u r => complete_run range (fun_total u) (ro_X r) (ro_Y r)) us rs /\ usable (fst sw)).
Proof.
  induction us as [|u us IH]; intros s w HO F; cbn [mmapM]; [apply runs_ret; auto|]. inversion F as [|? ? F1 F2]; subst.
  eapply runs_bind; [apply (fun_use_runs w HO F1)|]. intros r [s' w'] (HR & HO'). eapply runs_bind; [apply (IH s' w' HO' F2)|].
  intros rs sw (HRS & HO2). apply runs_ret. split; [now constructor|exact HO2].
Qed.
End Return.

(** a sampler name or a number of samples that BOwGP.optimize rejects *)
Lemma gp_rejects samp num mlm X Y s w : ~ In samp ["grid"; "sobol"; "halton"; "uniform"; "gaussian"] \/ (num <= 0)%Z -> data (List.length range) X Y ->
  exists sw', opt samp num mlm X Y (s, w) = (sw', Raise AssertionError).
Proof.
  intros HB (RX & CX & LX & NY). unfold gp_single. apply untraced_fails. unfold gp_optimize_full, gp_optimize.
  apply fails_assert; [now apply Nat.eqb_eq|]. apply fails_assert; [now apply Nat.eqb_eq|].
  destruct (Z.ltb_spec 0 num) as [P|P]; [|exists (s, w), []; split; [reflexivity|exact Logic.I]]. apply fails_assert; [reflexivity|].
  destruct (str_in samp ALLOWED_SAMPLING_METHOD) eqn:ES; [|exists (s, w), []; split; [reflexivity|exact Logic.I]].
  exfalso. apply samplers_known in ES. destruct HB; [tauto|lia].
Qed.
Theorem round_fails_late samp num mlm meth num_init num_iter seed s w :
  ~ In samp ["grid"; "sobol"; "halton"; "uniform"; "gaussian"] \/ (num <= 0)%Z -> In mlm ["regular"; "combined"; "converged"] ->
  In meth ["sobol"; "halton"; "uniform"; "gaussian"] -> (0 < num_init)%Z -> (0 < num_iter)%Z ->
  fails (run_single_round N Wo tg tm opt gi meth samp num mlm num_init num_iter seed) (s, w) AssertionError (fun t => List.length (calls_of N t) = Z.to_nat num_init).
Proof.
  intros HB ML IM HN HK. assert (NG : meth <> "grid") by (intros Q; rewrite Q in IM; cbn in IM; intuition discriminate).
  destruct (@run_fails (gp_state N) W range target time_ HT (opt samp num mlm) (fun _ => True) AssertionError
    (fun X Y s w D _ => gp_rejects mlm s w HB D) get_samples HG meth num_iter num_init seed s w (or_intror IM) NG HN HK Logic.I) as (sw' & t & E & L).
  exists sw', t. split; [|exact L]. rewrite wrappers_agree; [exact E|exact (init_name IM)|exact (mlm_name ML)|exact HN].
Qed.
(** the two names that run_single_round checks itself *)
Theorem round_fails_early samp num mlm meth num_init num_iter seed (s : gp_state N) w :
  ~ In mlm ["regular"; "combined"; "converged"] \/ ~ In meth ["sobol"; "halton"; "uniform"; "gaussian"] ->
  run_single_round N Wo tg tm opt gi meth samp num mlm num_init num_iter seed (s, w) = ((s, w), [], Raise AssertionError).
Proof.
  intros HB. unfold run_single_round.
  destruct (str_in meth ALLOWED_INITIALIZING_METHOD_BO) eqn:EM; [|reflexivity]. cbn [assert_]. rewrite bind_lift.
  destruct (str_in mlm ALLOWED_MLM_METHOD) eqn:EL; [|reflexivity]. exfalso. apply BOTotalFull.str_in_In in EM, EL. cbn in EM, EL, HB. tauto.
Qed.
End Functions.

(** the class refuses all of these at construction *)
Theorem constructor_rejects (M : Num) da ca (a : bo_args M) :
  ~ In (a_samp M a) ["grid"; "sobol"; "halton"; "uniform"; "gaussian"] \/ (a_num_samples M a <= 0)%Z \/
  ~ In (a_mlm M a) ["regular"; "combined"; "converged"] \/ ~ In (a_init M a) ["sobol"; "halton"; "uniform"; "gaussian"] -> exists e, bo_init M da ca a = Raise e.
Proof.
  intros HB. destruct (bo_init M da ca a) as [x|e] eqn:EI; [exfalso|eauto].
  unfold bo_init in EI. apply assert_ok in EI as (R0 & EI). apply assert_ok in EI as (_ & EI). apply assert_ok in EI as (NS & EI). apply Z.ltb_lt in NS.
  apply assert_ok in EI as (_ & EI). apply assert_ok in EI as (_ & EI). apply assert_ok in EI as (_ & EI). apply assert_ok in EI as (IM & EI).
  apply assert_ok in EI as (SM & EI). apply assert_ok in EI as (_ & EI). apply assert_ok in EI as (_ & EI). apply assert_ok in EI as (_ & EI).
  apply assert_ok in EI as (ML & EI). apply BOTotalFull.str_in_In in SM, ML, IM. cbn in SM, ML, IM, HB. destruct HB as [B|[B|B]]; [tauto|lia|tauto].
Qed.
