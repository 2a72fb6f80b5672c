(** optimize of BOwGP and BOwTP returns, from what their surrogates return. *)
From Verif Require Import Base Lists Num NumLaws Monad UtilsModel UtilsSpec UtilsProofs HypsModel WrapperModel BOModel BOProofs BOTotalSpec BOTotalRun BOTotalClass.
From Coq Require Import List ZArith Bool String Reals Lra Lia Arith.
Import ListNotations.
Set Implicit Arguments.
Unset Strict Implicit.
Unset Asymmetric Patterns.
Set Bullet Behavior "Strict Subproofs".
Local Open Scope string_scope.
Local Notation N := NumR.

Lemma data_resp d X Y Y' : data d X Y -> List.length Y' = List.length Y -> data d X Y'.
Proof. intros (A & B & C & D) L. split; [exact A|]. split; [exact B|]. split; [now rewrite C|]. intros ->. now destruct Y. Qed.
Lemma normal_or_not (b : bool) (Y : list R) : Y <> [] -> exists Yn, (if b then normalize_min_max N Y else Ok Y) = Ok Yn /\ List.length Yn = List.length Y.
Proof. intros NE. destruct b; [now apply normalize_total|eauto]. Qed.
Lemma samplings samp : In samp ["grid"; "sobol"; "halton"; "uniform"; "gaussian"] -> str_in samp ALLOWED_SAMPLING_METHOD = true.
Proof. intros [<-|[<-|[<-|[<-|[<-|[]]]]]]; reflexivity. Qed.
Lemma runs_getS W St (s : St) w (Q : St -> St * W -> Prop) : Q s (s, w) -> runs (getS N W St) (s, w) Q.
Proof. intros H. unfold runs, getS. cbn. eauto 6. Qed.
Lemma runs_putS W St (s' s : St) w (Q : unit -> St * W -> Prop) : Q tt (s', w) -> runs (putS N W St s') (s, w) Q.
Proof. intros H. unfold runs, putS. cbn. eauto 6. Qed.
Lemma runs_note W St e (sw : St * W) (Q : unit -> St * W -> Prop) : Q tt sw -> runs (note N W St e) sw Q.
Proof. intros H. unfold runs, note. cbn. eauto 6. Qed.
Lemma untraced_total {W St A B} (f : A -> B) (m : M (St * W) (fitev N) (list N * A)) sw (Q : list N * A -> St * W -> Prop) :
  runs m sw Q -> exists s' w' p a, untraced N W f m sw = ((s', w'), Ok (p, f a)) /\ Q (p, a) (s', w').
Proof. intros ([s' w'] & t & [p a] & E & H). exists s', w', p, a. unfold untraced. rewrite E. auto. Qed.

Section Common.
Context (W : Type).
Context (get_samples : string -> Z -> option Z -> W -> W * res (list (list N))).
Context (lbfgsb : (list N -> res N) -> list N -> list (N * N) -> W -> W * res (list N)).
Context (direct : (list N -> res N) -> list (N * N) -> W -> W * res (list N)).
Context (cma : (list N -> res N) -> list N -> list (N * N) -> W -> W * res (list N)).
Context (time_ : W -> W * N).
Hypotheses (HL : proper_from lbfgsb) (HDI : proper_direct direct) (HCM : proper_from cma).

Section GP.
Context (K : Type).
Context (fit : mat N -> list N -> string -> string -> string -> bool -> W -> W * res (K * K * dict N)).
Context (kernel_inverse : mat N -> dict N -> string -> res (K * K)).
Context (neg_log_ml : mat N -> list N -> list N -> string -> bool -> res N).
Context (acq : string -> string -> mat N -> list N -> K -> K -> dict N -> list (list N) -> res (list N)).
Context (o : gp_obj N) (good : dict N -> Prop) (len : nat).
Notation d := (List.length (go_range N o)).
Hypothesis HSR : sound_range (go_range N o).
Hypothesis HO : In (go_opt_bo N o) ["L-BFGS-B"; "DIRECT"; "CMA-ES"].
Hypothesis HOG : In (go_opt_gp N o) ["BFGS"; "L-BFGS-B"; "SLSQP"; "SLSQP-Bounded"; "Nelder-Mead"].
Hypothesis HG : proper_samples (go_range N o) get_samples.
Hypothesis HF : forall X Y meth w, data d X Y -> In meth ["BFGS"; "L-BFGS-B"; "SLSQP"; "SLSQP-Bounded"; "Nelder-Mead"] ->
  exists w' c i h, fit X Y (go_cov N o) meth (go_msel N o) (go_ard N o) w = (w', Ok (c, i, h)) /\ good h /\ kernel_inverse X h (go_cov N o) = Ok (c, i).
Hypothesis HK : forall X Y h, data d X Y -> good h -> exists c i, kernel_inverse X h (go_cov N o) = Ok (c, i).
Hypothesis HV : forall h, good h -> exists v, @convert_hyps N (go_cov N o) h true true = Ok v /\ List.length v = len.
Hypothesis HN : forall X Y v, data d X Y -> List.length v = len -> exists y, neg_log_ml X Y v (go_cov N o) (go_ard N o) = Ok y.
Hypothesis HA : forall X Y h c i pts, data d X Y -> good h -> kernel_inverse X h (go_cov N o) = Ok (c, i) -> pts <> [] ->
  Forall (fun p => List.length p = d) pts -> exists l, acq (go_acq N o) (go_cov N o) X Y c i h pts = Ok l /\ List.length l = List.length pts.

(** the object: every stored entry is usable, and once selection stopped there is one *)
Definition gp_inv (s : gp_state N) : Prop :=
  Forall (fun e => exists h, e = Some h /\ good h) (gs_hist N s) /\ (gs_opt N s = false -> gs_hist N s <> []).
Definition fitted X (f : K * K * dict N) : Prop := good (snd f) /\ kernel_inverse X (snd f) (go_cov N o) = Ok (fst f).

Lemma fit_runs meth X Y s w : data d X Y -> In meth ["BFGS"; "L-BFGS-B"; "SLSQP"; "SLSQP-Bounded"; "Nelder-Mead"] ->
  runs (gp_fit N W K fit o meth X Y) (s, w) (fun f sw => fitted X f /\ fst sw = s).
Proof.
  intros D HM. unfold gp_fit. eapply runs_bind with (P := fun _ sw => sw = (s, w)); [now apply runs_note|]. intros _ sw ->.
  destruct (HF w D HM) as (w' & c & i & h & E & G & KI). eapply runs_onW; [exact E|]. unfold fitted. cbn [fst snd]. auto.
Qed.
Lemma combined_runs meth X Y best s w : data d X Y -> In meth ["BFGS"; "L-BFGS-B"; "SLSQP"; "SLSQP-Bounded"; "Nelder-Mead"] ->
  (forall f v, best = Some (f, v) -> fitted X f) ->
  runs (combined_step N W K fit neg_log_ml o X Y meth best) (s, w) (fun b sw => (exists f v, b = Some (f, v) /\ fitted X f) /\ fst sw = s).
Proof.
  intros D HM HB. unfold combined_step. eapply runs_bind; [apply (fit_runs s w D HM)|]. intros f sw (FF & ES).
  destruct (HV (proj1 FF)) as (v & EV & LV). eapply runs_bind with (P := fun x sw => x = v /\ fst sw = s); [eapply runs_lift; [exact EV|auto]|].
  intros ? sw1 (-> & ES1). destruct (HN D LV) as (y & EY).
  eapply runs_bind with (P := fun x sw => x = y /\ fst sw = s); [eapply runs_lift; [exact EY|auto]|]. intros ? sw2 (-> & ES2).
  apply runs_ret. split; [|exact ES2]. destruct best as [[f0 v0]|]; [|exists f, y; split; [reflexivity|exact FF]]. destruct (better N y _); [eauto|]. exists f0, v0. split; [reflexivity|]. eapply HB; reflexivity.
Qed.
Lemma last_entry hist e pre : Forall (fun e => exists h, e = Some h /\ good h) hist -> rev hist = e :: pre -> exists h, e = Some h /\ good h.
Proof. intros F E. rewrite Forall_forall in F. apply F. apply in_rev. rewrite E. now left. Qed.
Lemma convergence_total hist h : Forall (fun e => exists h, e = Some h /\ good h) hist -> good h -> exists b, check_convergence N hist h (go_cov N o) = Ok b.
Proof.
  intros F G. unfold check_convergence. destruct (rev hist) as [|e pre] eqn:E; [eauto|]. destruct (last_entry F E) as (h' & -> & G').
  unfold check_hyps_convergence. cbn [rev app]. destruct (HV G) as (v & -> & L). destruct (HV G') as (v' & -> & L'). cbn [rbind].
  rewrite L, L', Nat.eqb_refl. eauto.
Qed.
Lemma surrogate_runs mlm X Y s w : data d X Y -> In mlm ["regular"; "combined"; "converged"] -> gp_inv s ->
  runs (gp_surrogate N W K fit kernel_inverse neg_log_ml o mlm X Y) (s, w) (fun f sw => (exists g, f = Some g /\ fitted X g) /\
    Forall (fun e => exists h, e = Some h /\ good h) (gs_hist N (fst sw))).
Proof.
  intros D HM (IF & IO). unfold gp_surrogate. destruct HM as [<-|[<-|[<-|[]]]]; cbn [String.eqb Ascii.eqb Bool.eqb].
  - eapply runs_bind; [apply (fit_runs s w D HOG)|]. intros f [s' w'] (FF & ES). apply runs_ret. cbn in ES. subst s'. eauto.
  - eapply runs_bind; [apply (combined_runs (best := None) s w D); [now left|discriminate]|]. intros b1 [s' w'] ((f1 & v1 & -> & F1) & ES). cbn in ES. subst s'.
    eapply runs_bind; [apply (combined_runs (best := Some (f1, v1)) s w' D); [cbn; tauto|intros f v Q; injection Q as <- <-; exact F1]|].
    intros b2 [s' w2] ((f2 & v2 & -> & F2) & ES). cbn in ES. subst s'. apply runs_ret. cbn. eauto.
  - eapply runs_bind with (P := fun a sw => a = s /\ sw = (s, w)); [now apply runs_getS|]. intros ? ? (-> & ->). destruct (gs_opt N s) eqn:EO.
    + eapply runs_bind; [apply (fit_runs s w D HOG)|]. intros f [s' w'] (FF & ES). cbn in ES. subst s'.
      eapply runs_bind with (P := fun a sw => a = s /\ fst sw = s); [now apply runs_getS|]. intros ? [? w2] (-> & ES). cbn in ES. subst.
      destruct (convergence_total IF (proj1 FF)) as (b & EB).
      eapply runs_bind with (P := fun x sw => x = b /\ fst sw = s); [eapply runs_lift; [exact EB|auto]|]. intros ? [? w3] (-> & ES). cbn in ES. subst.
      eapply runs_bind with (P := fun _ sw => gs_hist N (fst sw) = gs_hist N s); [now apply runs_putS|]. intros _ sw ES. apply runs_ret. rewrite ES. eauto.
    + destruct (rev (gs_hist N s)) as [|e pre] eqn:ER.
      { exfalso. apply (IO eq_refl). now rewrite <- (rev_involutive (gs_hist N s)), ER. }
      destruct (last_entry IF ER) as (h & -> & GH). destruct (HK D GH) as (c & i & EK).
      eapply runs_bind with (P := fun x sw => x = (c, i) /\ sw = (s, w)); [eapply runs_lift; [exact EK|auto]|]. intros ? ? (-> & ->). apply runs_ret. cbn [fst snd].
      split; [|exact IF]. eexists. split; [reflexivity|]. split; [exact GH|exact EK].
Qed.

Theorem gp_optimize_runs X Y samp num mlm seed s w : data d X Y -> In samp ["grid"; "sobol"; "halton"; "uniform"; "gaussian"] -> (0 < num)%Z ->
  In mlm ["regular"; "combined"; "converged"] -> gp_inv s ->
  runs (gp_optimize N W K get_samples lbfgsb direct cma time_ fit kernel_inverse neg_log_ml acq o X Y samp num mlm seed) (s, w)
    (fun r sw => gp_inv (fst sw) /\ proposal_ok (go_range N o) (fst r) (gi_points N K (snd r)) /\
       List.length (gi_acqs N K (snd r)) = nrows (gi_points N K (snd r))).
Proof.
  intros D HSM HNUM HM HI. pose proof D as (RX & CX & LX & NY). unfold gp_optimize.
  apply runs_assert; [now apply Nat.eqb_eq|]. apply runs_assert; [now apply Nat.eqb_eq|]. apply runs_assert; [now apply Z.ltb_lt|].
  apply runs_assert; [now apply samplings|]. apply runs_assert; [destruct HM as [<-|[<-|[<-|[]]]]; reflexivity|].
  eapply runs_bind with (P := fun _ sw => fst sw = s); [now apply runs_tick|]. intros ? [? w1] ES; cbn in ES; subst.
  destruct (normal_or_not (go_norm N o && negb (mlm =? "converged")) NY) as (Yn & EN & LN).
  eapply runs_bind with (P := fun a sw => a = Yn /\ fst sw = s); [eapply runs_lift; [exact EN|auto]|]. intros ? [? w2] (-> & ES); cbn in ES; subst.
  eapply runs_bind with (P := fun _ sw => fst sw = s); [now apply runs_tick|]. intros ? [? w3] ES; cbn in ES; subst.
  pose proof (data_resp D LN) as DN.
  eapply runs_bind; [apply (surrogate_runs w3 DN HM HI)|]. intros ? [s1 w4] ((f & -> & FG & FK) & HS1). cbn [fst] in HS1.
  eapply runs_bind with (P := fun a sw => a = s1 /\ fst sw = s1); [now apply runs_getS|]. intros ? [? w5] (-> & ES); cbn in ES; subst.
  set (s2 := mkgps N (gs_hist N s1 ++ [option_map snd (Some f)])%list (gs_opt N s1)).
  assert (I2 : gp_inv s2).
  { split; cbn [s2 gs_hist gs_opt]; [apply Forall_app; split; [exact HS1|repeat constructor; cbn; eauto]|]. intros _ Q. now apply app_eq_nil in Q as [_ Q]. }
  eapply runs_bind with (P := fun _ sw => fst sw = s2); [now apply runs_putS|]. intros ? [? w6] ES; cbn in ES; subst.
  eapply runs_bind with (P := fun _ sw => fst sw = s2); [now apply runs_tick|]. intros ? [? w7] ES; cbn in ES; subst.
  eapply runs_bind with (P := fun _ sw => fst sw = s2); [now apply runs_tick|]. intros ? [? w8] ES; cbn in ES; subst.
  destruct f as [[c i] h]. cbn [fst snd] in FG, FK.
  match goal with |- runs (bind (optimize_acq _ _ _ _ _ _ _ _ _ ?g _ _ _) _) _ _ => set (fneg := g) end.
  assert (HB : batch_returns (go_range N o) fneg).
  { intros pts NE FP. destruct (HA DN FG FK NE FP) as (l & E & L). exists (BOModel.neg N (scaled N l)). unfold fneg. rewrite E. cbn [rbind].
    split; [reflexivity|]. rewrite neg_scaled_len. exact L. }
  eapply runs_bind; [apply (@optimize_acq_total W get_samples lbfgsb direct cma (go_range N o) HSR HG HL HDI HCM (gp_state N) (go_opt_bo N o) fneg samp num seed s2 w8 HO HSM HNUM HB)|].
  intros [np P] [? w9] (PO & ES); cbn in ES, PO; subst.
  eapply runs_bind with (P := fun a sw => a = np /\ fst sw = s2); [eapply runs_lift; [apply check_point_total; apply PO|auto]|]. intros ? [? w10] (-> & ES); cbn in ES; subst.
  eapply runs_bind with (P := fun a sw => a = P /\ fst sw = s2); [eapply runs_lift; [exact (candidates_checked PO)|auto]|]. intros ? [? w11] (-> & ES); cbn in ES; subst.
  eapply runs_bind with (P := fun _ sw => fst sw = s2); [now apply runs_tick|]. intros ? [? w12] ES; cbn in ES; subst.
  destruct (HB (mrows P)) as (acqs & EA & LA); [apply PO|exact (candidates_len PO)|].
  eapply runs_bind with (P := fun a sw => a = acqs /\ fst sw = s2); [eapply runs_lift; [exact EA|auto]|]. intros ? [? w13] (-> & ES); cbn in ES; subst.
  eapply runs_bind with (P := fun _ sw => fst sw = s2); [now apply runs_tick|]. intros ? [? w14] ES; cbn in ES; subst.
  apply runs_ret. cbn [fst snd gi_points gi_acqs]. split; [exact I2|]. split; [exact PO|exact LA].
Qed.
End GP.

Section TP.
Context (K : Type).
Context (fit : mat N -> list N -> string -> string -> bool -> W -> W * res (K * K * dict N)).
Context (acq : string -> string -> mat N -> list N -> K -> K -> dict N -> list (list N) -> res (list N)).
Context (o : tp_obj N) (usable : mat N -> K -> K -> dict N -> Prop).
Notation d := (List.length (to_range N o)).
Hypothesis HSR : sound_range (to_range N o).
Hypothesis HO : In (to_opt_bo N o) ["L-BFGS-B"; "DIRECT"; "CMA-ES"].
Hypothesis HG : proper_samples (to_range N o) get_samples.
Hypothesis HF : forall X Y w, data d X Y ->
  exists w' c i h, fit X Y (to_cov N o) (to_opt_tp N o) (to_ard N o) w = (w', Ok (c, i, h)) /\ usable X c i h.
Hypothesis HA : forall X Y h c i pts, data d X Y -> usable X c i h -> pts <> [] ->
  Forall (fun p => List.length p = d) pts -> exists l, acq (to_acq N o) (to_cov N o) X Y c i h pts = Ok l /\ List.length l = List.length pts.
Theorem tp_optimize_runs X Y samp num seed s w : data d X Y -> In samp ["grid"; "sobol"; "halton"; "uniform"; "gaussian"] -> (0 < num)%Z ->
  runs (tp_optimize N W K get_samples lbfgsb direct cma time_ fit acq o X Y samp num seed) (s, w)
    (fun r sw => proposal_ok (to_range N o) (fst r) (gi_points N K (snd r)) /\
       List.length (gi_acqs N K (snd r)) = nrows (gi_points N K (snd r))).
Proof.
  intros D HSM HNUM. pose proof D as (RX & CX & LX & NY). unfold tp_optimize.
  apply runs_assert; [now apply Nat.eqb_eq|]. apply runs_assert; [now apply Nat.eqb_eq|]. apply runs_assert; [now apply Z.ltb_lt|].
  apply runs_assert; [now apply samplings|].
  eapply runs_bind with (P := fun _ sw => fst sw = s); [now apply runs_tick|]. intros ? [? w1] ES; cbn in ES; subst.
  destruct (normal_or_not (to_norm N o) NY) as (Yn & EN & LN).
  eapply runs_bind with (P := fun a sw => a = Yn /\ fst sw = s); [eapply runs_lift; [exact EN|auto]|]. intros ? [? w2] (-> & ES); cbn in ES; subst.
  eapply runs_bind with (P := fun _ sw => fst sw = s); [now apply runs_tick|]. intros ? [? w3] ES; cbn in ES; subst.
  pose proof (data_resp D LN) as DN.
  eapply runs_bind with (P := fun _ sw => sw = (s, w3)); [now apply runs_note|]. intros ? ? ->.
  destruct (HF w3 DN) as (w4 & c & i & h & E & US).
  eapply runs_bind with (P := fun a sw => a = (c, i, h) /\ sw = (s, w4)); [eapply runs_onW; [exact E|auto]|]. intros ? ? (-> & ->).
  eapply runs_bind with (P := fun a sw => fst sw = s); [now apply runs_getS|]. intros s1 [? w5] ES; cbn in ES; subst.
  eapply runs_bind with (P := fun _ _ => True); [now apply runs_putS|]. intros ? [s2 w6] _.
  eapply runs_bind with (P := fun _ sw => True); [now apply runs_tick|]. intros ? [s3 w7] _.
  eapply runs_bind with (P := fun _ sw => True); [now apply runs_tick|]. intros ? [s4 w8] _.
  match goal with |- runs (bind (optimize_acq _ _ _ _ _ _ _ _ _ ?g _ _ _) _) _ _ => set (fneg := g) end.
  assert (HB : batch_returns (to_range N o) fneg).
  { intros pts NE FP. destruct (HA DN US NE FP) as (l & EL & L). exists (BOModel.neg N (scaled N l)). unfold fneg. rewrite EL. cbn [rbind].
    split; [reflexivity|]. rewrite neg_scaled_len. exact L. }
  eapply runs_bind; [apply (@optimize_acq_total W get_samples lbfgsb direct cma (to_range N o) HSR HG HL HDI HCM (list (dict N)) (to_opt_bo N o) fneg samp num seed s4 w8 HO HSM HNUM HB)|].
  intros [np P] sw1 (PO & _); cbn in PO.
  eapply runs_bind with (P := fun a _ => a = np); [eapply runs_lift; [apply check_point_total; apply PO|auto]|]. intros ? sw2 ->.
  eapply runs_bind with (P := fun a _ => a = P); [eapply runs_lift; [exact (candidates_checked PO)|auto]|]. intros ? [s5 w9] ->.
  eapply runs_bind with (P := fun _ sw => True); [now apply runs_tick|]. intros ? sw4 _.
  destruct (HB (mrows P)) as (acqs & EA & LA); [apply PO|exact (candidates_len PO)|].
  eapply runs_bind with (P := fun a _ => a = acqs); [eapply runs_lift; [exact EA|auto]|]. intros ? [s6 w10] ->.
  eapply runs_bind with (P := fun _ sw => True); [now apply runs_tick|]. intros ? sw6 _.
  apply runs_ret. cbn [fst snd gi_points gi_acqs]. split; [exact PO|exact LA].
Qed.
End TP.

Section RF.
Context (T : Type) (get_trees : mat N -> list N -> W -> W * res T) (acq : string -> mat N -> list N -> T -> list (list N) -> res (list N)).
Context (o : rf_obj N) (usable : T -> Prop).
Notation d := (List.length (ro_range N o)).
Hypothesis HG : proper_samples (ro_range N o) get_samples.
Hypothesis HF : forall X Y w, data d X Y -> exists w' t, get_trees X Y w = (w', Ok t) /\ usable t.
Hypothesis HA : forall X Y t pts, data d X Y -> usable t -> pts <> [] ->
  Forall (fun p => List.length p = d) pts -> exists l, acq (ro_acq N o) X Y t pts = Ok l /\ List.length l = List.length pts.
Theorem rf_optimize_runs X Y samp num seed sw : data d X Y -> In samp ["grid"; "sobol"; "halton"; "uniform"; "gaussian"] -> (0 < num)%Z ->
  runs (rf_optimize N W get_samples time_ T get_trees acq o X Y samp num seed) sw
    (fun r _ => proposal_ok (ro_range N o) (fst r) (ri_points N T (snd r)) /\ List.length (ri_acqs N T (snd r)) = nrows (ri_points N T (snd r))).
Proof.
  intros D HSM HNUM. pose proof D as (RX & CX & LX & NY). unfold rf_optimize. destruct sw as [[] w].
  apply runs_assert; [now apply Nat.eqb_eq|]. apply runs_assert; [now apply Nat.eqb_eq|]. apply runs_assert; [now apply Z.ltb_lt|].
  apply runs_assert; [now apply samplings|].
  eapply runs_bind with (P := fun _ sw => True); [now apply runs_tick|]. intros ? [? w1] _.
  destruct (normal_or_not (ro_norm N o) NY) as (Yn & EN & LN).
  eapply runs_bind with (P := fun a sw => a = Yn); [eapply runs_lift; [exact EN|auto]|]. intros ? [? w2] ->.
  eapply runs_bind with (P := fun _ sw => True); [now apply runs_tick|]. intros ? sw3 _.
  pose proof (data_resp D LN) as DN.
  eapply runs_bind with (P := fun _ sw => True); [now apply runs_note|]. intros ? [s3 w3] _.
  destruct (HF w3 DN) as (w4 & t & E & US).
  eapply runs_bind with (P := fun a sw => a = t); [eapply runs_onW; [exact E|auto]|]. intros ? [? w5] ->.
  eapply runs_bind with (P := fun _ sw => True); [now apply runs_tick|]. intros ? [? w6] _.
  eapply runs_bind with (P := fun _ sw => True); [now apply runs_tick|]. intros ? [? w7] _.
  destruct (@HG samp num seed w7 HSM HNUM) as (w8 & l & EG & NE & FL & _).
  eapply runs_bind with (P := fun a sw => a = l); [eapply runs_onW; [exact EG|auto]|]. intros ? sw8 ->.
  assert (FD : Forall (fun p => List.length p = d) l) by (eapply Forall_impl; [|exact FL]; intros p; apply range_len).
  eapply runs_bind with (P := fun a sw => a = mkmat l d); [eapply runs_lift; [exact (np_array_ok NE FD)|auto]|]. intros ? sw9 ->.
  eapply runs_bind with (P := fun a sw => a = mkmat l d); [eapply runs_lift; [exact (bounds_ok FL)|auto]|]. intros ? sw10 ->. cbn [mrows].
  destruct (HA DN US NE FD) as (av & EA & LA). 
  eapply runs_bind with (P := fun z sw => z = BOModel.neg N (scaled N av)); [eapply runs_lift; [rewrite EA; reflexivity|auto]|]. intros ? sw11 ->.
  pose proof (neg_scaled_len av) as LNS. rewrite LA in LNS. set (acqs := BOModel.neg N (scaled N av)) in *.
  destruct (npargmin N acqs) as [ind|e] eqn:EI.
  2:{ exfalso. unfold npargmin in EI. destruct acqs; [destruct l; [congruence|discriminate]|discriminate]. }
  eapply runs_bind with (P := fun z sw => z = ind); [eapply runs_lift; [reflexivity|auto]|]. intros ? sw12 ->.
  apply (npargmin_spec NumR_ord) in EI as (b & EB & _).
  assert (exists p, nth_error l ind = Some p) as [p EP].
  { destruct (nth_error l ind) eqn:Q; [eauto|]. exfalso. apply nth_error_None in Q. assert (ind < List.length acqs)%nat by (apply nth_error_Some; congruence). lia. }
  eapply runs_bind with (P := fun z sw => z = p); [eapply runs_lift; [rewrite EP; reflexivity|auto]|]. intros ? [? w13] ->.
  eapply runs_bind with (P := fun _ sw => True); [now apply runs_tick|]. intros ? [? w14] _.
  eapply runs_bind with (P := fun _ sw => True); [now apply runs_tick|]. intros ? sw15 _.
  apply runs_ret. cbn [fst snd ri_points ri_acqs]. unfold proposal_ok, nrows. cbn [mrows mcols]. split; [|exact LNS].
  split; [|auto]. rewrite Forall_forall in FL. apply FL. eapply nth_error_In; eauto.
Qed.
End RF.
End Common.
