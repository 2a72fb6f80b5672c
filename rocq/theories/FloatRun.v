(** binary64: runs with the random forest complete. *)
From Verif Require Import Base Lists Num NumLaws NumFin Monad UtilsModel HypsModel CovModel GPModel LikModel HypOptModel AcqModel TreesModel TreesSpec TreesProofs TreesTop WrapperModel BOModel
  BOAcqModel BOAcqSpec BOAcqProofs BOFullModel BOProgram BOTotalRun BOTotalFull BOTotalN SamplingFloat FloatSpec FloatOps FloatNorm FloatTrees FloatAcq.
From Coq Require Import List ZArith Bool String Reals Lra Lia Arith Permutation.
From Flocq Require Import Core IEEE754.BinarySingleNaN.
Import ListNotations.
Unset Asymmetric Patterns.
Set Bullet Behavior "Strict Subproofs".
Local Open Scope R_scope.
Local Open Scope string_scope.

Lemma le_finite (a v b : f64) : finite a -> finite b -> nle NumF a v = true -> nle NumF v b = true -> finite v.
Proof.
  intros Fa Fb H1 H2. cbn [nle NumF] in H1, H2. rewrite Bleb_key in H1, H2.
  destruct v as [s|s| |s m e bb]; try reflexivity.
  - exfalso. assert (Ka := fkey_bound a Fa). assert (Kb := fkey_bound b Fb). cbn [is_nan negb andb] in H1, H2.
    rewrite (finite_notnan a Fa) in H1. rewrite (finite_notnan b Fb) in H2. cbn [negb andb] in H1, H2. destruct s; cbn [fkey] in H1, H2.
    + revert H1. destruct (Raux.Rle_bool_spec (fkey a) (- bpow radix2 emax64)); [lra|discriminate].
    + revert H2. destruct (Raux.Rle_bool_spec (bpow radix2 emax64) (fkey b)); [lra|discriminate].
  - exfalso. cbn [is_nan negb] in H1. rewrite andb_false_r in H1. discriminate.
Qed.
Lemma in_range_finite (r : list (f64 * f64)) x : finite_range r -> @in_rangeN NumF r x -> Forall finite x.
Proof.
  intros FR H. induction H as [|b v r x (H1 & H2) H IH]; [constructor|]. inversion FR as [|? ? (F1 & F2) FR']; subst.
  constructor; [exact (le_finite _ _ _ F1 F2 H1 H2)|now apply IH].
Qed.

Lemma nth_lt {A} (l : list A) i x : nth_error l i = Some x -> (i < List.length l)%nat.
Proof. intros H. apply nth_error_Some. congruence. Qed.
Lemma spread_dec (Y : list f64) : spread Y \/ ~ spread Y.
Proof.
  destruct Y as [|y0 Y]; [right; intros (a & b & [] & _)|].
  assert (K : forall l : list f64, (exists y, In y l /\ B2R y <> B2R y0) \/ forall y, In y l -> B2R y = B2R y0).
  { induction l as [|y l [(z & Hz & NE)|A]]; [right; intros ? []|left; exists z; split; [now right|exact NE]|].
    destruct (Req_dec (B2R y) (B2R y0)) as [E|NE]; [right; intros z [<-|Hz]; auto|left; exists y; split; [now left|exact NE]]. }
  destruct (K Y) as [(z & Hz & NE)|A]; [left; exists z, y0; split; [now right|split; [now left|exact NE]]|].
  right. intros (a & b & Ha & Hb & NE). apply NE.
  assert (Q : forall y, In y (y0 :: Y) -> B2R y = B2R y0) by (intros y [<-|Hy]; auto). now rewrite (Q a Ha), (Q b Hb).
Qed.
Lemma normalize_within (Y : list f64) : Y <> [] -> Forall (within 480) Y -> exists Yn, normalize_min_max NumF Y = Ok Yn /\ List.length Yn = List.length Y /\ Forall (within 480) Yn.
Proof.
  intros NE HY. assert (FY : Forall finite Y) by (eapply Forall_impl; [|exact HY]; intros y (F & _); exact F).
  destruct (spread_dec Y) as [SP|NS]; [|exists Y; split; [now apply normalize_float_same|auto]].
  destruct (normalize_float Y FY SP) as (Z & E & L & H & _).
  { intros y y' Hy Hy'. rewrite Forall_forall in HY. apply (sub_e 480 y y'); [lia|now apply HY|now apply HY]. }
  exists Z. split; [exact E|]. split; [exact L|]. apply Forall_forall. intros z Hz. apply In_nth_error in Hz as [i Hi].
  destruct (nth_error Y i) as [y|] eqn:Ey; [|apply nth_error_None in Ey; pose proof (eq_ind _ (fun k => (i < k)%nat) (@nth_lt f64 _ _ _ Hi) _ L) as LI; exfalso; exact (proj1 (Nat.lt_nge _ _) LI Ey)].
  destruct (H i y z Ey Hi) as (F & B & _). apply bounded_le with 4%Z; [lia|]. split; [exact F|]. rewrite Rabs_pos_eq by lra. cbn. lra.
Qed.

Lemma gp_noise_fine : noise_fine (GP_NOISE NumF).
Proof.
  unfold GP_NOISE, nlit. change (ndiv NumF (nofZ NumF 1) (nofZ NumF 100)) with (fdiv (fofZ 1) (fofZ 100)).
  destruct (fofZ_val 1 ltac:(reflexivity)) as (F1 & E1). destruct (fofZ_val 100 ltac:(reflexivity)) as (F2 & E2).
  destruct (fdiv_val (fofZ 1) (fofZ 100) 1 F1) as ((F & B) & V).
  - rewrite E2. lra.
  - apply (F64_Z 1). reflexivity.
  - change 1 with (bpow radix2 0). apply bpow_lt_max. lia.
  - rewrite E1, E2, Rabs_pos_eq by lra. lra.
  - split; [exact F|]. split.
    + apply Rle_trans with (bpow radix2 (-7)); [apply bpow_le; lia|]. rewrite V, E1, E2, <- (rnd64_id (bpow radix2 (-7))) by (apply F64_bpow; lia). apply rnd64_le. cbn. lra.
    + apply Rle_trans with 1; [pose proof (Rle_abs (B2R (fdiv (fofZ 1) (fofZ 100)))); lra|]. change 1 with (bpow radix2 0). apply bpow_le. lia.
Qed.

Section Program.
Context (nexp nlog cdf pdf : f64 -> f64) (npi : f64).
Notation mx := (list (list NumF)).
Context (inv chol : mx -> res mx) (cho_solve : mx -> mx -> res mx) (slogdet : mx -> NumF * NumF) (gamma digamma : f64 -> f64).
Context (W : Type).
Context (get_samples : string -> Z -> option Z -> W -> W * res (list (list NumF))).
Context (lbfgsb : (list NumF -> res NumF) -> list NumF -> list (NumF * NumF) -> W -> W * res (list NumF)).
Context (direct : (list NumF -> res NumF) -> list (NumF * NumF) -> W -> W * res (list NumF)).
Context (cma : (list NumF -> res NumF) -> list NumF -> list (NumF * NumF) -> W -> W * res (list NumF)).
Context (time_ : W -> W * NumF).
Context (minimize : W -> minimizer NumF) (after : mat NumF -> list NumF -> string -> W -> W).
Context (pm : prior NumF).
Context (choice : nat -> nat -> bool -> W -> W * res (list nat)) (uniform : NumF -> NumF -> W -> W * res NumF) (trunc : NumF -> option Z)
  (schedule : nat -> list nat).
Context (target : list NumF -> W -> W * res NumF).
Hypotheses (HC : unit_valued cdf) (HP : unit_valued pdf) (HL : log_like nlog).
Hypotheses (CC : choice_contract choice) (CT : choice_total choice)
  (TI : int_of_floats trunc) (CS : completes schedule).

Definition forest_fine (d : nat) (ts : list (tree NumF)) : Prop := forall Xq, (forall x, In x Xq -> List.length x = d) ->
  exists out, predict_by_trees NumF Xq ts (schedule ((List.length Xq + 99) / 100)%nat) = Ok out /\ List.length out = List.length Xq /\ Forall (pred_ok 480) out.

Lemma forest_fine_grown (r : list (f64 * f64)) (X : mat NumF) (Y : list NumF) w : r <> [] -> finite_range r -> @dataN NumF r (within 480) few X Y ->
  exists w' ts, @rf_trees_full NumF W choice uniform trunc (List.length r) X Y w = (w', Ok ts) /\ forest_fine (List.length r) ts.
Proof.
  intros NR FR (CX & LX & NY & OY & CY & FX). assert (DP : (0 < List.length r)%nat) by (destruct r; [congruence|cbn; lia]).
  assert (RX : forall x, In x (mrows X) -> List.length x = List.length r) by (intros x Hx; rewrite Forall_forall in FX; exact (rangeN_len (FX x Hx))).
  assert (WF : mat_wf X) by (intros x Hx; rewrite CX; now apply RX).
  assert (FW : few (nrows X)) by (rewrite LX; exact CY).
  assert (PX : (0 < nrows X)%nat) by (rewrite LX; destruct Y; [congruence|cbn; lia]).
  assert (QX : (0 < Nat.sqrt (List.length r) <= mcols X)%nat) by (rewrite CX; split; [apply (Nat.sqrt_le_mono 1 (List.length r)); lia|apply Nat.sqrt_le_lin]).
  assert (D : fdata_ok X Y (Nat.sqrt (List.length r))).
  { split; [exact WF|]. split; [exact LX|]. split; [exact PX|]. split; [exact FW|]. split; [exact QX|].
    intros x Hx. rewrite Forall_forall in FX. exact (in_range_finite r x FR (FX x Hx)). }
  assert (OY' : forall y, In y Y -> within 480 y) by (rewrite Forall_forall in OY; exact OY).
  destruct (forest_float W choice uniform trunc CC CT X Y 100 5 1 (Nat.sqrt (List.length r)) D OY' (TI _ FW) w) as (w' & t & ts & E & LT & OKT & FT).
  exists w', (map snd ts). split.
  { unfold rf_trees_full, bo_get_trees. replace (Nat.eqb (nrows X) (List.length Y)) with true by (symmetry; now apply Nat.eqb_eq).
    unfold bind, lift. cbn [assert_]. rewrite E. reflexivity. }
  pose proof (trees_grown X Y 5 1 ts 480 WF OY' FT OKT) as GR. intros Xq HQ.
  apply (predict_bnd 480 (List.length r)); [lia| | | | |apply CS].
  - destruct ts; [discriminate LT|discriminate].
  - rewrite map_length, LT. unfold few. cbn. lia.
  - change (@mcols f64 X) with (@mcols NumF X) in GR. rewrite CX in GR. exact GR.
  - exact HQ.
Qed.

Definition rf_fine (o : rf_obj NumF) : Prop := In (ro_acq NumF o) ["pi"; "ei"; "ucb"; "aei"; "pure_exploit"; "pure_explore"] /\ ro_range NumF o <> [] /\ finite_range (ro_range NumF o).

Lemma rf_acq_fine o X Y ts (pts : list (list NumF)) : rf_fine o -> @dataN NumF (ro_range NumF o) (within 480) few X Y -> forest_fine (List.length (ro_range NumF o)) ts -> pts <> [] ->
  Forall (fun p => List.length p = List.length (ro_range NumF o)) pts ->
  exists l, @rf_acquisitions NumF cdf pdf nlog (List.length (ro_range NumF o)) (ro_acq NumF o) schedule X Y ts pts = Ok l /\ List.length l = List.length pts /\
    Forall (within 540) l /\ Forall (fun v => nltinf NumF v = true) (BOModel.neg NumF (scaled NumF l)).
Proof.
  intros (V1 & V2 & V3) (CX & LX & NY & OY & CY & FX) US NE FP.
  destruct (US pts) as (out & EO & LO & HO); [now rewrite Forall_forall in FP|].
  assert (PO : preds_ok (map fst out) (map snd out)).
  { rewrite Forall_forall in HO. split; [now rewrite !map_length|]. split; apply Forall_forall; intros x Hx; apply in_map_iff in Hx as (q & <- & Hq); destruct (HO q Hq) as (A & B & C).
    - exact A.
    - split; [exact B|exact C]. }
  destruct (acquisitions_bnd cdf pdf nlog HC HP HL (ro_acq NumF o) (GP_NOISE NumF) (map fst out) (map snd out) Y V1 gp_noise_fine PO NY CY OY) as (f & a & Ef & Ea & La & Ba).
  exists a. split; [|split; [rewrite La, map_length; exact LO|split; [exact Ba|]]].
  - unfold rf_acquisitions. rewrite (BOAcqProofs.batch_ok NE FP). cbn [rbind mcols]. replace (Nat.eqb (nrows X) (List.length Y)) with true by (symmetry; now apply Nat.eqb_eq).
    rewrite CX, Nat.eqb_refl. cbn [assert_ rbind andb]. setoid_rewrite Ef. cbn [rbind]. unfold rf_posteriors. cbn [mcols mrows]. rewrite Nat.eqb_refl. cbn [assert_ rbind].
    change (nrows (mkmat pts (List.length (ro_range NumF o)))) with (List.length pts). rewrite EO. cbn [rbind]. exact Ea.
  - eapply Forall_impl; [|apply neg_scaled_bnd, Ba]. intros v Hv. exact (bounded_ltinf _ _ Hv).
Qed.

Theorem rf_full_runs_float o X Y samp num seed sw : rf_fine o -> @proper_samplesN NumF W (ro_range NumF o) get_samples -> @dataN NumF (ro_range NumF o) (within 480) few X Y ->
  In samp ["grid"; "sobol"; "halton"; "uniform"; "gaussian"] -> (0 < num)%Z ->
  runs (@rf_optimize_full NumF nlog cdf pdf W get_samples time_ choice uniform trunc schedule o X Y samp num seed) sw
    (fun r _ => proposalN (ro_range NumF o) (fst r) (ri_points NumF _ (snd r)) /\ List.length (ri_acqs NumF _ (snd r)) = nrows (ri_points NumF _ (snd r)) /\
       Forall (fun v => nltinf NumF v = true) (ri_acqs NumF _ (snd r))).
Proof.
  intros V HG D HSM HNUM. unfold rf_optimize_full.
  apply rf_optimize_runsN with (usable := forest_fine (List.length (ro_range NumF o))) (oky := within 480) (cap := few); try assumption.
  - exact NumF_ord.
  - clear X Y D. intros X Y w D. destruct V as (_ & V2 & V3). now apply (forest_fine_grown (ro_range NumF o) X Y w).
  - clear X Y D. intros X Y ts pts D US NE FP. destruct (rf_acq_fine o X Y ts pts V D US NE FP) as (l & A & B & _ & C). eauto.
  - exact normalize_within.
Qed.

Notation program := (@bo_program NumF nexp nlog cdf pdf npi inv chol cho_solve slogdet gamma digamma W get_samples lbfgsb direct cma time_ minimize after pm choice uniform trunc schedule target).
Theorem program_returns_float da ca a model num_init seed w : bo_init NumF da ca a = Ok model -> a_surrogate NumF a = "rf" -> a_range NumF a <> [] -> finite_range (a_range NumF a) ->
  (0 < num_init)%Z -> few (Z.to_nat num_init + Z.to_nat (a_num_iter NumF a)) ->
  @proper_samplesN NumF W (a_range NumF a) get_samples -> @returns_inN NumF W (a_range NumF a) (within 480) target ->
  exists w' t r, program da ca a num_init seed w = (w', t, Ok r) /\
    nrows (ro_X r) = (Z.to_nat num_init + Z.to_nat (a_num_iter NumF a))%nat /\ List.length (ro_Y r) = nrows (ro_X r) /\
    Forall (@in_rangeN NumF (a_range NumF a)) (mrows (ro_X r)) /\ Forall (within 480) (ro_Y r).
Proof.
  intros EI ES NR FR HNI FW HG HT. unfold bo_program. rewrite EI.
  unfold bo_init in EI. apply assert_ok in EI as (R0 & EI). apply assert_ok in EI as (_ & EI). apply assert_ok in EI as (NS & EI). apply Z.ltb_lt in NS.
  apply assert_ok in EI as (_ & EI). apply assert_ok in EI as (_ & EI). apply assert_ok in EI as (_ & EI). apply assert_ok in EI as (IM & EI).
  apply assert_ok in EI as (SM & EI). apply samplers_known in SM. apply assert_ok in EI as (_ & EI). apply assert_ok in EI as (_ & EI). apply assert_ok in EI as (_ & EI).
  apply assert_ok in EI as (ML & EI). apply assert_ok in EI as (_ & EI).
  destruct (check_optimizer_method_bo _ _ _ _) as [ob|]; [|discriminate]. cbn [rbind] in EI. rewrite ES in EI.
  change (str_in "rf" ALLOWED_SURROGATE_TREES) with true in EI. cbv iota in EI.
  destruct (rf_init _ _ _ _ _ _ _ _) as [o|] eqn:EO; [|discriminate]. cbn in EI. injection EI as <-.
  assert (V : rf_fine o /\ ro_range NumF o = a_range NumF a).
  { unfold rf_init in EO. apply assert_ok in EO as (_ & EO). apply assert_ok in EO as (_ & EO). apply assert_ok in EO as (A0 & EO). apply assert_ok in EO as (_ & EO).
    destruct (base_init _ _ _ _ _ _ _) as [ob'|] eqn:EB; [|discriminate]. cbn [rbind] in EO. injection EO as <-.
    split; [|reflexivity]. split; [cbn [ro_acq]; apply str_in_In in A0; cbn in A0 |- *; tauto|]. split; [exact NR|exact FR]. }
  destruct V as (V & ER). destruct (initials_known IM) as (IM1 & IM2).
  assert (SR : @single_returns NumF unit W (a_range NumF a) (within 480) few
     (@rf_single NumF nlog cdf pdf W get_samples time_ choice uniform trunc schedule o (a_samp NumF a) (a_num_samples NumF a)) (fun _ => True)).
  { intros X Y s w0 D _. rewrite <- ER in D, HG.
    destruct (untracedN (@rf_to_info NumF (list (tree NumF))) (rf_full_runs_float o X Y (a_samp NumF a) (a_num_samples NumF a) None (s, w0) V HG D SM NS)) as (s' & w' & p & g & E & PO & LA & LI).
    exists s', w', p, (rf_to_info NumF g). split; [exact E|]. split; [exact Logic.I|]. rewrite <- ER. split; [exact PO|]. split; [exact LA|exact LI]. }
  destruct (forget_runs (@optimize_total NumF NumF_ord unit W (a_range NumF a) (within 480) few few_le target time_ HT _ (fun _ => True) SR get_samples HG (a_init NumF a) (a_num_iter NumF a) num_init seed (tt, w) IM1 IM2 HNI FW Logic.I))
    as (w' & t & r & E & sw & ((D1 & D2 & D3 & D4 & D5 & D6) & LN & _)).
  exists w', t, r. split; [exact E|]. split; [exact LN|]. split; [symmetry; exact D2|]. split; [exact D6|exact D4].
Qed.
End Program.
