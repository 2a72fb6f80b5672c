(** Acquisition values of the Student-t surrogate after changes of the responses. *)
From Verif Require Import Base Num UtilsSpec UtilsModel HypsModel CovModel KernelSpec CovSpec CovProofs CovProofs2 GPModel GPSpec GPProofs GPProofs2 GPProofs3 PredSpec PredProofs NearSpec NearReal NearProofs2
  AcqModel BOAcqModel BOTotalSpec BOTotalProofs StudentProofs RegretSpec RegretReal RegretProofs RegretRun DampSpec DampProofs TDampProofs RobustProofs.
From Coq Require Import List Reals Lra Lia Arith String Bool Classical ZArith.
Import ListNotations.
Open Scope R_scope.
Set Implicit Arguments.
Unset Strict Implicit.
Unset Asymmetric Patterns.
Set Bullet Behavior "Strict Subproofs".

(** BOwTP.compute_acquisitions at the points [pts] for the data [X], [Y] and the given hyperparameters, with the matrices of
    covariance.get_kernel_inverse (bo_w_tp.py:243-306) *)
Definition t_acquisition_values (cdf pdf : R -> R) (inv : list (list R) -> res (list (list R))) (d : nat) (name : string) (h : dict NumR) (pm : prior NumR) (str_acq : string)
    (X : mat NumR) (Y : list R) (pts : list (list R)) : res (list R) :=
  do k <- @get_kernel_inverse NumR exp inv (A2 NumR X) h name true false;
  let '(C, B, _) := k in @tp_acquisitions NumR exp cdf pdf ln d pm str_acq name X Y C B h pts.
(** how much the acquisition function weighs changes of the mean and of the deviation, for [n] measurements *)
Definition weights_of (str_acq : string) (n : nat) : R * R :=
  if (str_acq =? "ucb")%string then (1, 2 * ln (INR n + 1)) else if (str_acq =? "pure_exploit")%string then (1, 0) else (0, 1).

Section Robust.
Variables (name : string) (h : dict NumR) (d : nat) (ls : pyval NumR) (s nz : R) (K : elem -> elem -> R) (pm : prior NumR) (m : elem -> R).
Variables (inv : list (list R) -> res (list (list R))) (cdf pdf : R -> R) (nu : R).
Hypotheses (RG : regression name h d ls s nz K pm m) (HI : inv_contract inv) (HN : profile_of name <> None) (ND : dget h "dof" = Some (PFloat NumR nu)) (NU : 2 < nu).
Variables (X : mat NumR) (pts : list (list NumR)).
Hypotheses (FX : fits name (A2 NumR X) d) (NP : pts <> []) (FP : Forall (fun p => List.length p = d) pts).
Let XC : mcols X = d. Proof. exact (proj2 (proj2 FX)). Qed.
Let k := List.length pts.
Let Xs := A2 NumR (mkmat pts d).
Lemma t_values_at Y str_acq fa : List.length Y = nrows X -> choose_fun_acquisition NumR cdf pdf ln str_acq (Some nz) = Ok fa ->
  exists r mu sd S, @tp_predict_with_hyps NumR exp inv (A2 NumR X) (column_of NumR Y) Xs h name pm = Ok (r, mu, sd, S) /\
    t_acquisition_values cdf pdf inv d name h pm str_acq X Y pts = fa (map (fun j => at_ mu j 0) (seq 0 k)) (map (fun j => at_ sd j 0) (seq 0 k)) Y.
Proof.
  intros LY EA. assert (FPs := pts_fits HN FP). assert (LC := list_column LY).
  destruct (inverse_ok FX (reg_hyps RG) (reg_cov RG) HI) as (C & B & EI & _ & SC & IV & _).
  destruct (predict_ok RG HI FX FPs LC) as (mu0 & sd0 & S0 & EP0 & S1 & _).
  destruct (tp_ok RG HI ND FX FPs LC) as (mu & sd1 & S1' & sd & Sg & EP1 & EP & S2 & _).
  rewrite EP0 in EP1. injection EP1 as <- <- <-.
  do 4 eexists. split; [exact EP|].
  assert (EP' := EP). unfold tp_predict_with_hyps in EP'. destruct (validate_common_args _ _ _) in EP'; [|discriminate]. cbn [rbind] in EP'. destruct (check_str_cov _ _ _) in EP'; [|discriminate]. cbn [rbind] in EP'.
  rewrite EI in EP'. cbn [rbind] in EP'.
  assert (SH : shapes_ok NumR d X Y (mkmat pts d) C B = true).
  { assert (Q : forall a : list (list R), is_mx (nrows X) (nrows X) a -> has_shape NumR (nrows X) (nrows X) a = true).
    { intros ax [LA FA]. apply andb_true_iff. split; [apply Nat.eqb_eq; exact LA|]. apply forallb_forall. intros r I. apply Nat.eqb_eq. exact (FA r I). }
    destruct IV as [SB _]. unfold shapes_ok. change (alen (A2 NumR X)) with (nrows X) in *. rewrite (Q C SC), (Q B SB). rewrite LY, XC. cbn [mcols]. now rewrite !Nat.eqb_refl. }
  unfold t_acquisition_values. rewrite EI. cbn [rbind]. unfold tp_acquisitions, acquisitions.
  rewrite (@BOAcqProofs.batch_ok NumR pts d NP FP). cbn [rbind]. rewrite SH. cbn [assert_ rbind].
  rewrite (noise_of_hyps (reg_hyps RG)). cbn [rbind]. setoid_rewrite EA. cbn [rbind]. unfold tp_posteriors. rewrite SH. cbn [assert_ rbind]. unfold Xs in EP'. rewrite EP'. cbn [rbind].
  change (alen (A2 NumR (mkmat pts d))) with k in S1, S2. rewrite (squeeze_column S1), (squeeze_column S2). reflexivity.
Qed.

Variables (Y Y' : list R).
Hypotheses (s0 : 0 < s) (LY : List.length Y = nrows X) (LY' : List.length Y' = nrows X).
Lemma t_values_change str_acq : In str_acq ["ucb"; "pure_exploit"; "pure_explore"]%string ->
  let r := response_change (nrows X) (column_of NumR Y) (column_of NumR Y') in
  let cm := s / (2 * sqrt (nz * nz + jitter_cov)) * r in let cs := sqrt ((s * s + jitter_cov) / ((nz * nz + jitter_cov) * (nu + INR (nrows X) - 2))) * r in
  let (wm, ws) := weights_of str_acq (nrows X) in
  exists vs vs', t_acquisition_values cdf pdf inv d name h pm str_acq X Y pts = Ok vs /\ t_acquisition_values cdf pdf inv d name h pm str_acq X Y' pts = Ok vs' /\
    List.length vs = List.length pts /\ List.length vs' = List.length pts /\
    (forall j, (j < List.length pts)%nat -> Rabs (nth j vs 0 - nth j vs' 0) <= wm * cm + ws * cs).
Proof.
  intros HA r cm cs. fold k.
  assert (G : forall fa wm ws, 0 <= wm -> 0 <= ws -> choose_fun_acquisition NumR cdf pdf ln str_acq (Some nz) = Ok fa ->
    (forall (mu sd : nat -> R) l y, List.length y = nrows X -> fa (map mu l) (map sd l) y = Ok (map (fun j : nat => - wm * mu j + ws * sd j) l)) ->
    exists vs vs', t_acquisition_values cdf pdf inv d name h pm str_acq X Y pts = Ok vs /\ t_acquisition_values cdf pdf inv d name h pm str_acq X Y' pts = Ok vs' /\
    List.length vs = k /\ List.length vs' = k /\
    (forall j, (j < k)%nat -> Rabs (nth j vs 0 - nth j vs' 0) <= wm * cm + ws * cs)).
  { intros fa wm ws W1 W2 EA FA. destruct (t_values_at LY EA) as (r1 & mu & sd & S & EP & EV). destruct (t_values_at LY' EA) as (r2 & mu' & sd' & S' & EP' & EV').
    assert (MC := fun j Hj => @tp_change _ _ _ _ _ _ _ _ _ _ _ RG HI ND NU _ _ _ _ _ _ _ _ _ _ _ _ s0 FX (pts_fits HN FP) (list_column LY) (list_column LY') EP EP' j Hj).
    change (alen Xs) with k in MC. change (alen (A2 NumR X)) with (nrows X) in MC. fold r in MC. fold cm cs in MC. rewrite EV, EV', !FA by assumption. do 2 eexists. split; [reflexivity|]. split; [reflexivity|].
    split; [now rewrite map_length, seq_length|]. split; [now rewrite map_length, seq_length|].
    intros j Hj. destruct (MC j Hj) as (M1 & M2).
    rewrite (nth_indep _ 0 (- wm * at_ mu 0 0 + ws * at_ sd 0 0)), (nth_indep (map _ _) 0 (- wm * at_ mu' 0 0 + ws * at_ sd' 0 0)) by (rewrite map_length, seq_length; exact Hj).
    rewrite (map_nth (fun j => - wm * at_ mu j 0 + ws * at_ sd j 0)), (map_nth (fun j => - wm * at_ mu' j 0 + ws * at_ sd' j 0)), !seq_nth by exact Hj. cbn [Nat.add].
    replace (- wm * at_ mu j 0 + ws * at_ sd j 0 - (- wm * at_ mu' j 0 + ws * at_ sd' j 0)) with (- (wm * (at_ mu j 0 - at_ mu' j 0)) + ws * (at_ sd j 0 - at_ sd' j 0)) by ring.
    eapply Rle_trans; [apply Rabs_triang|]. rewrite Rabs_Ropp, !Rabs_mult, (Rabs_pos_eq wm), (Rabs_pos_eq ws) by assumption.
    apply Rplus_le_compat; apply Rmult_le_compat_l; assumption. }
  destruct HA as [<-|[<-|[<-|[]]]]; cbn [weights_of String.eqb Ascii.eqb Bool.eqb].
  - assert (L0 : 0 <= 2 * ln (INR (nrows X) + 1)).
    { assert (n0 := pos_INR (nrows X)). apply Rmult_le_pos; [lra|]. rewrite <- ln_1. destruct (Rle_lt_or_eq_dec _ _ n0) as [P|P]; [left; apply ln_increasing; lra|right; rewrite <- P; f_equal; ring]. }
    apply (G (fun m s Y => acq_ucb NumR ln m s (Some Y) (nofZ NumR 2) true)); [lra|exact L0|reflexivity|].
    intros mu sd l y Ly. unfold acq_ucb, same_len. rewrite !map_length, Nat.eqb_refl. cbn [assert_ rbind]. rewrite map2_map, Ly. f_equal. apply map_ext. intros j.
    rewrite INR_IZR_INZ. replace (- (1) * mu j) with (- mu j) by ring. reflexivity.
  - apply (G (fun m _ _ => acq_pure_exploit NumR m)); [lra|lra|reflexivity|]. intros mu sd l y _. unfold acq_pure_exploit. rewrite map_map. f_equal. apply map_ext. intros j. transitivity (Ropp (mu j)); [reflexivity|]. generalize (mu j : R) (sd j : R). intros a b. change (@eq R (- a) (- (1) * a + 0 * b)). clear. revert a b. intros a b; lra.
  - apply (G (fun _ s _ => acq_pure_explore NumR s)); [lra|lra|reflexivity|]. intros mu sd l y _. unfold acq_pure_explore. f_equal. apply map_ext. intros j. generalize (mu j : R) (sd j : R). intros a b. change (@eq R b (- 0 * a + 1 * b)). lra.
Qed.
Lemma t_choice_change str_acq vs vs' : In str_acq ["ucb"; "pure_exploit"; "pure_explore"]%string ->
  t_acquisition_values cdf pdf inv d name h pm str_acq X Y pts = Ok vs -> t_acquisition_values cdf pdf inv d name h pm str_acq X Y' pts = Ok vs' ->
  let r := response_change (nrows X) (column_of NumR Y) (column_of NumR Y') in
  let cm := s / (2 * sqrt (nz * nz + jitter_cov)) * r in let cs := sqrt ((s * s + jitter_cov) / ((nz * nz + jitter_cov) * (nu + INR (nrows X) - 2))) * r in
  let (wm, ws) := weights_of str_acq (nrows X) in
  forall i delta, (i < List.length pts)%nat -> (forall j, (j < List.length pts)%nat -> nth j vs' 0 <= nth i vs' 0 + delta) ->
  forall j, (j < List.length pts)%nat -> nth j vs 0 <= nth i vs 0 + (delta + 2 * (wm * cm + ws * cs)).
Proof.
  intros HA E E' r cm cs. assert (V := t_values_change HA). cbv zeta in V. fold r in V. fold cm cs in V. destruct (weights_of str_acq (nrows X)) as [wm ws].
  intros i delta Hi HM j Hj. destruct V as (a & a' & E1 & E1' & _ & _ & H). rewrite E in E1. rewrite E' in E1'. apply Ok_inj in E1. apply Ok_inj in E1'. subst a a'.
  assert (A := H i Hi). assert (B := H j Hj). assert (M := HM j Hj). assert (A1 := Rle_abs (nth i vs 0 - nth i vs' 0)). rewrite <- Rabs_Ropp in A. assert (A2 := Rle_abs (- (nth i vs 0 - nth i vs' 0))). assert (B1 := Rle_abs (nth j vs 0 - nth j vs' 0)). lra.
Qed.
End Robust.
