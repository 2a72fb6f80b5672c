(** Acquisition values after changes of the responses. *)
From Verif Require Import Base Num UtilsSpec UtilsModel HypsModel CovModel KernelSpec CovSpec CovProofs CovProofs2 GPModel GPSpec GPProofs GPProofs2 PredSpec PredProofs NearSpec NearReal NearProofs2
  AcqModel BOAcqModel BOTotalSpec BOTotalProofs RegretSpec RegretReal RegretProofs RegretRun DampSpec DampProofs.
From Coq Require Import List Reals Lra Lia Arith String Bool Classical ZArith.
Import ListNotations.
Open Scope R_scope.
Set Implicit Arguments.
Unset Strict Implicit.
Unset Asymmetric Patterns.
Set Bullet Behavior "Strict Subproofs".

Lemma squeeze_column (a : list (list R)) k : is_mx k 1 a -> squeeze1 NumR a = Ok (map (fun j => at_ a j 0) (seq 0 k)).
Proof.
  revert k. induction a as [|r a IH]; intros k [L H]; cbn [List.length] in L; subst k; [reflexivity|].
  assert (A := H r (or_introl eq_refl)). destruct r as [|u [|? ?]]; try discriminate A. cbn [List.length seq map].
  unfold squeeze1. cbn [mapM rbind]. change (mapM _ a) with (squeeze1 NumR a). rewrite (IH (List.length a)) by (split; [reflexivity|intros r Hr; apply H; now right]).
  cbn [rbind]. rewrite <- seq_shift, map_map. reflexivity.
Qed.
Lemma map2_map {D} (g : R -> R -> R) (f1 f2 : D -> R) l : AcqModel.map2 NumR g (map f1 l) (map f2 l) = map (fun x => g (f1 x) (f2 x)) l.
Proof. induction l as [|x l IH]; [reflexivity|]. cbn. f_equal. exact IH. Qed.

Section Robust.
Variables (name : string) (h : dict NumR) (d : nat) (ls : pyval NumR) (s nz : R) (K : elem -> elem -> R) (pm : prior NumR) (m : elem -> R).
Variables (inv : list (list R) -> res (list (list R))) (cdf pdf : R -> R).
Hypotheses (RG : regression name h d ls s nz K pm m) (HI : inv_contract inv) (HN : profile_of name <> None).
Variables (X : mat NumR) (pts : list (list NumR)).
Hypotheses (FX : fits name (A2 NumR X) d) (NP : pts <> []) (FP : Forall (fun p => List.length p = d) pts).
Let XC : mcols X = d. Proof. exact (proj2 (proj2 FX)). Qed.
Let k := List.length pts.
Let Xs := A2 NumR (mkmat pts d).
Lemma pts_fits : fits name Xs d.
Proof. split; [|split; [exact HN|reflexivity]]. intros r Hr. rewrite Forall_forall in FP. exact (FP r Hr). Qed.
Lemma list_column (Y : list R) : List.length Y = nrows X -> column (alen (A2 NumR X)) (column_of NumR Y).
Proof.
  intros L. split; [reflexivity|]. unfold column_of. cbn [mrows alen]. split; [rewrite map_length; exact L|]. intros r Hr. apply in_map_iff in Hr as (y & <- & _). reflexivity.
Qed.
Lemma values_at Y str_acq fa : List.length Y = nrows X -> choose_fun_acquisition NumR cdf pdf ln str_acq (Some nz) = Ok fa ->
  exists mu sd S, @predict_with_hyps NumR exp inv (A2 NumR X) (column_of NumR Y) Xs h name pm = Ok (mu, sd, S) /\
    acquisition_values cdf pdf inv d name h pm str_acq X Y pts = fa (map (fun j => at_ mu j 0) (seq 0 k)) (map (fun j => at_ sd j 0) (seq 0 k)) Y.
Proof.
  intros LY EA.
  destruct (inverse_ok FX (reg_hyps RG) (reg_cov RG) HI) as (C & B & EI & _ & SC & IV & _).
  destruct (predict_ok RG HI FX pts_fits (list_column LY)) as (mu & sd & Sg & EP & S1 & S2 & _ & _ & SD & _).
  exists mu, sd, Sg. split; [exact EP|].
  assert (EP' : @predict_with_cov NumR exp (A2 NumR X) (column_of NumR Y) Xs C B h name pm = Ok (mu, sd, Sg)).
  { unfold predict_with_hyps in EP. destruct (validate_common_args _ _ _); [|discriminate]. cbn [rbind] in EP. destruct (check_str_cov _ _ _); [|discriminate]. cbn [rbind] in EP.
    rewrite EI in EP. exact EP. }
  assert (SH : shapes_ok NumR d X Y (mkmat pts d) C B = true).
  { assert (Q : forall a : list (list R), is_mx (nrows X) (nrows X) a -> has_shape NumR (nrows X) (nrows X) a = true).
    { intros a [LA FA]. apply andb_true_iff. split; [apply Nat.eqb_eq; exact LA|]. apply forallb_forall. intros r I. apply Nat.eqb_eq. exact (FA r I). }
    destruct IV as [SB _]. unfold shapes_ok. change (alen (A2 NumR X)) with (nrows X) in *. rewrite (Q C SC), (Q B SB). rewrite LY, XC. cbn [mcols]. now rewrite !Nat.eqb_refl. }
  unfold acquisition_values. rewrite EI. cbn [rbind]. unfold gp_acquisitions, acquisitions.
  rewrite (@BOAcqProofs.batch_ok NumR pts d NP FP). cbn [rbind]. rewrite SH. cbn [assert_ rbind].
  rewrite (noise_of_hyps (reg_hyps RG)). cbn [rbind]. setoid_rewrite EA. cbn [rbind]. unfold gp_posteriors. rewrite SH. cbn [assert_ rbind]. unfold Xs in EP'. rewrite EP'. cbn [rbind].
  change (alen Xs) with k in S1, S2. rewrite (squeeze_column S1), (squeeze_column S2). reflexivity.
Qed.

Variables (Y Y' : list R).
Hypotheses (s0 : 0 < s) (LY : List.length Y = nrows X) (LY' : List.length Y' = nrows X).
Let c := s / (2 * sqrt (nz * nz + jitter_cov)) * response_change (nrows X) (column_of NumR Y) (column_of NumR Y').
Lemma change_ge0 : 0 <= c.
Proof.
  unfold c, response_change. apply Rmult_le_pos; [|apply sqrt_pos]. apply Rmult_le_pos; [lra|]. left. apply Rinv_0_lt_compat. assert (Q := sqrt_lt_R0 _ (noise_pos nz)). lra.
Qed.
Lemma values_change str_acq : In str_acq ["ucb"; "pure_exploit"; "pure_explore"]%string ->
  exists vs vs', acquisition_values cdf pdf inv d name h pm str_acq X Y pts = Ok vs /\ acquisition_values cdf pdf inv d name h pm str_acq X Y' pts = Ok vs' /\
    List.length vs = k /\ List.length vs' = k /\
    (forall j, (j < k)%nat -> Rabs (nth j vs 0 - nth j vs' 0) <= c) /\ (str_acq = "pure_explore"%string -> vs = vs').
Proof.
  intros HA.
  assert (G : forall fa (g : R -> R -> R), choose_fun_acquisition NumR cdf pdf ln str_acq (Some nz) = Ok fa ->
    (forall mu sd l y, List.length y = nrows X -> fa (map mu l) (map sd l) y = Ok (map (fun j : nat => g (mu j) (sd j)) l)) ->
    (forall a a' b, Rabs (g a b - g a' b) <= Rabs (a - a')) -> (str_acq = "pure_explore"%string -> forall a a' b, g a b = g a' b) ->
    exists vs vs', acquisition_values cdf pdf inv d name h pm str_acq X Y pts = Ok vs /\ acquisition_values cdf pdf inv d name h pm str_acq X Y' pts = Ok vs' /\
    List.length vs = k /\ List.length vs' = k /\
    (forall j, (j < k)%nat -> Rabs (nth j vs 0 - nth j vs' 0) <= c) /\ (str_acq = "pure_explore"%string -> vs = vs')).
  { intros fa g EA FA GL GE. destruct (values_at LY EA) as (mu & sd & S & EP & EV). destruct (values_at LY' EA) as (mu' & sd' & S' & EP' & EV').
    assert (MC := fun j Hj => @mean_change_s _ _ _ _ _ _ _ _ _ _ RG HI _ _ _ _ _ _ _ _ _ _ s0 FX pts_fits (list_column LY) (list_column LY') EP EP' j Hj).
    change (alen Xs) with k in MC. change (alen (A2 NumR X)) with (nrows X) in MC. fold c in MC. rewrite EV, EV', !FA by assumption. do 2 eexists. split; [reflexivity|]. split; [reflexivity|].
    split; [now rewrite map_length, seq_length|]. split; [now rewrite map_length, seq_length|]. split.
    - intros j Hj. destruct (MC j Hj) as (M1 & M2).
      rewrite (nth_indep _ 0 (g (at_ mu 0 0) (at_ sd 0 0))), (nth_indep (map _ _) 0 (g (at_ mu' 0 0) (at_ sd' 0 0))) by (rewrite map_length, seq_length; exact Hj).
      rewrite (map_nth (fun j => g (at_ mu j 0) (at_ sd j 0))), (map_nth (fun j => g (at_ mu' j 0) (at_ sd' j 0))), !seq_nth by exact Hj. cbn [Nat.add]. rewrite M2.
      eapply Rle_trans; [apply GL|exact M1].
    - intros EE. apply map_ext_in. intros j Hj. apply in_seq in Hj. destruct (MC j ltac:(lia)) as (_ & M2). rewrite M2. now apply GE. }
  destruct HA as [<-|[<-|[<-|[]]]].
  - apply (G (fun m s Y => acq_ucb NumR ln m s (Some Y) (nofZ NumR 2) true) (fun a b => - a + 2 * ln (INR (nrows X) + 1) * b)); [reflexivity| | |discriminate].
    + intros mu sd l y Ly. unfold acq_ucb, same_len. rewrite !map_length, Nat.eqb_refl. cbn [assert_ rbind]. rewrite map2_map, Ly. f_equal. apply map_ext. intros j. rewrite INR_IZR_INZ. reflexivity.
    + intros a a' b. replace (- a + 2 * ln (INR (nrows X) + 1) * b - (- a' + 2 * ln (INR (nrows X) + 1) * b)) with (- (a - a')) by ring. rewrite Rabs_Ropp. lra.
  - apply (G (fun m _ _ => acq_pure_exploit NumR m) (fun a _ => - a)); [reflexivity| | |discriminate].
    + intros mu sd l y _. unfold acq_pure_exploit. now rewrite map_map.
    + intros a a' _. replace (- a - - a') with (- (a - a')) by ring. rewrite Rabs_Ropp. lra.
  - apply (G (fun _ s _ => acq_pure_explore NumR s) (fun _ b => b)); [reflexivity| | |].
    + intros mu sd l y _. reflexivity.
    + intros a a' b. rewrite Rminus_diag_eq by reflexivity. rewrite Rabs_R0. apply Rabs_pos.
    + reflexivity.
Qed.
Lemma choice_change str_acq vs vs' : In str_acq ["ucb"; "pure_exploit"; "pure_explore"]%string ->
  acquisition_values cdf pdf inv d name h pm str_acq X Y pts = Ok vs -> acquisition_values cdf pdf inv d name h pm str_acq X Y' pts = Ok vs' ->
  forall i delta, (i < k)%nat -> (forall j, (j < k)%nat -> nth j vs' 0 <= nth i vs' 0 + delta) -> forall j, (j < k)%nat -> nth j vs 0 <= nth i vs 0 + (delta + 2 * c).
Proof.
  intros HA E E' i delta Hi HM j Hj. destruct (values_change HA) as (a & a' & E1 & E1' & _ & _ & H & _). rewrite E in E1. rewrite E' in E1'. apply Ok_inj in E1. apply Ok_inj in E1'. subst a a'.
  assert (A := H i Hi). assert (B := H j Hj). assert (M := HM j Hj). assert (A1 := Rle_abs (nth i vs 0 - nth i vs' 0)). rewrite <- Rabs_Ropp in A. assert (A2 := Rle_abs (- (nth i vs 0 - nth i vs' 0))). assert (B1 := Rle_abs (nth j vs 0 - nth j vs' 0)). lra.
Qed.
End Robust.
