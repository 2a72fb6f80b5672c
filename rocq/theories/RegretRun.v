(** Loops that explore or follow the upper confidence bound, with fixed hyperparameters. *)
From Verif Require Import Base Num UtilsSpec UtilsModel HypsModel CovModel KernelSpec CovSpec CovProofs CovProofs2 GPModel GPSpec GPProofs GPProofs2 PredSpec PredProofs NearSpec NearReal NearProofs2
  AcqModel BOAcqModel BOTotalSpec BOTotalProofs RegretSpec RegretReal RegretProofs.
From Coq Require Import List Reals Lra Lia Arith String Bool Classical ZArith.
Import ListNotations.
Open Scope R_scope.
Set Implicit Arguments.
Unset Strict Implicit.
Unset Asymmetric Patterns.
Set Bullet Behavior "Strict Subproofs".

Section Run.
Variables (name : string) (h : dict NumR) (d : nat) (ls : pyval NumR) (s nz : R) (K : elem -> elem -> R) (pm : prior NumR) (m : elem -> R).
Variables (inv : list (list R) -> res (list (list R))) (cdf pdf : R -> R).
Hypotheses (RG : regression name h d ls s nz K pm m) (HI : inv_contract inv) (HN : profile_of name <> None).
Let t := nz * nz + jitter_cov.
Let t_pos : 0 < t. Proof. exact (noise_pos nz). Qed.

Lemma K_points x y : K (EPoint x) (EPoint y) <= s * s /\ s * s - s * s * curvature name * scaled_sq (ls_at ls) d x y / 2 <= K (EPoint x) (EPoint y).
Proof.
  destruct (profile_of name) as [p|] eqn:P; [|congruence]. pose proof (reg_cov RG) as E. unfold cov_of in E. rewrite P in E. injection E as <-. cbn [point].
  split; [apply (base_kernel_bounds0 _ _ _ _ _ P)|]. unfold base_kernel.
  assert (Hr : 0 <= scaled_dist (ls_at ls) d x y) by apply sqrt_pos. assert (L := profile_low _ P Hr).
  assert (SQ : scaled_dist (ls_at ls) d x y * scaled_dist (ls_at ls) d x y = scaled_sq (ls_at ls) d x y).
  { apply sqrt_sqrt. unfold scaled_sq. clear. induction (seq 0 d) as [|i l IH]; cbn [map Rsum]; [lra|]. assert (Q := Rle_0_sqr ((nth i x 0 - nth i y 0) / ls_at ls i)). unfold Rsqr in Q. cbv zeta. lra. }
  rewrite SQ in L. assert (S0 := Rle_0_sqr s). unfold Rsqr in S0. set (q := scaled_sq _ _ _ _) in *.
  replace (s * s - s * s * curvature name * q / 2) with (s * s * (1 - curvature name / 2 * q)) by field. now apply Rmult_le_compat_l.
Qed.

(** all that the predictions at two points for the data of a history give *)
Section At.
Variables (x : nat -> list R) (n : nat) (fe : elem -> R).
Let f := fun x => fe (EPoint x).
Let X := points_of d x n.
Let Y := values_of f x n.
Hypothesis HL : forall i, (i < n)%nat -> List.length (x i) = d.

Lemma X_fits : fits name (A2 NumR X) d.
Proof.
  split; [|split; [exact HN|reflexivity]]. intros r Hr. unfold X, points_of in *. cbn [mrows mcols] in *. apply in_map_iff in Hr as (i & <- & Hi). apply in_seq in Hi. apply HL. lia.
Qed.
Lemma X_len : alen (A2 NumR X) = n.
Proof. unfold X, points_of, alen. cbn. unfold nrows. cbn [mrows]. now rewrite map_length, seq_length. Qed.
Lemma X_nth i : (i < n)%nat -> elem_nth (A2 NumR X) i = EPoint (x i).
Proof.
  intros Hi. unfold elem_nth, elems, X, points_of. cbn [mrows]. change (EPoint []) with (EPoint ([] : list R)). rewrite (map_nth EPoint). f_equal.
  rewrite (nth_indep _ [] (x 0%nat)) by (rewrite map_length, seq_length; exact Hi). change (x 0%nat) with (x 0%nat). rewrite (map_nth x), seq_nth by exact Hi. reflexivity.
Qed.
Lemma Y_column : column (alen (A2 NumR X)) (column_of NumR Y).
Proof.
  rewrite X_len. split; [reflexivity|]. unfold column_of, Y, values_of. cbn [mrows]. split; [rewrite !map_length; apply seq_length|].
  intros r Hr. apply in_map_iff in Hr as (y & <- & _). reflexivity.
Qed.
Lemma Y_out i : (i < n)%nat -> out (column_of NumR Y) i = fe (elem_nth (A2 NumR X) i).
Proof.
  intros Hi. rewrite X_nth by exact Hi. unfold out, at_, column_of, Y, values_of. cbn [mrows]. rewrite map_map.
  rewrite (nth_indep _ [] [f (x 0%nat)]) by (rewrite map_length, seq_length; exact Hi). rewrite (map_nth (fun i => [f (x i)])), seq_nth by exact Hi. reflexivity.
Qed.
Lemma no_errors : errors_sq fe (A2 NumR X) (column_of NumR Y) = 0.
Proof.
  unfold errors_sq. rewrite (Rsum_ext_in _ (fun i => 0 * 0)); [rewrite Rsum_mul; ring|]. intros i Hi. apply in_seq in Hi. rewrite X_len in Hi. rewrite Y_out by lia. ring.
Qed.

(** variances where many earlier points are close *)
Lemma var_near pts mu sd S j z I g : Forall (fun p => List.length p = d) pts ->
  @predict_with_hyps NumR exp inv (A2 NumR X) (column_of NumR Y) (A2 NumR (mkmat pts d)) h name pm = Ok (mu, sd, S) ->
  (j < List.length pts)%nat -> nth j pts [] = z -> NoDup I -> (0 < List.length I)%nat -> (forall i, In i I -> (i < n)%nat /\ scaled_sq (ls_at ls) d (x i) z <= g) ->
  at_ S j j - jitter_cov <= s * s * curvature name * g + t / INR (List.length I).
Proof.
  intros FP E Hj Ez ND Hk HC.
  assert (Fs : fits name (A2 NumR (mkmat pts d)) d).
  { split; [|split; [exact HN|reflexivity]]. intros r Hr. cbn in Hr |- *. rewrite Forall_forall in FP. now apply FP. }
  destruct (@best_linear name h d ls s nz K pm m inv RG HI (A2 NumR X) (A2 NumR (mkmat pts d)) j X_fits Fs Hj) as [w [WW [B _]]].
  destruct (WW _ _ _ _ Y_column E) as [_ ES]. fold t in ES, B.
  assert (EZ : elem_nth (A2 NumR (mkmat pts d)) j = EPoint z).
  { unfold elem_nth, elems. cbn [mrows]. change (EPoint []) with (EPoint ([] : list R)). rewrite (map_nth EPoint). now f_equal. }
  assert (PT : forall i, exists y, elem_nth (A2 NumR X) i = EPoint y).
  { intros i. unfold elem_nth, elems. change (EPoint []) with (EPoint ([] : list R)). rewrite (map_nth EPoint). eauto. }
  assert (C0 := curvature_pos name). assert (S0 := Rle_0_sqr s). unfold Rsqr in S0.
  destruct (@near_error K t (A2 NumR X) I (EPoint z) (s * s) (s * s * curvature name * g)) as [u Hu].
  - exact ND.
  - exact Hk.
  - intros i Hi. rewrite X_len. apply HC, Hi.
  - intros i Hi. destruct (HC i Hi) as [Li Le]. rewrite X_nth by exact Li. destruct (K_points (x i) z) as [_ L].
    assert (s * s * curvature name * scaled_sq (ls_at ls) d (x i) z <= s * s * curvature name * g) by (apply Rmult_le_compat_l; [apply Rmult_le_pos; lra|exact Le]). lra.
  - intros i k. destruct (PT i) as [y ->], (PT k) as [y' ->]. apply K_points.
  - apply K_points.
  - rewrite ES. specialize (B u). rewrite EZ in *. lra.
Qed.
Lemma var_prior pts mu sd S j : Forall (fun p => List.length p = d) pts ->
  @predict_with_hyps NumR exp inv (A2 NumR X) (column_of NumR Y) (A2 NumR (mkmat pts d)) h name pm = Ok (mu, sd, S) ->
  (j < List.length pts)%nat -> at_ S j j - jitter_cov <= s * s.
Proof.
  intros FP E Hj.
  assert (Fs : fits name (A2 NumR (mkmat pts d)) d).
  { split; [|split; [exact HN|reflexivity]]. intros r Hr. cbn in Hr |- *. rewrite Forall_forall in FP. now apply FP. }
  destruct (@best_linear name h d ls s nz K pm m inv RG HI (A2 NumR X) (A2 NumR (mkmat pts d)) j X_fits Fs Hj) as [w [WW [B _]]].
  destruct (WW _ _ _ _ Y_column E) as [_ ES]. specialize (B (fun _ => 0)). fold t in ES, B.
  assert (EZ : elem_nth (A2 NumR (mkmat pts d)) j = EPoint (nth j pts [])).
  { unfold elem_nth, elems. cbn [mrows]. change (EPoint []) with (EPoint ([] : list R)). now rewrite (map_nth EPoint). }
  rewrite EZ in *. destruct (K_points (nth j pts []) (nth j pts [])) as [L _].
  assert (Z : squared_error K t (alen (A2 NumR X)) (elem_nth (A2 NumR X)) (fun _ => 0) (EPoint (nth j pts [])) = K (EPoint (nth j pts [])) (EPoint (nth j pts []))).
  { unfold squared_error. rewrite (Rsum_ext_in (fun i => 0 * K (elem_nth (A2 NumR X) i) (EPoint (nth j pts []))) (fun i => 0 * 0)) by (intros; ring). rewrite Rsum_mul.
    rewrite (Rsum_ext_in (fun i => Rsum (map _ _)) (fun i => 0 * 0)); [rewrite Rsum_mul; ring|]. intros i _. rewrite (Rsum_ext_in _ (fun i => 0 * 0)) by (intros; ring). rewrite Rsum_mul. ring. }
  rewrite Z in B. lra.
Qed.

(** the acquisition values at two points *)
Lemma squeeze_two (a : list (list R)) : is_mx 2 1 a -> squeeze1 NumR a = Ok [at_ a 0 0; at_ a 1 0].
Proof.
  intros [L H]. destruct a as [|r [|r' [|? ?]]]; try discriminate L. assert (A := H r (or_introl eq_refl)). assert (B := H r' (or_intror (or_introl eq_refl))).
  destruct r as [|u [|? ?]]; try discriminate A. destruct r' as [|u' [|? ?]]; try discriminate B. reflexivity.
Qed.
Lemma two_values str_acq fa y z : (0 < n)%nat -> List.length y = d -> List.length z = d ->
  choose_fun_acquisition NumR cdf pdf ln str_acq (Some nz) = Ok fa ->
  exists mu sd S, @predict_with_hyps NumR exp inv (A2 NumR X) (column_of NumR Y) (A2 NumR (mkmat [y; z] d)) h name pm = Ok (mu, sd, S) /\
    (forall j, (j < 2)%nat -> at_ sd j 0 = sqrt (at_ S j j)) /\
    acquisition_values cdf pdf inv d name h pm str_acq X Y [y; z] = fa [at_ mu 0 0; at_ mu 1 0] [at_ sd 0 0; at_ sd 1 0] Y.
Proof.
  intros Hn Ly Lz EA.
  assert (Fs : fits name (A2 NumR (mkmat [y; z] d)) d).
  { split; [|split; [exact HN|reflexivity]]. intros r [<-|[<-|[]]]; assumption. }
  destruct (inverse_ok X_fits (reg_hyps RG) (reg_cov RG) HI) as (C & B & EI & _ & SC & IV & _).
  destruct (predict_ok RG HI X_fits Fs Y_column) as (mu & sd & Sg & EP & S1 & S2 & _ & _ & SD & _).
  exists mu, sd, Sg. split; [exact EP|]. split; [exact SD|].
  assert (EP' : @predict_with_cov NumR exp (A2 NumR X) (column_of NumR Y) (A2 NumR (mkmat [y; z] d)) C B h name pm = Ok (mu, sd, Sg)).
  { unfold predict_with_hyps in EP. destruct (validate_common_args _ _ _); [|discriminate]. cbn [rbind] in EP. destruct (check_str_cov _ _ _); [|discriminate]. cbn [rbind] in EP.
    rewrite EI in EP. exact EP. }
  assert (SH : shapes_ok NumR d X Y (mkmat [y; z] d) C B = true).
  { assert (Q : forall a : list (list R), is_mx (nrows X) (nrows X) a -> has_shape NumR (nrows X) (nrows X) a = true).
    { intros a [LA FA]. apply andb_true_iff. split; [apply Nat.eqb_eq; exact LA|]. apply forallb_forall. intros r I. apply Nat.eqb_eq. exact (FA r I). }
    assert (NR : nrows X = n) by exact X_len. destruct IV as [SB _].
    unfold shapes_ok. change (alen (A2 NumR X)) with (nrows X) in *. rewrite (Q C SC), (Q B SB). rewrite NR. unfold Y, values_of. rewrite map_length, seq_length.
    unfold X, points_of. cbn [mcols]. now rewrite !Nat.eqb_refl. }
  unfold acquisition_values. rewrite EI. cbn [rbind]. unfold gp_acquisitions, acquisitions.
  rewrite (@BOAcqProofs.batch_ok NumR [y; z] d) by (try discriminate; repeat constructor; assumption). cbn [rbind]. rewrite SH. cbn [assert_ rbind].
  rewrite (noise_of_hyps (reg_hyps RG)). cbn [rbind]. setoid_rewrite EA. cbn [rbind]. unfold gp_posteriors. rewrite SH. cbn [assert_ rbind]. rewrite EP'. cbn [rbind].
  rewrite (squeeze_two S1), (squeeze_two S2). reflexivity.
Qed.
End At.
End Run.
