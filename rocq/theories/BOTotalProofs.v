(** Every step of a run returns for valid arguments (exact reals): the surrogates. *)
From Verif Require Import Base Lists Num Monad UtilsModel UtilsSpec UtilsProofs HypsModel HypsSpec HypsProofs CovModel KernelSpec CovSpec CovProofs CovProofs2 CovGrad
  GPProofs2 GPModel GPSpec GPProofs GPProofs3 LikModel LikSpec LikProps GradSpec GradReal GradProps HypOptModel HypOptSpec HypOptProofs AcqModel
  WrapperModel BOModel BOAcqModel BOAcqSpec BOAcqProofs BOFullModel BOTotalSpec.
From Coq Require Import List ZArith Bool String Reals Lra Lia Arith.
Import ListNotations.
Import CovModel.
Local Open Scope string_scope.
Set Implicit Arguments.
Unset Strict Implicit.
Unset Asymmetric Patterns.
Set Bullet Behavior "Strict Subproofs".

Lemma base_profile name : In name base_kernels -> exists pr, profile_of name = Some pr.
Proof. intros [<-|[<-|[<-|[<-|[]]]]]; cbn; eauto. Qed.
Lemma data_fits name d X Y : In name base_kernels -> data d X Y -> fits name (A2 NumR X) d.
Proof.
  intros HN (HX & HC & _ & _). destruct (base_profile HN) as [pr E]. split; [intros r Hr; rewrite HC; now apply HX|]. split; [congruence|exact HC].
Qed.
Lemma column_of_ok X (Y : list R) : nrows X = List.length Y -> column (alen (A2 NumR X)) (column_of NumR Y).
Proof.
  intros L. split; [reflexivity|]. split; [cbn; rewrite map_length; now symmetry|]. intros r I. apply in_map_iff in I as (y & <- & _). reflexivity.
Qed.

(** hyperparameters that every later step can use *)
Definition good_hyps (name : string) (d : nat) (ard : bool) (h : dict NumR) : Prop :=
  exists ls s nz x, has_hyps h d ls s nz /\ @convert_hyps NumR name h true true = Ok x /\ List.length x = num_hyps true ard true d /\
    @restore_hyps NumR name x true ard true (GP_NOISE NumR) = Ok h.

Section Fit.
Variables (inv chol : list (list R) -> res (list (list R))) (cho_solve : list (list R) -> list (list R) -> res (list (list R)))
  (slogdet : list (list R) -> R * R) (gamma digamma : R -> R) (minimize : minimizer NumR) (pm : prior NumR) (m : elem -> R).
Hypotheses (HI : inv_contract inv) (HC : chol_contract chol) (HS : cho_solve_contract cho_solve) (HD : slogdet_contract slogdet)
  (HM : proper_minimizer minimize) (HP : prior_is pm m).
Variables (name : string) (d : nat) (X : mat NumR) (Y : list R).
Hypotheses (HN : In name base_kernels) (DX : data d X Y).

Let F : fits name (A2 NumR X) d := data_fits HN DX.
Let HY : column (alen (A2 NumR X)) (column_of NumR Y).
Proof. apply column_of_ok. apply DX. Qed.
Let n_pos : (0 < alen (A2 NumR X))%nat.
Proof. pose proof DX as (_ & _ & L & NE). cbn [alen]. rewrite L. apply Nat.neq_0_lt_0. intros Q. apply NE. now apply length_zero_iff_nil. Qed.

Lemma gp_value_total p ard (v : list R) : column (alen (A2 NumR X)) p -> List.length v = num_hyps true ard true d ->
  exists y, @neg_log_ml NumR exp ln PI inv chol cho_solve slogdet (A2 NumR X) (column_of NumR Y) v name p ard true true false = Ok (y, None).
Proof.
  intros Hp L. destruct (C36_domain _ _ _ _ _ _ F L) as (h & ls & s & nz & K & ER & HH & HK).
  exact (C36_cholesky_total _ _ _ _ _ _ _ _ _ _ _ _ _ inv _ _ slogdet F HH HK HY Hp HC HS n_pos ER).
Qed.
Lemma gp_gradient_total p ard (v : list R) : column (alen (A2 NumR X)) p -> List.length v = num_hyps true ard true d -> ~ In 0%R v ->
  exists y g, @neg_log_ml NumR exp ln PI inv chol cho_solve slogdet (A2 NumR X) (column_of NumR Y) v name p ard true true true = Ok (y, Some g) /\
    List.length g = List.length v.
Proof.
  intros Hp L NZ. destruct (C36_domain _ _ _ _ _ _ F L) as (h & ls & s & nz & K & ER & HH & HK). destruct (base_profile HN) as [pr EP].
  destruct (restore_gp_inv _ _ _ _ _ _ _ _ _ _ ER HH) as (EV & EA & _).
  assert (NS : s <> 0%R /\ ls_nonzero ls d).
  { subst v. unfold theta in NZ. destruct HH as (_ & _ & _ & HL). destruct ls as [l|l|]; cbn in NZ, HL; [| |contradiction].
    - split; [|intros i Hi; cbn]; tauto.
    - split; [tauto|]. intros i Hi. cbn. intros Q. apply NZ. right. rewrite <- Q. apply nth_In. rewrite HL. exact Hi. }
  destruct (C76 name pr X d h ls s nz (column_of NumR Y) p v ard true inv chol cho_solve slogdet EP F HY Hp n_pos HI HC HS HD ER HH (proj1 NS) (proj2 NS))
    as (y & g & _ & _ & E & _ & LG & _). exists y, g. auto.
Qed.

Lemma gp_fit_total opt ms ard : In opt ["BFGS"; "L-BFGS-B"; "SLSQP"; "SLSQP-Bounded"; "Nelder-Mead"] ->
  (ms = "ml" \/ ms = "loocv" /\ (ard = true \/ d = 1%nat)) ->
  exists C B h, @get_optimized_kernel NumR exp ln PI inv chol cho_solve slogdet minimize (A2 NumR X) (column_of NumR Y) pm name opt ms ard true = Ok (C, B, h) /\
    good_hyps name d ard h /\ @get_kernel_inverse NumR exp inv (A2 NumR X) h name true false = Ok (C, B, None).
Proof.
  intros Ho Hm. destruct (fits_facts F) as (Hc & ED & HK). destruct (prior_ok (A2 NumR X) HP) as (p & EPM & Hp & _).
  assert (Hm' : In ms ALLOWED_MODELSELECTION_METHOD) by (destruct Hm as [-> | [-> _]]; cbn; auto).
  assert (Ho' : In opt ALLOWED_OPTIMIZER_METHOD_GP) by (cbn in Ho |- *; tauto).
  destruct (@gp_calls NumR literals_ok_R exp ln PI inv chol cho_solve slogdet minimize (A2 NumR X) (column_of NumR Y) pm p name d ard true
     (fits_validate F HY) (fits_shape F) EPM ED Hc opt ms Ho' Hm') as (start & bounds & meth & jac & (r & _ & _ & LS & _) & J1 & _ & ->).
  match goal with |- context [minimize ?f ?b ?c ?dd ?e] => destruct (@HM f b c dd e) as (x & -> & Lx) end.
  { intros v Lv NZ. unfold gp_objective. assert (Lv' : List.length v = num_hyps true ard true d) by (rewrite Lv; exact LS).
    destruct Hm as [-> | [-> Hm]].
    - change ("ml" =? "ml") with true. cbv iota.
      destruct (negb (opt =? "Nelder-Mead") && str_in name ALLOWED_COV_BASE && negb ("ml" =? "loocv")) eqn:U.
      + destruct (gp_gradient_total Hp Lv' NZ) as (y & g & E & LG). exists y, (Some g). split; [exact E|]. intros _. eauto.
      + destruct (gp_value_total Hp Lv') as (y & E). exists y, None. split; [exact E|]. intros J. now apply J1 in J.
    - change ("loocv" =? "ml") with false. cbv iota.
      destruct (C39_partial name (A2 NumR X) d (column_of NumR Y) p v true inv F HY Hp HI) as (y & E).
      { destruct Hm as [Q | Q]; [left; rewrite Q in Lv'; exact Lv'|]. destruct ard; [left|right; split; [exact Q|]]; exact Lv'. }
      exists y, None. rewrite E. split; [reflexivity|]. intros J. apply J1 in J. rewrite andb_false_r in J. discriminate. }
  cbn [rbind]. destruct (@finish_real_gp name (A2 NumR X) d inv F HI ard true x (eq_trans Lx LS)) as (C & B & h & E & ER & EC & ET & IV).
  destruct (@restored name d true ard true x (GP_NOISE NumR) Hc (eq_trans Lx LS)) as (h' & ls & s & nz & ER' & HH & EC' & _).
  assert (h' = h) as -> by congruence. exists C, B, h. split; [exact E|]. split; [exists ls, s, nz, x; rewrite Lx; auto|].
  destruct (HK ls s) as [K EK]. destruct (inverse_ok F HH EK HI) as (C0 & B0 & EI & _). rewrite EI.
  unfold finish in E. rewrite ER in E. cbn [rbind] in E.
  destruct (validate_hyps_dict h name (Z.of_nat d) true) as [hv|]; [|discriminate]. cbn [rbind] in E.
  destruct (@train_cov NumR exp (A2 NumR X) hv name) as [c|] eqn:E1; [|discriminate]. cbn [rbind] in E.
  destruct (inv c) as [b|] eqn:E2; [|discriminate]. cbn [rbind] in E. apply Ok_inj in E. injection E as <- <- <-.
  unfold get_kernel_inverse in EI. rewrite (fits_shape F) in EI. cbn [rbind] in EI. rewrite E1 in EI. cbn [rbind] in EI. rewrite E2 in EI. cbn [rbind] in EI. now rewrite <- EI.
Qed.
End Fit.

Section Acquisitions.
Variables (cdf pdf lg : R -> R).
Lemma chosen_returns str_acq (nz : R) : In str_acq acquisitions_ -> exists f, choose_fun_acquisition NumR cdf pdf lg str_acq (Some nz) = Ok f /\
  forall mu sd Y : list R, List.length mu = List.length sd -> Y <> [] -> exists a, f mu sd Y = Ok a /\ List.length a = List.length mu.
Proof.
  assert (MIN : forall Y : list R, Y <> [] -> exists b, npmin NumR Y = Ok b) by (intros [|y Y]; [congruence|cbn; eauto]).
  assert (SL : forall a b : list R, List.length a = List.length b -> same_len NumR a b = true) by (intros a b E; apply Nat.eqb_eq; exact E).
  assert (LM : forall f (a b : list R), List.length a = List.length b -> List.length (AcqModel.map2 NumR f a b) = List.length a).
  { intros f a b E. unfold AcqModel.map2. rewrite map_length, combine_length. change (car NumR) with R. lia. }
  intros [<-|[<-|[<-|[<-|[<-|[<-|[]]]]]]]; (eexists; split; [reflexivity|]); intros mu sd Y L NE; destruct (MIN Y NE) as [b EB];
    unfold acq_pi, acq_ei, acq_ucb, acq_aei, acq_pure_exploit, acq_pure_explore; rewrite ?(SL mu sd L); cbn [assert_ rbind]; rewrite ?EB; cbn [rbind];
    (eexists; split; [reflexivity|]); rewrite ?map_length; auto.
Qed.

Variables (inv : list (list R) -> res (list (list R))) (pm : prior NumR) (m : elem -> R).
Hypotheses (HI : inv_contract inv) (HP : prior_is pm m).
Variables (name : string) (d : nat) (X : mat NumR) (Y : list R).
Hypotheses (HN : In name base_kernels) (DX : data d X Y).

Lemma squeeze1_column n (a : list (list R)) : is_mx n 1 a -> exists l, squeeze1 NumR a = Ok l /\ List.length l = n.
Proof.
  intros [L H]. revert n L. induction a as [|r a IH]; intros n L; cbn in L; subst n; [exists []; split; reflexivity|].
  destruct (IH (fun r Hr => H r (or_intror Hr)) _ eq_refl) as (l & E & LL). pose proof (H r (or_introl eq_refl)) as HR.
  destruct r as [|x [|y r]]; try discriminate HR. exists (x :: l). split; [|cbn; now f_equal].
  unfold squeeze1 in *. cbn [mapM rbind]. rewrite E. reflexivity.
Qed.
Lemma noise_of_hyps h ls s nz : has_hyps h d ls s nz -> noise_of h = Ok (Some nz).
Proof. intros (E & _). unfold noise_of. now rewrite E. Qed.

Lemma shapes_hold C B pts : is_mx (nrows X) (nrows X) C -> is_mx (nrows X) (nrows X) B -> shapes_ok NumR d X Y (mkmat pts d) C B = true.
Proof.
  intros SC SB. destruct DX as (_ & EC & L & _). unfold shapes_ok. cbn [mcols]. rewrite EC, L, !Nat.eqb_refl. cbn [andb]. rewrite <- L.
  assert (Q : forall a : list (list R), is_mx (nrows X) (nrows X) a -> has_shape NumR (nrows X) (nrows X) a = true).
  { intros a [LA FA]. apply andb_true_iff. split; [apply Nat.eqb_eq; exact LA|]. apply forallb_forall. intros r I. apply Nat.eqb_eq. exact (FA r I). }
  now rewrite (Q C SC), (Q B SB).
Qed.
Lemma inverse_shape n C B : is_inverse n C B -> is_mx n n B. Proof. intros H. apply H. Qed.

Lemma gp_acq_total str_acq h ls s nz C B pts : In str_acq acquisitions_ -> has_hyps h d ls s nz ->
  @get_kernel_inverse NumR exp inv (A2 NumR X) h name true false = Ok (C, B, None) ->
  pts <> [] -> Forall (fun p => List.length p = d) pts ->
  exists l, @gp_acquisitions NumR exp cdf pdf lg d pm str_acq name X Y C B h pts = Ok l /\ List.length l = List.length pts.
Proof.
  intros HA HH EK NE FP. pose proof (data_fits HN DX) as F. destruct (fits_facts F) as (Hc & _ & HK). destruct (HK ls s) as [K EC].
  pose proof DX as (_ & _ & L & NEY). pose proof (column_of_ok L) as HY.
  assert (Fs : fits name (A2 NumR (mkmat pts d)) d).
  { destruct (base_profile HN) as [pr EP]. split; [|split; [congruence|reflexivity]]. intros r Hr. cbn in Hr |- *. rewrite Forall_forall in FP. now apply FP. }
  destruct (inverse_ok F HH EC HI) as (C0 & B0 & EI & _ & SC & IV & _). rewrite EI in EK. apply Ok_inj in EK. injection EK as -> ->.
  assert (RG : regression name h d ls s nz K pm m) by (constructor; assumption).
  destruct (predict_ok RG HI F Fs HY) as (mu & sd & Sg & EP & S1 & S2 & _).
  assert (EP' : @predict_with_cov NumR exp (A2 NumR X) (column_of NumR Y) (A2 NumR (mkmat pts d)) C B h name pm = Ok (mu, sd, Sg)).
  { unfold predict_with_hyps in EP. destruct (validate_common_args _ _ _); [|discriminate]. cbn [rbind] in EP. destruct (check_str_cov _ _ _); [|discriminate]. cbn [rbind] in EP.
    rewrite EI in EP. exact EP. }
  destruct (squeeze1_column S1) as (lm & EM & LM). destruct (squeeze1_column S2) as (lsd & ES & LS). cbn [alen] in LM, LS.
  destruct (chosen_returns nz HA) as (f & Ef & Rf). destruct (Rf lm lsd Y) as (a & Ea & La); [exact (eq_trans LM (eq_sym LS))|exact NEY|].
  exists a. split; [|exact (eq_trans La LM)]. unfold gp_acquisitions, acquisitions. rewrite (BOAcqProofs.batch_ok NE FP). cbn [rbind].
  rewrite (shapes_hold pts SC (inverse_shape IV)). cbn [assert_ rbind]. rewrite (noise_of_hyps HH). cbn [rbind].
  setoid_rewrite Ef. cbn [rbind]. unfold gp_posteriors. rewrite (shapes_hold pts SC (inverse_shape IV)). cbn [assert_ rbind].
  rewrite EP'. cbn [rbind]. rewrite EM. cbn [rbind]. rewrite ES. cbn [rbind]. exact Ea.
Qed.
Lemma tp_acq_total str_acq h ls s nz nu C B pts : In str_acq acquisitions_ -> has_hyps h d ls s nz -> dget h "dof" = Some (PFloat NumR nu) ->
  @get_kernel_inverse NumR exp inv (A2 NumR X) h name true false = Ok (C, B, None) ->
  pts <> [] -> Forall (fun p => List.length p = d) pts ->
  exists l, @tp_acquisitions NumR exp cdf pdf lg d pm str_acq name X Y C B h pts = Ok l /\ List.length l = List.length pts.
Proof.
  intros HA HH ND EK NE FP. pose proof (data_fits HN DX) as F. destruct (fits_facts F) as (Hc & _ & HK). destruct (HK ls s) as [K EC].
  pose proof DX as (_ & _ & L & NEY). pose proof (column_of_ok L) as HY.
  assert (Fs : fits name (A2 NumR (mkmat pts d)) d).
  { destruct (base_profile HN) as [pr EP]. split; [|split; [congruence|reflexivity]]. intros r Hr. cbn in Hr |- *. rewrite Forall_forall in FP. now apply FP. }
  destruct (inverse_ok F HH EC HI) as (C0 & B0 & EI & _ & SC & IV & _). rewrite EI in EK. apply Ok_inj in EK. injection EK as -> ->.
  assert (RG : regression name h d ls s nz K pm m) by (constructor; assumption).
  destruct (predict_ok RG HI F Fs HY) as (mu0 & sd0 & Sg0 & EP0 & S1 & _).
  destruct (tp_predict_ok RG HI F Fs HY ND) as (mu & sd & Sg & B1 & C1 & sd' & S' & _ & EP1 & EP & S2 & _).
  rewrite EP0 in EP1. apply Ok_inj in EP1. injection EP1 as -> -> ->.
  assert (EP' : @tp_predict_with_cov NumR exp (A2 NumR X) (column_of NumR Y) (A2 NumR (mkmat pts d)) C B h name pm = Ok ((nu + INR (alen (A2 NumR X)))%R, mu, sd', S')).
  { unfold tp_predict_with_hyps in EP. destruct (validate_common_args _ _ _); [|discriminate]. cbn [rbind] in EP. destruct (check_str_cov _ _ _); [|discriminate]. cbn [rbind] in EP.
    rewrite EI in EP. exact EP. }
  destruct (squeeze1_column S1) as (lm & EM & LM). destruct (squeeze1_column S2) as (lsd & ES & LS). cbn [alen] in LM, LS.
  destruct (chosen_returns nz HA) as (f & Ef & Rf). destruct (Rf lm lsd Y) as (a & Ea & La); [exact (eq_trans LM (eq_sym LS))|exact NEY|].
  exists a. split; [|exact (eq_trans La LM)]. unfold tp_acquisitions, acquisitions. rewrite (BOAcqProofs.batch_ok NE FP). cbn [rbind].
  rewrite (shapes_hold pts SC (inverse_shape IV)). cbn [assert_ rbind]. rewrite (noise_of_hyps HH). cbn [rbind].
  setoid_rewrite Ef. cbn [rbind]. unfold tp_posteriors. rewrite (shapes_hold pts SC (inverse_shape IV)). cbn [assert_ rbind].
  rewrite EP'. cbn [rbind]. rewrite EM. cbn [rbind]. rewrite ES. cbn [rbind]. exact Ea.
Qed.
End Acquisitions.

(** the Student-t fit *)
Definition good_tp (d : nat) (h : dict NumR) : Prop := exists ls s nz nu, has_hyps h d ls s nz /\ dget h "dof" = Some (PFloat NumR nu).
Section TFit.
Variables (inv : list (list R) -> res (list (list R))) (slogdet : list (list R) -> R * R) (gamma digamma : R -> R) (minimize : minimizer NumR)
  (pm : prior NumR) (m : elem -> R).
Hypotheses (HI : inv_contract inv) (HD : slogdet_contract slogdet) (HM : proper_minimizer minimize) (HP : prior_is pm m).
Variables (name : string) (d : nat) (X : mat NumR) (Y : list R).
Hypotheses (HN : In name base_kernels) (DX : data d X Y).
Lemma tp_fit_total opt ard : In opt ["L-BFGS-B"; "SLSQP"] ->
  exists C B h, @tp_get_optimized_kernel NumR exp ln PI inv slogdet gamma digamma minimize (A2 NumR X) (column_of NumR Y) pm name opt ard true = Ok (C, B, h) /\
    good_tp d h /\ @get_kernel_inverse NumR exp inv (A2 NumR X) h name true false = Ok (C, B, None).
Proof.
  intros Ho. pose proof (data_fits HN DX) as F. destruct (fits_facts F) as (Hc & ED & HK). destruct (prior_ok (A2 NumR X) HP) as (p & EPM & Hp & _).
  pose proof DX as (_ & _ & L & NEY). pose proof (column_of_ok L) as HY.
  assert (Ho' : In opt ALLOWED_OPTIMIZER_METHOD_TP) by (cbn in Ho |- *; tauto).
  destruct (@tp_calls NumR literals_ok_R exp ln PI inv slogdet gamma digamma minimize (A2 NumR X) (column_of NumR Y) pm p name d ard true
     (fits_validate F HY) (fits_shape F) EPM ED Hc opt Ho') as (start & bounds & (r & _ & _ & LS & _) & ->).
  match goal with |- context [minimize ?f ?b ?c ?dd ?e] => destruct (@HM f b c dd e) as (x & -> & Lx) end.
  { intros v Lv _. destruct (@restored name d false ard true v (GP_NOISE NumR) Hc (eq_trans Lv LS)) as (h & ls & s & nz & ER & HH & _ & _ & DF & _).
    destruct (DF eq_refl) as [nu ND]. destruct (HK ls s) as [K EK].
    destruct (C77 name (A2 NumR X) d h ls s nz K nu (column_of NumR Y) p v ard true inv slogdet gamma digamma F HH EK HY Hp HI HD ER ND) as (C & B & _ & _ & _ & E).
    eexists _, _. split; [exact E|discriminate]. }
  cbn [rbind]. destruct (@finish_real_tp name (A2 NumR X) d inv F HI ard true x (eq_trans Lx LS)) as (C & B & h0 & h & nu & E & ER & EC & ND & EH & ET & IV).
  destruct (@restored name d false ard true x (GP_NOISE NumR) Hc (eq_trans Lx LS)) as (h' & ls & s & nz & ER' & HH & EC' & _).
  assert (h' = h0) as -> by congruence.
  assert (HH' : has_hyps h d ls s nz) by (subst h; destruct (Flocq.Core.Raux.Rle_bool nu 2); [now apply has_hyps_dset|exact HH]).
  exists C, B, h. split; [exact E|]. split.
  { exists ls, s, nz. subst h. destruct (Flocq.Core.Raux.Rle_bool nu 2); [|eauto]. eexists. split; [exact HH'|]. now rewrite dget_dset_same. }
  destruct (HK ls s) as [K EK]. destruct (inverse_ok F HH' EK HI) as (C0 & B0 & EI & _). rewrite EI.
  unfold finish in E. rewrite ER in E. cbn [rbind] in E.
  destruct (validate_hyps_dict h0 name (Z.of_nat d) false) as [hv|]; [|discriminate]. cbn [rbind] in E.
  destruct (@train_cov NumR exp (A2 NumR X) hv name) as [c|] eqn:E1; [|discriminate]. cbn [rbind] in E.
  destruct (inv c) as [b|] eqn:E2; [|discriminate]. cbn [rbind] in E. apply Ok_inj in E. injection E as <- <- <-.
  unfold get_kernel_inverse in EI. rewrite (fits_shape F) in EI. cbn [rbind] in EI. rewrite E1 in EI. cbn [rbind] in EI. rewrite E2 in EI. cbn [rbind] in EI. now rewrite <- EI.
Qed.
End TFit.
