(** Properties C36-C39 (marginal and leave-one-out likelihoods) and C41 (choice of hyperparameters). *)
From Verif Require Import Base Num UtilsModel UtilsSpec HypsModel HypsSpec HypsProofs CovModel KernelSpec CovSpec CovProps CovProofs GPModel GPSpec Contracts GPProofs2 GPProps
  LikModel LikSpec LikProofs LikProofs2 HypOptModel HypOptSpec HypOptProofs.
From Coq Require Import List ZArith Bool String Reals Lra Lia Arith.
Import ListNotations.
Open Scope R_scope.
Local Open Scope string_scope.
Unset Asymmetric Patterns.
Set Bullet Behavior "Strict Subproofs".

(** ** C36 *)
Theorem C36_inverse : forall name X d h ls s nz K Y p th ard fx inv chol cho_solve slogdet ug,
  fits name X d -> has_hyps h d ls s nz -> cov_of name ls s d = Some K -> column (alen X) Y -> column (alen X) p ->
  inv_contract inv -> slogdet_contract slogdet ->
  @restore_hyps NumR name th true ard fx (GP_NOISE NumR) = Ok h ->
  exists C B, @train_cov NumR exp X h name = Ok C /\ is_inverse (alen X) C B /\ 0 < det (alen X) C /\
    @neg_log_ml NumR exp ln PI inv chol cho_solve slogdet X Y th name p ard fx false ug
    = Ok (gauss_nll (alen X) C B (residual Y p), None).
Proof.
  intros name X d h ls s nz K Y p th ard fx inv chol cho_solve slogdet ug F HH HK HY Hp HI HD ER.
  exact (ml_inverse F HH HK HY Hp chol cho_solve HI HD ug ER).
Qed.
Print Assumptions C36_inverse.
Theorem C36_cholesky : forall name X d h ls s nz K Y p th ard fx inv chol cho_solve slogdet ug v g,
  fits name X d -> has_hyps h d ls s nz -> cov_of name ls s d = Some K -> column (alen X) Y -> column (alen X) p ->
  chol_contract chol -> cho_solve_contract cho_solve -> (0 < alen X)%nat ->
  @restore_hyps NumR name th true ard fx (GP_NOISE NumR) = Ok h ->
  @neg_log_ml NumR exp ln PI inv chol cho_solve slogdet X Y th name p ard fx true ug = Ok (v, g) ->
  exists C B L, @train_cov NumR exp X h name = Ok C /\ is_inverse (alen X) C B /\ is_cholesky (alen X) C L /\
    0 <= v - gauss_nll (alen X) C B (residual Y p) <= Rsum (map (fun i => / 10000000 / at_ L i i) (seq 0 (alen X))) / INR (alen X).
Proof.
  intros name X d h ls s nz K Y p th ard fx inv chol cho_solve slogdet ug v g F HH HK HY Hp HC HS Hn ER EV.
  exact (@ml_cholesky_near name h d ls s nz K X F HH HK Y p HY Hp th ard fx some_inv chol cho_solve slogdet some_inv_ok HC HS ug v g (ssrbool.introT ssrnat.ltP Hn) ER EV).
Qed.
Print Assumptions C36_cholesky.
(** without the gradient there is always a value *)
Theorem C36_cholesky_total : forall name X d h ls s nz K Y p th ard fx inv chol cho_solve slogdet,
  fits name X d -> has_hyps h d ls s nz -> cov_of name ls s d = Some K -> column (alen X) Y -> column (alen X) p ->
  chol_contract chol -> cho_solve_contract cho_solve -> (0 < alen X)%nat ->
  @restore_hyps NumR name th true ard fx (GP_NOISE NumR) = Ok h ->
  exists v, @neg_log_ml NumR exp ln PI inv chol cho_solve slogdet X Y th name p ard fx true false = Ok (v, None).
Proof.
  intros name X d h ls s nz K Y p th ard fx inv chol cho_solve slogdet F HH HK HY Hp HC HS Hn ER.
  exact (ml_cholesky_total F HH HK HY Hp inv slogdet HC HS (ssrbool.introT ssrnat.ltP Hn) ER).
Qed.
Print Assumptions C36_cholesky_total.
(** every vector of the right length is decoded to such hyperparameters *)
Theorem C36_domain : forall name X d ard fx (th : list R), fits name X d -> List.length th = num_hyps true ard fx d ->
  exists h ls s nz K, @restore_hyps NumR name th true ard fx (GP_NOISE NumR) = Ok h /\ has_hyps h d ls s nz /\ cov_of name ls s d = Some K.
Proof.
  intros name X d ard fx th F L. destruct (fits_facts F) as (Hc & _ & HK).
  destruct (restored (GP_NOISE NumR) Hc L) as (h & ls & s & nz & E & HH & _). destruct (HK ls s) as [K EK]. exists h, ls, s, nz, K. auto.
Qed.
Print Assumptions C36_domain.
Definition ex_th : list R := [1 / 10; 2; 1; 3].
Definition ex_p : mat NumR := mkmat ([[0]; [1]; [2]] : list (list NumR)) 1.
Lemma ex_p_ok : column (alen ex_X) ex_p.
Proof. split; [reflexivity|]. split; [reflexivity|]. intros r [<-|[<-|[<-|[]]]]; reflexivity. Qed.
Example C36_example : List.length ex_th = num_hyps true true false 2 /\ fits "matern52" ex_X 2 /\ column (alen ex_X) ex_Y /\
  column (alen ex_X) ex_p /\ residual ex_Y ex_p 1 = 3 /\ inv_contract some_inv /\ chol_contract some_chol /\
  cho_solve_contract some_cho_solve /\ slogdet_contract some_slogdet.
Proof.
  split; [reflexivity|]. split; [apply ex_fits|]. split; [apply ex_column|]. split; [apply ex_p_ok|].
  split; [unfold residual, out, at_; cbn; lra|]. split; [apply some_inv_ok|]. split; [apply some_chol_ok|].
  split; [apply some_cho_solve_ok|apply some_slogdet_ok].
Qed.
(** the specification on a one-dimensional problem *)
Example C36_formula : gauss_nll 1 [[4]] [[/ 4]] (fun _ => 2) = 1 / 2 + ln 4 / 2 + ln (2 * PI) / 2.
Proof.
  unfold gauss_nll. replace (quad 1 [[/ 4]] (fun _ => 2)) with 1 by (unfold quad, at_, Rsum; cbn; field).
  replace (det 1 [[4]]) with 4 by (unfold det, at_, Rsum; cbn; ring). cbn [INR]. field.
Qed.

(** ** C37 *)
Theorem C37 : forall name X d h ls s nz K Y p th fx inv,
  fits name X d -> has_hyps h d ls s nz -> cov_of name ls s d = Some K -> column (alen X) Y -> column (alen X) p ->
  inv_contract inv -> @restore_hyps NumR name th true true fx (GP_NOISE NumR) = Ok h ->
  exists C B m v, @train_cov NumR exp X h name = Ok C /\ is_inverse (alen X) C B /\
    (forall i, (i < alen X)%nat -> 0 < at_ B i i /\ v i = / at_ B i i /\
       exists mu sd S,
         @predict_with_hyps NumR exp inv (take_rows X (others (alen X) i)) (take_out Y (others (alen X) i)) (only X i) h name None
           = Ok (mu, sd, S) /\ at_ mu 0 0 = m i /\ at_ S 0 0 + nz * nz = v i) /\
    @neg_log_pseudo_l_loocv NumR exp ln PI inv X Y th name p fx
    = Ok (Rsum (map (fun i => normal_nll (m i) (/ (/ v i + jitter_cov)) (out Y i)) (seq 0 (alen X))) / INR (alen X)).
Proof.
  intros name X d h ls s nz K Y p th fx inv F HH HK HY Hp HI ER.
  destruct (inverse_ok F HH HK HI) as (C & B & EI & EC & SC & HB & _).
  exists C, B, (lmean X B Y), (fun i => / at_ B i i). split; [exact EC|]. split; [exact HB|]. split.
  - intros i Hi. destruct (loo_ok F HH HK HI HY EC HB Hi) as (P & mu & sd & S & E & Em & Es).
    split; [exact P|]. split; [reflexivity|]. exists mu, sd, S. auto.
  - etransitivity; [exact (loocv_ok F HH HK HI HY Hp ER EC HB)|]. f_equal. f_equal. f_equal. apply map_ext_in. intros i Hi.
    apply in_seq in Hi. f_equal. rewrite Rinv_inv. unfold jitter_cov, Rdiv. now rewrite Rmult_1_l.
Qed.
Print Assumptions C37.
Example C37_example : others 3 1 = [0; 2]%nat /\ mrows (take_out ex_Y (others 3 1)) = [[1]; [2]] /\ (2 <= alen ex_X)%nat /\
  normal_nll 1 4 3 = ln 4 / 2 + 1 / 2 + ln (2 * PI) / 2.
Proof. split; [reflexivity|]. split; [reflexivity|]. split; [cbn; lia|]. unfold normal_nll. field. Qed.

(** ** C38: the prior mean is not used at all *)
Theorem C38_partial : forall (N : Num) nexp nlog npi inv (X : arr N) Y th name p p' fx, nrows p = alen X -> nrows p' = alen X ->
  neg_log_pseudo_l_loocv nexp nlog npi inv X Y th name p fx = neg_log_pseudo_l_loocv nexp nlog npi inv X Y th name p' fx.
Proof.
  intros N nexp nlog npi inv X Y th name p p' fx E E'. unfold neg_log_pseudo_l_loocv, checks. now rewrite E, E'.
Qed.
Print Assumptions C38_partial.
(** so moving the outputs and the prior mean from 0 to 1 changes the value of every problem *)
Theorem C38_refuted : forall name X d h ls s nz K th fx inv,
  fits name X d -> has_hyps h d ls s nz -> cov_of name ls s d = Some K -> inv_contract inv -> (0 < alen X)%nat ->
  @restore_hyps NumR name th true true fx (GP_NOISE NumR) = Ok h ->
  exists Y p Y' p' v v', column (alen X) Y /\ column (alen X) p /\ column (alen X) Y' /\ column (alen X) p' /\
    (forall i, (i < alen X)%nat -> out Y' i = out Y i + 1 /\ out p' i = out p i + 1) /\
    @neg_log_pseudo_l_loocv NumR exp ln PI inv X Y th name p fx = Ok v /\
    @neg_log_pseudo_l_loocv NumR exp ln PI inv X Y' th name p' fx = Ok v' /\ v < v'.
Proof.
  intros name X d h ls s nz K th fx inv F HH HK HI Hn ER.
  exists (const_col X 0), (const_col X 0), (const_col X 1), (const_col X 1).
  destruct (loocv_shift F HH HK HI (ssrbool.introT ssrnat.ltP Hn) (const_column X 0) (const_column X 1) ER) as (v & v' & E & E' & V).
  exists v, v'. split; [apply const_column|]. split; [apply const_column|]. split; [apply const_column|]. split; [apply const_column|].
  split; [|auto]. intros i Hi. rewrite !(const_out _ Hi). split; ring.
Qed.
Print Assumptions C38_refuted.
Example C38_example : fits "matern52" ex_X 2 /\ (0 < alen ex_X)%nat /\ List.length ex_th = num_hyps true true true 3.
Proof. split; [apply ex_fits|]. split; [cbn; lia|reflexivity]. Qed.

(** ** C39 *)
(** without automatic relevance determination the objective raises at every vector of hyperparameters,
    unless the inputs are one-dimensional *)
Theorem C39_refuted : forall (N : Num) nexp nlog npi inv (X : arr N) Y pm p name dim fx th,
  validate_common_args X Y None = Ok tt -> check_str_cov name (shape X) None = Ok tt ->
  get_prior_mu pm X = Ok p -> num_dim X name = Ok dim -> In name cov_names -> dim <> 1%nat ->
  List.length th = num_hyps true false fx dim ->
  neg_log_pseudo_l_loocv nexp nlog npi inv X Y th name p fx = Raise ValueError.
Proof.
  intros N nexp nlog npi inv X Y pm p name dim fx th V CK EP ED Hc D L.
  exact (loocv_scalar nexp nlog npi inv V CK (prior_rows EP) ED Hc L D).
Qed.
Print Assumptions C39_refuted.
Theorem C39_run_refuted : forall (N : Num) nexp nlog npi inv chol cho_solve slogdet minimize (X : arr N) Y pm p name dim fx opt,
  N = NumR \/ N = NumF ->
  validate_common_args X Y None = Ok tt -> check_str_cov name (shape X) None = Ok tt ->
  get_prior_mu pm X = Ok p -> num_dim X name = Ok dim -> In name cov_names -> dim <> 1%nat ->
  In opt ALLOWED_OPTIMIZER_METHOD_GP -> evaluates_start minimize ->
  get_optimized_kernel nexp nlog npi inv chol cho_solve slogdet minimize X Y pm name opt "loocv" false fx = Raise ValueError.
Proof.
  intros N nexp nlog npi inv chol cho_solve slogdet minimize X Y pm p name dim fx opt HN.
  apply loocv_scalar_fails. destruct HN as [-> | ->]; [exact literals_ok_R|exact literals_ok_F].
Qed.
Print Assumptions C39_run_refuted.
Example C39_example : exists p, @validate_common_args NumR ex_X ex_Y None = Ok tt /\ check_str_cov "matern52" (shape ex_X) None = Ok tt /\
  @get_prior_mu NumR None ex_X = Ok p /\ num_dim ex_X "matern52" = Ok 2%nat /\ In "matern52" cov_names /\
  @evaluates_start NumR (fun f start m b j => do v <- f start; Ok start).
Proof.
  eexists. split; [reflexivity|]. split; [reflexivity|]. split; [reflexivity|]. split; [reflexivity|]. split; [cbn; tauto|].
  intros f start m b j e E. now rewrite E.
Qed.
(** with one lengthscale per dimension, in particular for one-dimensional inputs, there is always a value *)
Theorem C39_partial : forall name X d Y p th fx inv,
  fits name X d -> column (alen X) Y -> column (alen X) p -> inv_contract inv ->
  (List.length th = num_hyps true true fx d \/ d = 1%nat /\ List.length th = num_hyps true false fx d) ->
  exists v, @neg_log_pseudo_l_loocv NumR exp ln PI inv X Y th name p fx = Ok v.
Proof.
  intros name X d Y p th fx inv F HY Hp HI L0.
  assert (L : List.length th = num_hyps true true fx d) by (destruct L0 as [L|[-> L]]; exact L).
  destruct (C36_domain _ _ _ _ _ _ F L) as (h & ls & s & nz & K & ER & HH & HK).
  destruct (C37 _ _ _ _ _ _ _ _ _ _ _ _ _ F HH HK HY Hp HI ER) as (C & B & m & v & _ & _ & _ & E). eauto.
Qed.
Print Assumptions C39_partial.

(** ** C41 *)
(** any number system, any optimiser: what it is given, and what is done with its outcome *)
Theorem C41_gp_any : forall (N : Num) nexp nlog npi inv chol cho_solve slogdet minimize (X : arr N) Y pm p name dim ard fx opt ms,
  N = NumR \/ N = NumF ->
  validate_common_args X Y None = Ok tt -> check_str_cov name (shape X) None = Ok tt ->
  get_prior_mu pm X = Ok p -> num_dim X name = Ok dim -> In name cov_names ->
  In opt ALLOWED_OPTIMIZER_METHOD_GP -> In ms ALLOWED_MODELSELECTION_METHOD ->
  exists f start meth bounds jac run,
    run = get_optimized_kernel nexp nlog npi inv chol cho_solve slogdet minimize X Y pm name opt ms ard fx /\
    good_call true ard fx (str_in opt ["L-BFGS-B"; "SLSQP-Bounded"]) name dim start bounds /\
    (ms = "loocv" -> forall th, f th = (do v <- neg_log_pseudo_l_loocv nexp nlog npi inv X Y th name p fx; Ok (v, None))) /\
    (ms = "ml" -> forall th, f th = neg_log_ml nexp nlog npi inv chol cho_solve slogdet X Y th name p ard fx true
        (negb (opt =? "Nelder-Mead") && str_in name ALLOWED_COV_BASE)) /\
    (jac = true -> ms = "ml" /\ opt <> "Nelder-Mead" /\ str_in name ALLOWED_COV_BASE = true) /\
    (forall e, minimize f start meth bounds jac = Raise e -> run = Raise e) /\
    (forall x, minimize f start meth bounds jac = Ok x -> List.length x = List.length start ->
       exists h0 h, restore_hyps N name x true ard fx (GP_NOISE N) = Ok h0 /\ convert_hyps name h0 true fx = Ok x /\
         validate_hyps_dict h0 name (Z.of_nat dim) true = Ok h /\
         run = (do c <- train_cov nexp X h name; do b <- inv c; Ok (c, b, h))).
Proof.
  intros N nexp nlog npi inv chol cho_solve slogdet minimize X Y pm p name dim ard fx opt ms HN V CK EP ED Hc Ho Hm.
  assert (LIT : literals_ok N) by (destruct HN as [-> | ->]; [exact literals_ok_R|exact literals_ok_F]).
  destruct (@gp_calls N LIT nexp nlog npi inv chol cho_solve slogdet minimize X Y pm p name dim ard fx V CK EP ED Hc opt ms Ho Hm)
    as (start & bounds & meth & jac & G & J & _ & E).
  set (ug := (negb (opt =? "Nelder-Mead") && str_in name ALLOWED_COV_BASE && negb (ms =? "loocv"))%bool) in *.
  exists (gp_objective nexp nlog npi inv chol cho_solve slogdet X Y p name ms ard fx ug), start, meth, bounds, jac. eexists.
  split; [reflexivity|]. split; [exact G|]. split; [intros ->; reflexivity|]. split.
  { intros ->. intros th. unfold gp_objective. change ("ml" =? "ml") with true. cbn iota. unfold ug. now rewrite andb_true_r. }
  split.
  { intros Hj. specialize (J Hj). unfold ug in J. apply andb_true_iff in J as [J J3]. apply andb_true_iff in J as [J1 J2].
    split; [|split; [|exact J2]].
    - destruct Hm as [<-|[<-|[]]]; [reflexivity|discriminate J3].
    - intros ->. discriminate J1. }
  rewrite E. split.
  - intros e ->. reflexivity.
  - intros x -> L. cbn [rbind]. destruct G as (r & _ & _ & LS & _).
    destruct (@finish_decodes N nexp inv X name dim ard fx Hc true x (eq_trans L LS)) as (h0 & h & E1 & E2 & _ & E4 & E5).
    exists h0, h. auto.
Qed.
Print Assumptions C41_gp_any.
(** exact reals: the three results belong together *)
Theorem C41_gp : forall name X d Y pm p inv chol cho_solve slogdet minimize ard fx opt ms,
  fits name X d -> column (alen X) Y -> get_prior_mu pm X = Ok p -> inv_contract inv ->
  In opt ALLOWED_OPTIMIZER_METHOD_GP -> In ms ALLOWED_MODELSELECTION_METHOD -> keeps_length minimize ->
  (exists e, @get_optimized_kernel NumR exp ln PI inv chol cho_solve slogdet minimize X Y pm name opt ms ard fx = Raise e /\
     exists f start meth bounds jac, minimize f start meth bounds jac = Raise e) \/
  (exists f start meth bounds jac x C B h, minimize f start meth bounds jac = Ok x /\
     @get_optimized_kernel NumR exp ln PI inv chol cho_solve slogdet minimize X Y pm name opt ms ard fx = Ok (C, B, h) /\
     @restore_hyps NumR name x true ard fx (GP_NOISE NumR) = Ok h /\ convert_hyps name h true fx = Ok x /\
     @train_cov NumR exp X h name = Ok C /\ is_inverse (alen X) C B).
Proof.
  intros name X d Y pm p inv chol cho_solve slogdet minimize ard fx opt ms F HY EP HI Ho Hm KL.
  destruct (fits_facts F) as (Hc & ED & _).
  destruct (@gp_calls NumR literals_ok_R exp ln PI inv chol cho_solve slogdet minimize X Y pm p name d ard fx
     (fits_validate F HY) (GPProofs.fits_shape F) EP ED Hc opt ms Ho Hm) as (start & bounds & meth & jac & G & _ & _ & E).
  cbv zeta in E. rewrite E.
  match goal with |- context [minimize ?a ?b ?c ?dd ?e] => set (f := a); destruct (minimize f b c dd e) as [x|e1] eqn:M end.
  - right. destruct G as (r & _ & _ & LS & _).
    destruct (finish_real_gp F HI (eq_trans (KL _ _ _ _ _ _ M) LS)) as (C & B & h & E1 & E2 & E3 & E4 & E5).
    exists f, start, meth, bounds, jac, x, C, B, h. auto 7.
  - left. exists e1. split; [reflexivity|]. exists f, start, meth, bounds, jac. exact M.
Qed.
Print Assumptions C41_gp.
(** the same for the Student-t process; degrees of freedom of at most 2 are replaced by 2.00001 *)
Theorem C41_tp : forall name X d Y pm p inv slogdet ngamma ndigamma minimize ard fx opt,
  fits name X d -> column (alen X) Y -> get_prior_mu pm X = Ok p -> inv_contract inv ->
  In opt ALLOWED_OPTIMIZER_METHOD_TP ->
  exists f start bounds run,
    run = @tp_get_optimized_kernel NumR exp ln PI inv slogdet ngamma ndigamma minimize X Y pm name opt ard fx /\
    (forall th, f th = @tp_neg_log_ml NumR exp ln PI inv slogdet ngamma ndigamma X Y th name p ard fx false) /\
    good_call false ard fx true name d start bounds /\
    (forall e, minimize f start opt bounds false = Raise e -> run = Raise e) /\
    (forall x, minimize f start opt bounds false = Ok x -> List.length x = List.length start ->
       exists C B h0 h nu, run = Ok (C, B, h) /\
         @restore_hyps NumR name x false ard fx (GP_NOISE NumR) = Ok h0 /\ convert_hyps name h0 false fx = Ok x /\
         dget h0 "dof" = Some (PFloat NumR nu) /\
         (2 < nu -> h = h0) /\ (nu <= 2 -> h = dset h0 "dof" (PFloat NumR (200001 / 100000))) /\
         @train_cov NumR exp X h name = Ok C /\ is_inverse (alen X) C B).
Proof.
  intros name X d Y pm p inv slogdet ngamma ndigamma minimize ard fx opt F HY EP HI Ho.
  destruct (fits_facts F) as (Hc & ED & _).
  destruct (@tp_calls NumR literals_ok_R exp ln PI inv slogdet ngamma ndigamma minimize X Y pm p name d ard fx
     (fits_validate F HY) (GPProofs.fits_shape F) EP ED Hc opt Ho) as (start & bounds & G & E).
  eexists _, start, bounds, _. split; [reflexivity|]. split; [intros th; reflexivity|]. split; [exact G|]. rewrite E. split.
  - intros e ->. reflexivity.
  - intros x -> L. cbn [rbind]. destruct G as (r & _ & _ & LS & _).
    destruct (finish_real_tp F HI (eq_trans L LS)) as (C & B & h0 & h & nu & E1 & E2 & E3 & E4 & E5 & E6 & E7).
    exists C, B, h0, h, nu. split; [exact E1|]. split; [exact E2|]. split; [exact E3|]. split; [exact E4|].
    split; [intros Q; rewrite E5, Flocq.Core.Raux.Rle_bool_false by lra; reflexivity|].
    split; [intros Q; rewrite E5, Flocq.Core.Raux.Rle_bool_true by lra; reflexivity|]. auto.
Qed.
Print Assumptions C41_tp.
Example C41_example : fits "matern52" ex_X 2 /\ column (alen ex_X) ex_Y /\
  @keeps_length NumR (fun f start m b j => do v <- f start; Ok (map (fun x => x + 1) start)).
Proof.
  split; [apply ex_fits|]. split; [apply ex_column|]. intros f start m b j x E. cbn in E.
  destruct (f start); [|discriminate]. apply Ok_inj in E. subst. apply map_length.
Qed.
