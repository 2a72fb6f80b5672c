(** The choice of hyperparameters: what the optimiser is given and what is done with its outcome. *)
From Verif Require Import Base Lists Num UtilsModel UtilsSpec HypsModel HypsSpec HypsProofs CovModel KernelSpec CovSpec CovProofs CovProofs2 CovGrad GPProofs2 GPModel GPSpec GPProofs LikModel LikSpec HypOptModel HypOptSpec.
From Coq Require Import List ZArith Bool Ascii String Reals Lra Lia Arith.
From Flocq Require Import Core.Raux.
Import ListNotations.
Local Open Scope string_scope.
Set Implicit Arguments.
Unset Strict Implicit.
Unset Asymmetric Patterns.
Set Bullet Behavior "Strict Subproofs".

Section Any.
Context (N : Num) (LIT : literals_ok N).
Notation mx := (list (list N)).
Context (nexp nlog : N -> N) (npi : N).
Context (inv chol : mx -> res mx) (cho_solve : mx -> mx -> res mx) (slogdet : mx -> N * N) (ngamma ndigamma : N -> N).
Variables (minimize : @minimizer N) (X : arr N) (Y : mat N) (pm : prior N) (p : mat N) (name : string) (dim : nat) (ard fx : bool).
Hypotheses (V : validate_common_args X Y None = Ok tt) (CK : check_str_cov name (shape X) None = Ok tt)
  (EP : get_prior_mu pm X = Ok p) (ED : num_dim X name = Ok dim) (Hc : In name cov_names).

(** what is done with an outcome *)
Definition finish (use_gp : bool) (x : list N) : res (mx * mx * dict N) :=
  do hyps <- restore_hyps N name x use_gp ard fx (GP_NOISE N);
  do hyps <- validate_hyps_dict hyps name (Z.of_nat dim) use_gp;
  do c <- train_cov nexp X hyps name;
  do b <- inv c;
  Ok (c, b, hyps).
Lemma inverse_steps h : (do k <- get_kernel_inverse nexp inv X h name fx false; (let '(c, b, _) := k in Ok (c, b, h)))
  = (do c <- train_cov nexp X h name; do b <- inv c; Ok (c, b, h)).
Proof.
  unfold get_kernel_inverse. rewrite CK. cbn [rbind]. destruct (train_cov nexp X h name) as [c|]; cbn [rbind]; [|reflexivity].
  destruct (inv c); reflexivity.
Qed.
Lemma rbind_ext {A B} (m : res A) (f g : A -> res B) : (forall a, f a = g a) -> rbind m f = rbind m g.
Proof. intros E. destruct m; [apply E|reflexivity]. Qed.

Lemma gp_calls opt ms : In opt ALLOWED_OPTIMIZER_METHOD_GP -> In ms ALLOWED_MODELSELECTION_METHOD ->
  exists start bounds meth jac,
    good_call true ard fx (str_in opt ["L-BFGS-B"; "SLSQP-Bounded"]) name dim start bounds /\
    let ug := negb (opt =? "Nelder-Mead") && str_in name ALLOWED_COV_BASE && negb (ms =? "loocv") in
    (jac = true -> ug = true) /\ (opt <> "Nelder-Mead" -> jac = ug) /\
    get_optimized_kernel nexp nlog npi inv chol cho_solve slogdet minimize X Y pm name opt ms ard fx
    = (do x <- minimize (gp_objective nexp nlog npi inv chol cho_solve slogdet X Y p name ms ard fx ug) start meth bounds jac;
       finish true x).
Proof.
  intros Ho Hm. destruct (@defaults_feasible N name (Z.of_nat dim) true ard fx LIT Hc ltac:(lia)) as (h0 & v & r & E1 & E2 & E3 & L1 & L2 & FE).
  rewrite Nat2Z.id in L2.
  unfold get_optimized_kernel. rewrite V, CK, EP, ED. cbn [rbind].
  rewrite (proj2 (str_in_In opt _) Ho), (proj2 (str_in_In ms _) Hm). cbn [assert_ rbind].
  rewrite E1. cbn [rbind]. rewrite E2. cbn [rbind]. rewrite E3. cbn [rbind].
  assert (FIN : forall m, (do x <- m; (do hyps <- restore_hyps N name x true ard fx (GP_NOISE N);
     do hyps <- validate_hyps_dict hyps name (Z.of_nat dim) true;
     do k <- get_kernel_inverse nexp inv X hyps name fx false;
     let '(cov_X_X, inv_cov_X_X, _) := k in Ok (cov_X_X, inv_cov_X_X, hyps))) = (do x <- m; finish true x)).
  { intros m. apply rbind_ext. intros x. unfold finish. apply rbind_ext. intros h. apply rbind_ext. intros h'. apply inverse_steps. }
  assert (G : forall bd, good_call true ard fx bd name dim v (if bd then Some r else None)).
  { intros bd. exists r. split; [exact E3|]. split; [now symmetry|]. split; [exact L2|]. split; [exact FE|]. split; [reflexivity|]. exists h0. auto. }
  cbn in Ho. destruct Ho as [<-|[<-|[<-|[<-|[<-|[]]]]]].
  - exists v, None, "BFGS", (true && str_in name ALLOWED_COV_BASE && negb (ms =? "loocv"))%bool. split; [exact (G false)|]. cbv zeta. split; [trivial|]. split; [reflexivity|]. apply FIN.
  - exists v, (Some r), "L-BFGS-B", (true && str_in name ALLOWED_COV_BASE && negb (ms =? "loocv"))%bool. split; [exact (G true)|]. cbv zeta. split; [trivial|]. split; [reflexivity|]. apply FIN.
  - exists v, None, "Nelder-Mead", false. split; [exact (G false)|]. cbv zeta. split; [discriminate|]. split; [intros Q; now contradiction Q|]. apply FIN.
  - exists v, None, "SLSQP", (true && str_in name ALLOWED_COV_BASE && negb (ms =? "loocv"))%bool. split; [exact (G false)|]. cbv zeta. split; [trivial|]. split; [reflexivity|]. apply FIN.
  - exists v, (Some r), "SLSQP", (true && str_in name ALLOWED_COV_BASE && negb (ms =? "loocv"))%bool. split; [exact (G true)|]. cbv zeta. split; [trivial|]. split; [reflexivity|]. apply FIN.
Qed.

Lemma tp_calls opt : In opt ALLOWED_OPTIMIZER_METHOD_TP ->
  exists start bounds,
    good_call false ard fx true name dim start bounds /\
    tp_get_optimized_kernel nexp nlog npi inv slogdet ngamma ndigamma minimize X Y pm name opt ard fx
    = (do x <- minimize (fun th => tp_neg_log_ml nexp nlog npi inv slogdet ngamma ndigamma X Y th name p ard fx false) start opt bounds false;
       finish false x).
Proof.
  intros Ho. destruct (@defaults_feasible N name (Z.of_nat dim) false ard fx LIT Hc ltac:(lia)) as (h0 & v & r & E1 & E2 & E3 & L1 & L2 & FE).
  rewrite Nat2Z.id in L2.
  unfold tp_get_optimized_kernel. rewrite V, CK, EP, ED. cbn [rbind].
  rewrite (proj2 (str_in_In opt _) Ho). cbn [assert_ rbind].
  rewrite E1. cbn [rbind]. rewrite E2. cbn [rbind]. rewrite E3. cbn [rbind].
  exists v, (Some r). split.
  - exists r. split; [exact E3|]. split; [now symmetry|]. split; [exact L2|]. split; [exact FE|]. split; [reflexivity|]. exists h0. auto.
  - apply rbind_ext. intros x. unfold finish. apply rbind_ext. intros h. apply rbind_ext. intros h'. apply inverse_steps.
Qed.

(** decoding never fails when the outcome has the right length; validation only clamps *)
Lemma finish_decodes use_gp x : List.length x = num_hyps use_gp ard fx dim ->
  exists h0 h, restore_hyps N name x use_gp ard fx (GP_NOISE N) = Ok h0 /\ convert_hyps name h0 use_gp fx = Ok x /\
    (fx = true -> dget h0 "noise" = Some (PFloat N (GP_NOISE N))) /\
    validate_hyps_dict h0 name (Z.of_nat dim) use_gp = Ok h /\
    finish use_gp x = (do c <- train_cov nexp X h name; do b <- inv c; Ok (c, b, h)).
Proof.
  intros L.
  assert (A : admissible use_gp ard fx (List.length x)).
  { unfold admissible. rewrite L. unfold num_hyps. destruct ard, use_gp, fx; lia. }
  destruct (@convert_restore N name x use_gp ard fx (GP_NOISE N) Hc A) as (h0 & E & C & Q).
  destruct (@decode_exists N use_gp ard fx (GP_NOISE N) x A) as (hs & D).
  destruct (@restore_decodes N name x use_gp ard fx (GP_NOISE N) hs Hc D) as (h1 & E1 & B1).
  rewrite E in E1. apply Ok_inj in E1. subst h1.
  destruct (@validate_eq N h0 name (Z.of_nat dim) use_gp Hc) as [W _].
  assert (WF : wellformed h0 (Z.of_nat dim) use_gp).
  { destruct B1 as (Bn & Bd & Bs & Bl), D as (DL & _ & DG & DA & DB). split; [eexists; exact Bn|]. split; [eexists; exact Bs|]. split.
    - intros G. destruct (h_dof hs) as [nu|] eqn:Q1; [exists nu; exact Bd|]. exfalso. assert (use_gp = true) by now apply DG. congruence.
    - destruct ard eqn:AA.
      + right. destruct (DA eq_refl) as [l Hl]. exists l. rewrite Bl, Hl. split; [reflexivity|]. f_equal.
        assert (EQ : use_gp = match h_dof hs with Some _ => false | None => true end).
        { destruct (h_dof hs) as [nu|]; [|now apply DG]. destruct use_gp; [|reflexivity].
          assert (F : Some nu = None) by now apply DG. discriminate F. }
        rewrite <- DL in L. unfold layout in L. rewrite Hl, !app_length in L. unfold num_hyps in L. rewrite EQ in L.
        destruct fx, (h_dof hs); cbn in L; lia.
      + left. destruct (DB eq_refl) as [z Hz]. exists z. now rewrite Bl, Hz. }
  destruct (W WF) as (h & EV & _). exists h0, h. split; [exact E|]. split; [exact C|]. split; [exact Q|]. split; [exact EV|].
  unfold finish. rewrite E. cbn [rbind]. rewrite EV. reflexivity.
Qed.
End Any.

(** *** leave-one-out model selection without automatic relevance determination *)
Section Scalar.
Context (N : Num).
Notation mx := (list (list N)).
Context (nexp nlog : N -> N) (npi : N) (inv : mx -> res mx).
Variables (X : arr N) (Y p : mat N) (name : string) (dim : nat) (fx : bool).
Hypotheses (V : validate_common_args X Y None = Ok tt) (CK : check_str_cov name (shape X) None = Ok tt)
  (EP : nrows p = alen X) (ED : num_dim X name = Ok dim) (Hc : In name cov_names).

Lemma validate_dim h cov l : dget h "lengthscales" = Some (PArr N l) -> List.length l <> dim -> In cov cov_names ->
  validate_hyps_dict h cov (Z.of_nat dim) true = Raise ValueError.
Proof.
  clear Y p V CK EP ED Hc.
  intros E L I. apply (proj2 (@validate_eq N h cov (Z.of_nat dim) true I)).
  intros (_ & _ & _ & [[x W]|(l' & W & Q)]); rewrite E in W; [discriminate|]. injection W as <-. lia.
Qed.
Lemma cov_dim h l jit : dget h "lengthscales" = Some (PArr N l) -> List.length l <> dim ->
  cov_main nexp name X X h true jit = Raise ValueError.
Proof.
  clear Y p V EP. intros E L. unfold cov_main. rewrite allowed_cov_names, (proj2 (str_in_In _ _) Hc). cbn [assert_ rbind].
  rewrite Nat.eqb_refl. cbn [assert_ rbind].
  unfold check_str_cov in CK. unfold num_dim in ED.
  destruct (str_in name ALLOWED_COV_BASE) eqn:B.
  - destruct X as [x|ls s d]; [|discriminate CK]. cbn in ED. apply Ok_inj in ED. rewrite Nat.eqb_refl. cbn [assert_ rbind].
    rewrite ED. now rewrite (validate_dim E L Hc).
  - destruct (str_in name ALLOWED_COV_SET) eqn:S; [|destruct (str_in name ALLOWED_COV); discriminate CK].
    destruct X as [x|ls s d]; [discriminate CK|]. cbn in ED. apply Ok_inj in ED. rewrite Nat.eqb_refl. cbn [assert_ rbind].
    assert (BN : exists b, nth_error (split_on "_"%char name "") 1 = Some b /\ In b cov_names).
    { clear - Hc B. cbn in Hc.
      decompose [or] Hc; try contradiction; subst name; try discriminate B; clear Hc; (eexists; split; [reflexivity|cbn; tauto]). }
    destruct BN as (b & -> & Ib). rewrite ED. now rewrite (validate_dim E L Ib).
Qed.
Lemma loocv_scalar th : List.length th = num_hyps true false fx dim -> dim <> 1%nat ->
  neg_log_pseudo_l_loocv nexp nlog npi inv X Y th name p fx = Raise ValueError.
Proof.
  intros L D. unfold neg_log_pseudo_l_loocv, checks. rewrite V. cbn [rbind].
  assert (EY : alen X = nrows Y) by (unfold validate_common_args in V; destruct (Nat.eqb_spec (alen X) (nrows Y)) as [EY|]; [exact EY|discriminate V]).
  rewrite <- EY, EP, Nat.eqb_refl. cbn [andb assert_ rbind]. rewrite CK. cbn [rbind].
  assert (A : admissible true true fx (List.length th)) by (unfold admissible; rewrite L; unfold num_hyps; destruct fx; lia).
  destruct (@decode_exists N true true fx (GP_NOISE N) th A) as (hs & Dc).
  destruct (@restore_decodes N name th true true fx (GP_NOISE N) hs Hc Dc) as (h & E & (Bn & Bd & Bs & Bl)). rewrite E. cbn [rbind].
  destruct Dc as (DL & _ & DG & DA & _). destruct (DA eq_refl) as [l Hl]. rewrite Hl in Bl.
  assert (LL : List.length l <> dim).
  { rewrite <- DL in L. unfold layout in L. rewrite Hl, !app_length in L. rewrite (proj2 DG eq_refl) in L.
    unfold num_hyps in L. destruct fx; cbn in L; lia. }
  unfold get_kernel_inverse. rewrite CK. cbn [rbind]. unfold train_cov. now rewrite (cov_dim (JITTER_COV N) Bl LL).
Qed.
End Scalar.

Lemma prior_rows (N : Num) (pm : prior N) X p : get_prior_mu pm X = Ok p -> nrows p = alen X.
Proof.
  unfold get_prior_mu. destruct pm as [f|].
  - destruct (f X) as [q|]; [|discriminate]. cbn [rbind]. destruct (Nat.eqb_spec (alen X) (nrows q)) as [E|]; [|discriminate].
    intros Q. apply Ok_inj in Q. now subst.
  - intros Q. apply Ok_inj in Q. subst. unfold nrows, zeros, mgen. cbn. now rewrite map_length, seq_length.
Qed.

(** so the choice of hyperparameters fails *)
Lemma loocv_scalar_fails (N : Num) (LIT : literals_ok N) nexp nlog npi inv chol cho_solve slogdet minimize (X : arr N) Y pm p name dim fx opt :
  validate_common_args X Y None = Ok tt -> check_str_cov name (shape X) None = Ok tt ->
  get_prior_mu pm X = Ok p -> num_dim X name = Ok dim -> In name cov_names -> dim <> 1%nat ->
  In opt ALLOWED_OPTIMIZER_METHOD_GP -> evaluates_start minimize ->
  get_optimized_kernel nexp nlog npi inv chol cho_solve slogdet minimize X Y pm name opt "loocv" false fx = Raise ValueError.
Proof.
  intros V CK EP ED Hc D Ho EV.
  destruct (@gp_calls N LIT nexp nlog npi inv chol cho_solve slogdet minimize X Y pm p name dim false fx V CK EP ED Hc opt "loocv" Ho (or_intror (or_introl eq_refl)))
    as (start & bounds & meth & jac & (r & _ & _ & L & _) & _ & _ & ->).
  erewrite EV; [reflexivity|]. unfold gp_objective. cbn [String.eqb Ascii.eqb Bool.eqb].
  now rewrite (@loocv_scalar N nexp nlog npi inv X Y p name dim fx V CK (prior_rows EP) ED Hc start L D).
Qed.

(** *** exact reals *)
Lemma fits_facts name X d : fits name X d -> In name cov_names /\ num_dim X name = Ok d /\ (forall ls s, exists K, cov_of name ls s d = Some K).
Proof.
  intros [_ F]. destruct X as [x|l k d'].
  - destruct F as [P <-]. destruct (profile_of name) as [q|] eqn:Q; [|congruence].
    destruct (choose_profile Q) as (_ & _ & _ & A & B). split; [|split].
    + rewrite allowed_cov_names in A. now apply str_in_In in A.
    + unfold num_dim. now rewrite B.
    + intros ls s. unfold cov_of. rewrite Q. eauto.
  - destruct F as (P & -> & _). destruct (set_profile_of name) as [q|] eqn:Q; [|congruence].
    destruct (set_profile Q) as (Q' & A & B & S & _). split; [|split].
    + rewrite allowed_cov_names in A. now apply str_in_In in A.
    + unfold num_dim. now rewrite B, S.
    + intros ls s. unfold cov_of. rewrite Q', Q. eauto.
Qed.
Lemma fits_validate name X d Y : fits name X d -> column (alen X) Y -> @validate_common_args NumR X Y None = Ok tt.
Proof. intros _ [_ [LY _]]. unfold validate_common_args, nrows. replace (List.length (mrows Y)) with (alen X) by (symmetry; exact LY). now rewrite Nat.eqb_refl. Qed.

(** decoding gives hyperparameters in the domain of the package *)
Lemma restored name d use_gp ard fx (x : list R) n0 : In name cov_names -> List.length x = num_hyps use_gp ard fx d ->
  exists h ls s nz, @restore_hyps NumR name x use_gp ard fx n0 = Ok h /\ has_hyps h d ls s nz /\
    @convert_hyps NumR name h use_gp fx = Ok x /\ (fx = true -> nz = n0) /\
    (use_gp = false -> exists nu, dget h "dof" = Some (PFloat NumR nu)) /\
    wellformed (N := NumR) h (Z.of_nat d) use_gp.
Proof.
  intros Hc L.
  assert (A : admissible use_gp ard fx (List.length x)).
  { unfold admissible. rewrite L. unfold num_hyps. destruct ard, use_gp, fx; lia. }
  destruct (@convert_restore NumR name x use_gp ard fx n0 Hc A) as (h0 & E & C & Q).
  destruct (@decode_exists NumR use_gp ard fx n0 x A) as (hs & D).
  destruct (@restore_decodes NumR name x use_gp ard fx n0 hs Hc D) as (h1 & E1 & B1).
  rewrite E in E1. apply Ok_inj in E1. subst h1.
  destruct B1 as (Bn & Bd & Bs & Bl), D as (DL & _ & DG & DA & DB).
  exists h0, (match h_ls hs with inl l => PArr NumR l | inr z => PFloat NumR z end), (h_signal hs), (h_noise hs).
  assert (EQ : use_gp = match h_dof hs with Some _ => false | None => true end).
  { destruct (h_dof hs) as [nu|]; [|now apply DG]. destruct use_gp; [|reflexivity].
    assert (F : Some nu = None) by now apply DG. discriminate F. }
  assert (LL : match h_ls hs with inl l => List.length l = d | inr _ => True end).
  { destruct (h_ls hs) as [l|z] eqn:Hl; [|trivial]. destruct ard.
    - rewrite <- DL in L. unfold layout in L. rewrite Hl, !app_length in L. unfold num_hyps in L. rewrite EQ in L.
      change (car NumR) with R in *. destruct fx, (h_dof hs); cbn [List.length] in L; lia.
    - destruct (DB eq_refl) as [z Hz]. discriminate. }
  assert (DF : use_gp = false -> exists nu, dget h0 "dof" = Some (PFloat NumR nu)).
  { intros G. destruct (h_dof hs) as [nu|]; [eauto|congruence]. }
  split; [exact E|]. split.
  { split; [exact Bn|]. split; [exact Bs|]. split; [destruct (h_ls hs); exact Bl|]. destruct (h_ls hs); [exact LL|exact Logic.I]. }
  split; [exact C|]. split; [|split; [exact DF|]].
  - intros FX. specialize (Q FX). rewrite Bn in Q. now injection Q.
  - split; [eexists; exact Bn|]. split; [eexists; exact Bs|]. split; [exact DF|].
    destruct (h_ls hs) as [l|z]; [right|left; eexists; exact Bl]. exists l. split; [exact Bl|]. now f_equal.
Qed.
(** with real numbers validation changes nothing but degrees of freedom of at most 2 *)
Lemma validate_real name d use_gp h : In name cov_names -> wellformed (N := NumR) h (Z.of_nat d) use_gp ->
  @validate_hyps_dict NumR h name (Z.of_nat d) use_gp
  = Ok (match use_gp, dget h "dof" with
        | false, Some (PFloat _ nu) => if Rle_bool nu 2 then dset h "dof" (PFloat NumR (200001 / 100000)) else h
        | _, _ => h
        end).
Proof.
  intros Hc ((nz & W1) & (s & W2) & W3 & W4). unfold validate_hyps_dict.
  rewrite allowed_cov_names, (proj2 (str_in_In _ _) Hc). cbn [assert_ rbind]. rewrite W1. cbn [ninf NumR].
  assert (T : forall g, dget g "lengthscales" = dget h "lengthscales" -> dget g "signal" = dget h "signal" ->
    match dget g "lengthscales" with
    | None => Raise ValueError
    | Some ls => if (match ls with PArr _ l => negb (Z.of_nat (List.length l) =? Z.of_nat d)%Z | _ => false end) then Raise ValueError
        else match ls with POther _ _ => Raise ValueError | _ => match dget g "signal" with Some (PFloat _ _) => Ok g | _ => Raise ValueError end end
    end = Ok g).
  { intros g -> ->. rewrite W2. destruct W4 as [(z & ->)|(l & -> & Ll)]; [reflexivity|]. rewrite Ll, Z.eqb_refl. reflexivity. }
  destruct use_gp; cbn [rbind]; [now apply T|].
  destruct (W3 eq_refl) as (nu & ->). cbn [rbind]. cbn [nle nofZ NumR]. change (IZR 2) with 2%R. unfold nlit. cbn [nofZ ndiv NumR].
  destruct (Rle_bool nu 2); [|now apply T]. apply T; now rewrite dset_chain.
Qed.
Lemma has_hyps_dset h d ls s nz v : has_hyps h d ls s nz -> has_hyps (dset h "dof" v) d ls s nz.
Proof. intros (A & B & C & D). unfold has_hyps. rewrite !dset_chain. auto. Qed.

Section Real.
Variables (name : string) (X : arr NumR) (d : nat) (Y : mat NumR) (pm : prior NumR) (p : mat NumR) (inv : list (list R) -> res (list (list R))).
Hypotheses (F : fits name X d) (HY : column (alen X) Y) (EP : get_prior_mu pm X = Ok p) (HI : inv_contract inv).

Lemma finish_real_gp ard fx (x : list R) : List.length x = num_hyps true ard fx d ->
  exists C B h, @finish NumR exp inv X name d ard fx true x = Ok (C, B, h) /\ @restore_hyps NumR name x true ard fx (GP_NOISE NumR) = Ok h /\
    @convert_hyps NumR name h true fx = Ok x /\ @train_cov NumR exp X h name = Ok C /\ is_inverse (alen X) C B.
Proof.
  intros L. destruct (fits_facts F) as (Hc & _ & HK).
  destruct (restored (GP_NOISE NumR) Hc L) as (h & ls & s & nz & E & HH & C & _ & _ & W).
  destruct (HK ls s) as [K EK].
  destruct (inverse_ok F HH EK HI) as (C0 & B0 & EI & EC & _ & HB & _).
  exists C0, B0, h. split; [|auto]. unfold finish. rewrite E. cbn [rbind]. rewrite (validate_real Hc W). cbn [rbind].
  rewrite EC. cbn [rbind]. unfold get_kernel_inverse in EI. rewrite (fits_shape F) in EI. cbn [rbind] in EI. rewrite EC in EI. cbn [rbind] in EI.
  destruct (inv C0) as [b|]; [|discriminate EI]. cbn [rbind] in EI. apply Ok_inj in EI. injection EI as <-. reflexivity.
Qed.
Lemma finish_real_tp ard fx (x : list R) : List.length x = num_hyps false ard fx d ->
  exists C B h0 h nu, @finish NumR exp inv X name d ard fx false x = Ok (C, B, h) /\ @restore_hyps NumR name x false ard fx (GP_NOISE NumR) = Ok h0 /\
    @convert_hyps NumR name h0 false fx = Ok x /\ dget h0 "dof" = Some (PFloat NumR nu) /\
    h = (if Rle_bool nu 2 then dset h0 "dof" (PFloat NumR (200001 / 100000)) else h0) /\
    @train_cov NumR exp X h name = Ok C /\ is_inverse (alen X) C B.
Proof.
  intros L. destruct (fits_facts F) as (Hc & _ & HK).
  destruct (restored (GP_NOISE NumR) Hc L) as (h & ls & s & nz & E & HH & C & _ & DF & W).
  destruct (DF eq_refl) as [nu Enu]. destruct (HK ls s) as [K EK].
  pose (h' := if Rle_bool nu 2 then dset h "dof" (PFloat NumR (200001 / 100000)) else h).
  assert (HH' : has_hyps h' d ls s nz) by (unfold h'; destruct (Rle_bool nu 2); [now apply has_hyps_dset|exact HH]).
  destruct (inverse_ok F HH' EK HI) as (C0 & B0 & EI & EC & _ & HB & _).
  exists C0, B0, h, h', nu. split; [|auto 7]. unfold finish. rewrite E. cbn [rbind]. rewrite (validate_real Hc W), Enu. cbn [rbind]. fold h'.
  rewrite EC. cbn [rbind]. unfold get_kernel_inverse in EI. rewrite (fits_shape F) in EI. cbn [rbind] in EI. rewrite EC in EI. cbn [rbind] in EI.
  destruct (inv C0) as [b|]; [|discriminate EI]. cbn [rbind] in EI. apply Ok_inj in EI. injection EI as <-. reflexivity.
Qed.
End Real.
