(** The chosen hyperparameters fit at least as well as the defaults. *)
From Verif Require Import Base Lists Num UtilsModel UtilsSpec HypsModel HypsSpec HypsProofs CovModel KernelSpec CovSpec CovProofs CovProofs2 CovGrad GPProofs2 GPModel GPSpec GPProofs
  LikModel LikSpec LikProps GradSpec GradReal GradProps TPGrad HypOptModel HypOptSpec HypOptProofs FitSpec.
From Coq Require Import List ZArith Bool String Reals Lra Lia Arith.
From Flocq Require Import Core.
Import ListNotations.
Import CovModel.
Local Open Scope string_scope.
Set Implicit Arguments.
Unset Strict Implicit.
Unset Asymmetric Patterns.
Set Bullet Behavior "Strict Subproofs".

Section Fit.
Variables (inv chol : list (list R) -> res (list (list R))) (cho_solve : list (list R) -> list (list R) -> res (list (list R)))
  (slogdet : list (list R) -> R * R) (gamma digamma : R -> R) (minimize : minimizer NumR).
Hypotheses (KL : keeps_length minimize) (DS : descends minimize) (HI : inv_contract inv).
Variables (name : string) (X : arr NumR) (d : nat) (Y : mat NumR) (pm : prior NumR) (p : mat NumR).
Hypotheses (F : fits name X d) (HY : column (alen X) Y) (EP : get_prior_mu pm X = Ok p) (Hp : column (alen X) p) (Hn : (0 < alen X)%nat).

Notation nll ard fx th ug := (@neg_log_ml NumR exp ln PI inv chol cho_solve slogdet X Y th name p ard fx true ug).

(** the value does not depend on whether the gradient is asked for *)
Lemma value_no_gradient ard fx th v g : nll ard fx th true = Ok (v, g) -> nll ard fx th false = Ok (v, None).
Proof.
  unfold neg_log_ml, get_kernel_cholesky.
  do 3 match goal with |- rbind ?m _ = _ -> _ => destruct m; cbn [rbind]; [|discriminate] end.
  match goal with |- rbind (rbind (rbind ?m _) _) _ = _ -> _ => destruct m; cbn [rbind]; [|discriminate] end.
  match goal with |- rbind (rbind (rbind ?m _) _) _ = _ -> _ => destruct m; cbn [rbind]; [|discriminate] end.
  match goal with |- rbind (rbind (rbind ?m _) _) _ = _ -> _ => destruct m as [[[? ?]|]|]; cbn [rbind]; [|discriminate|discriminate] end.
  repeat match goal with
  | |- rbind (rbind (rbind ?m _) _) _ = _ -> _ => destruct m; cbn [rbind option_map]; [|discriminate]
  | |- rbind (rbind ?m _) _ = _ -> _ => destruct m; cbn [rbind option_map]; [|discriminate]
  | |- rbind ?m _ = _ -> _ => destruct m; cbn [rbind option_map]; [|discriminate]
  | |- match ?m with Some _ => _ | None => _ end = _ -> _ => destruct m; [|discriminate]
  end.
  intros E. apply Ok_inj in E. injection E as <- _. reflexivity.
Qed.

Lemma default_vector use_gp ard fx : exists h0 th0, get_hyps NumR name (Z.of_nat d) use_gp ard = Ok h0 /\
  @convert_hyps NumR name h0 use_gp fx = Ok th0 /\ List.length th0 = num_hyps use_gp ard fx d.
Proof.
  destruct (fits_facts F) as (Hc & _ & _).
  destruct (@defaults_feasible NumR name (Z.of_nat d) use_gp ard fx literals_ok_R Hc ltac:(lia)) as (h0 & v & r & E1 & E2 & E3 & L1 & L2 & FE).
  exists h0, v. rewrite Nat2Z.id in L2. auto.
Qed.
Lemma ml_of_objective ard fx ug th v g h : nll ard fx th ug = Ok (v, g) -> @convert_hyps NumR name h true fx = Ok th ->
  ml_at inv chol cho_solve slogdet X Y p name ard fx h = Ok v.
Proof.
  intros E EC. unfold ml_at. rewrite EC. cbn [rbind]. destruct ug; [rewrite (value_no_gradient E)|rewrite E]; reflexivity.
Qed.
(** the defaults: signal and lengthscales 1, noise GP_NOISE *)
Lemma default_entries ard fx h0 th0 : get_hyps NumR name (Z.of_nat d) true ard = Ok h0 -> @convert_hyps NumR name h0 true fx = Ok th0 ->
  exists h ls s nz, @restore_hyps NumR name th0 true ard fx (GP_NOISE NumR) = Ok h /\ has_hyps h d ls s nz /\ s <> 0%R /\ ls_nonzero ls d.
Proof.
  intros E1 E2. destruct (fits_facts F) as (Hc & _ & _).
  assert (L : List.length th0 = num_hyps true ard fx d).
  { destruct (default_vector true ard fx) as (h1 & th1 & Q1 & Q2 & Q3). congruence. }
  destruct (C36_domain _ _ _ _ _ _ F L) as (h & ls & s & nz & K & ER & HH & HK). exists h, ls, s, nz. split; [exact ER|]. split; [exact HH|].
  assert (NZ : forall x, In x (if fx then th0 else tl th0) -> x = 1%R).
  { unfold get_hyps in E1. unfold convert_hyps in E2. destruct (str_in name ALLOWED_COV); [|discriminate]. cbn [assert_ rbind] in E1, E2.
    destruct (str_in name list_first); [|destruct fx; cbn [rbind] in E2; [discriminate|]; destruct (dfloat h0 "noise"); discriminate].
    destruct ard.
    - rewrite (proj2 (Z.ltb_ge _ _) (Zle_0_nat d)) in E1. apply Ok_inj in E1. subst h0. destruct fx; cbn in E2; apply Ok_inj in E2; subst th0; cbn [tl];
        intros x [<-|I]; try reflexivity; now apply repeat_spec in I.
    - apply Ok_inj in E1. subst h0. destruct fx; cbn in E2; apply Ok_inj in E2; subst th0; cbn [tl]; intros x [<-|[<-|[]]]; reflexivity. }
  destruct (restore_gp_inv _ _ _ _ _ _ _ _ _ _ ER HH) as (EV & EA & _). subst th0.
  destruct HH as (_ & _ & _ & HL). unfold theta in NZ. destruct ls as [l|l|]; [| |contradiction]; destruct fx; cbn in NZ, HL;
    (split; [rewrite (NZ s (or_introl eq_refl)); lra|]); intros i Hi; cbn.
  1,2: rewrite (NZ l (or_intror (or_introl eq_refl))); lra.
  all: apply Rgt_not_eq; match goal with |- (?t > 0)%R => rewrite (NZ t); [lra|right; apply nth_In; lia] end.
Qed.

(** the call of the optimiser, whose objective has a value at the start *)
Lemma ml_call opt ard fx h0 : In opt ALLOWED_OPTIMIZER_METHOD_GP -> chol_contract chol -> cho_solve_contract cho_solve -> slogdet_contract slogdet ->
  get_hyps NumR name (Z.of_nat d) true ard = Ok h0 ->
  exists ug start bounds meth jac v0 g0, List.length start = num_hyps true ard fx d /\ @convert_hyps NumR name h0 true fx = Ok start /\
    nll ard fx start ug = Ok (v0, g0) /\
    @get_optimized_kernel NumR exp ln PI inv chol cho_solve slogdet minimize X Y pm name opt "ml" ard fx
    = (do x <- minimize (fun th => nll ard fx th ug) start meth bounds jac; @finish NumR exp inv X name d ard fx true x).
Proof.
  intros Ho HC HS HD E0. destruct (fits_facts F) as (Hc & ED & _).
  destruct (@gp_calls NumR literals_ok_R exp ln PI inv chol cho_solve slogdet minimize X Y pm p name d ard fx
     (fits_validate F HY) (fits_shape F) EP ED Hc opt "ml" Ho (or_introl eq_refl))
    as (start & bounds & meth & jac & (r & _ & _ & LS & _ & _ & h1 & E1 & E2) & _ & _ & EQ).
  cbv zeta in EQ. assert (h1 = h0) as -> by congruence.
  set (ug := (negb (opt =? "Nelder-Mead") && str_in name ALLOWED_COV_BASE && negb ("ml" =? "loocv"))%bool) in *.
  assert (V0 : exists v0 g0, nll ard fx start ug = Ok (v0, g0)).
  { destruct (default_entries E0 E2) as (hh & ls & s & nz & ER & HH & Hs & Hl).
    destruct ug eqn:U.
    - unfold ug in U. apply andb_true_iff in U as [U _]. apply andb_true_iff in U as [_ U].
      destruct X as [m|? ? ?] eqn:EX.
      + destruct (profile_of name) as [pr|] eqn:PR.
        * destruct (C76 name pr m d hh ls s nz Y p start ard fx inv chol cho_solve slogdet PR F HY Hp Hn HI HC HS HD ER HH Hs Hl) as (v & g & _ & _ & E & _). eauto.
        * destruct F as (_ & Q & _). contradiction.
      + exfalso. destruct F as (_ & Q & _). revert U Q. clear. intros U Q. apply Q. apply str_in_In in U. destruct U as [<-|[<-|[<-|[<-|[]]]]]; reflexivity.
    - destruct (C36_domain _ _ _ _ _ _ F LS) as (h2 & ls2 & s2 & nz2 & K & ER2 & HH2 & HK).
      destruct (C36_cholesky_total _ _ _ _ _ _ _ _ _ _ _ _ _ inv _ _ slogdet F HH2 HK HY Hp HC HS Hn ER2) as (v & E). eauto. }
  destruct V0 as (v0 & g0 & EV0). exists ug, start, bounds, meth, jac, v0, g0. auto.
Qed.
Lemma fit_ml_returns opt ard fx : In opt ALLOWED_OPTIMIZER_METHOD_GP -> chol_contract chol -> cho_solve_contract cho_solve -> slogdet_contract slogdet ->
  answers minimize ->
  exists C B h, @get_optimized_kernel NumR exp ln PI inv chol cho_solve slogdet minimize X Y pm name opt "ml" ard fx = Ok (C, B, h).
Proof.
  intros Ho HC HS HD AN. destruct (default_vector true ard fx) as (h0 & th0 & E0 & _ & _).
  destruct (@ml_call opt ard fx h0 Ho HC HS HD E0) as (ug & start & bounds & meth & jac & v0 & g0 & LS & _ & EV & ->).
  destruct (AN (fun th => nll ard fx th ug) start meth bounds jac (v0, g0) EV) as [x M]. rewrite M. cbn [rbind].
  destruct (finish_real_gp F HI (eq_trans (KL M) LS)) as (C' & B' & h' & E3 & _). eauto.
Qed.

Lemma fit_ml opt ard fx C B h h0 : In opt ALLOWED_OPTIMIZER_METHOD_GP -> chol_contract chol -> cho_solve_contract cho_solve -> slogdet_contract slogdet ->
  @get_optimized_kernel NumR exp ln PI inv chol cho_solve slogdet minimize X Y pm name opt "ml" ard fx = Ok (C, B, h) ->
  get_hyps NumR name (Z.of_nat d) true ard = Ok h0 ->
  exists v0 v, ml_at inv chol cho_solve slogdet X Y p name ard fx h0 = Ok v0 /\ ml_at inv chol cho_solve slogdet X Y p name ard fx h = Ok v /\ (v <= v0)%R.
Proof.
  intros Ho HC HS HD E E0.
  destruct (@ml_call opt ard fx h0 Ho HC HS HD E0) as (ug & start & bounds & meth & jac & v0 & g0 & LS & E2 & EV0 & EQ).
  rewrite EQ in E. clear EQ.
  match type of E with context [minimize ?a ?b ?c ?dd ?e] => set (f := a) in *; destruct (minimize f b c dd e) as [x|e1] eqn:M; [|discriminate] end.
  cbn [rbind] in E. destruct (finish_real_gp F HI (eq_trans (KL M) LS)) as (C' & B' & h' & E3 & E4 & E5 & _ & _).
  rewrite E3 in E. apply Ok_inj in E. injection E as <- <- <-.
  destruct (DS M EV0) as (v & g & EV & LE).
  exists v0, v. split; [exact (ml_of_objective EV0 E2)|]. split; [exact (ml_of_objective EV E5)|exact LE].
Qed.

Lemma fit_loo opt ard fx C B h h0 : In opt ALLOWED_OPTIMIZER_METHOD_GP -> ard = true \/ d = 1%nat ->
  @get_optimized_kernel NumR exp ln PI inv chol cho_solve slogdet minimize X Y pm name opt "loocv" ard fx = Ok (C, B, h) ->
  get_hyps NumR name (Z.of_nat d) true ard = Ok h0 ->
  exists v0 v, loo_at inv X Y p name fx h0 = Ok v0 /\ loo_at inv X Y p name fx h = Ok v /\ (v <= v0)%R.
Proof.
  intros Ho HA E E0. destruct (fits_facts F) as (Hc & ED & _).
  destruct (@gp_calls NumR literals_ok_R exp ln PI inv chol cho_solve slogdet minimize X Y pm p name d ard fx
     (fits_validate F HY) (fits_shape F) EP ED Hc opt "loocv" Ho (or_intror (or_introl eq_refl)))
    as (start & bounds & meth & jac & (r & _ & _ & LS & _ & _ & h1 & E1 & E2) & _ & _ & EQ).
  cbv zeta in EQ. rewrite EQ in E. clear EQ. assert (h1 = h0) as -> by congruence.
  match type of E with context [minimize ?a ?b ?c ?dd ?e] => set (f := a) in *; destruct (minimize f b c dd e) as [x|e1] eqn:M; [|discriminate] end.
  cbn [rbind] in E. destruct (finish_real_gp F HI (eq_trans (KL M) LS)) as (C' & B' & h' & E3 & E4 & E5 & _ & _).
  rewrite E3 in E. apply Ok_inj in E. injection E as <- <- <-.
  destruct (C39_partial name X d Y p start fx inv F HY Hp HI) as (v0 & EV0).
  { destruct HA as [-> | Q]; [left; exact LS|]. destruct ard; [left|right; split; [exact Q|]]; exact LS. }
  assert (FS : f start = Ok (v0, None)) by (unfold f, gp_objective; change ("loocv" =? "ml") with false; cbv iota; rewrite EV0; reflexivity).
  destruct (DS M FS) as (v & g & EV & LE). unfold f, gp_objective in EV. change ("loocv" =? "ml") with false in EV. cbv iota in EV.
  exists v0, v. unfold loo_at. rewrite E2, E5. cbn [rbind]. split; [exact EV0|].
  match type of EV with (do _ <- ?m; _) = _ => destruct m as [w|]; [|discriminate] end. cbn [rbind] in EV. apply Ok_inj in EV. injection EV as <- _. auto.
Qed.

(** the dof of a vector within the ranges exceeds 2 *)
Lemma dof_in_range ard fx r x h : get_range_hyps NumR name (Z.of_nat d) false ard fx = Ok r -> within r x ->
  @restore_hyps NumR name x false ard fx (GP_NOISE NumR) = Ok h -> forall nu, dget h "dof" = Some (PFloat NumR nu) -> (2 < nu)%R.
Proof.
  intros ER W EH nu EN. unfold get_range_hyps in ER. unfold restore_hyps in EH.
  destruct (str_in name ALLOWED_COV); [|discriminate]. cbn [assert_ rbind] in ER, EH.
  destruct (str_in name list_first) eqn:LF; [|discriminate].
  assert (Q : exists l, r = ((if fx then [] else [RANGE_NOISE NumR]) ++ RANGE_DOF NumR :: l)%list).
  { destruct ard; apply Ok_inj in ER; subst r; destruct fx; cbn; eauto. }
  destruct Q as [l ->].
  assert (G : forall nu', nle NumR (fst (RANGE_DOF NumR)) nu' = true -> (2 < nu')%R).
  { intros nu' G. unfold RANGE_DOF, fst in G. cbn in G. match type of G with Rle_bool ?a ?b = true => destruct (Rle_bool_spec a b); [|discriminate] end. lra. }
  destruct fx; cbn [app] in W; unfold within in W.
  - inversion W as [|b y r' x' (_ & LO & _) W' Q1 Q2]. subst. cbn in EH. destruct x' as [|s x']; [discriminate|]. cbn in EH.
    destruct ard; [|destruct x' as [|l1 [|? ?]]; try discriminate]; apply Ok_inj in EH; subst h; cbn in EN; injection EN as <-; now apply G.
  - inversion W as [|b0 n r0 x0 _ W0 Q1 Q2]. subst. inversion W0 as [|b y r' x' (_ & LO & _) W' Q1 Q2]. subst. cbn in EH. destruct x' as [|s x']; [discriminate|]. cbn in EH.
    destruct ard; [|destruct x' as [|l1 [|? ?]]; try discriminate]; apply Ok_inj in EH; subst h; cbn in EN; injection EN as <-; now apply G.
Qed.

Lemma fit_tp opt ard fx C B h h0 : In opt ALLOWED_OPTIMIZER_METHOD_TP -> respects_bounds minimize -> slogdet_contract slogdet ->
  @tp_get_optimized_kernel NumR exp ln PI inv slogdet gamma digamma minimize X Y pm name opt ard fx = Ok (C, B, h) ->
  get_hyps NumR name (Z.of_nat d) false ard = Ok h0 ->
  exists v0 v, tml_at inv slogdet gamma digamma X Y p name ard fx h0 = Ok v0 /\ tml_at inv slogdet gamma digamma X Y p name ard fx h = Ok v /\ (v <= v0)%R.
Proof.
  intros Ho RB HD E E0. destruct (fits_facts F) as (Hc & ED & HK).
  destruct (@tp_calls NumR literals_ok_R exp ln PI inv slogdet gamma digamma minimize X Y pm p name d ard fx
     (fits_validate F HY) (fits_shape F) EP ED Hc opt Ho) as (start & bounds & (r & ERG & _ & LS & WS & -> & h1 & E1 & E2) & EQ).
  rewrite EQ in E. clear EQ. assert (h1 = h0) as -> by congruence.
  match type of E with context [minimize ?a ?b ?c ?dd ?e] => set (f := a) in *; destruct (minimize f b c dd e) as [x|e1] eqn:M; [|discriminate] end.
  cbn [rbind] in E. destruct (finish_real_tp F HI (eq_trans (KL M) LS)) as (C' & B' & h2 & h3 & nu & E3 & E4 & E5 & E6 & E7 & _ & _).
  rewrite E3 in E. apply Ok_inj in E. injection E as <- <- <-.
  assert (GT := dof_in_range ERG (RB _ _ _ _ _ _ M WS) E4 E6).
  assert (h3 = h2) as ->. { rewrite E7. destruct (Rle_bool_spec nu 2); [lra|reflexivity]. }
  destruct (restored (GP_NOISE NumR) Hc LS) as (hs & ls & s & nz & ES & HHs & _ & _ & DF & _).
  destruct (DF eq_refl) as [nus Enus]. destruct (HK ls s) as [K EK].
  destruct (tp_value F HHs EK HY Hp gamma digamma HI HD ES Enus) as (Cs & Bs & _ & _ & _ & _ & _ & EV0).
  destruct (DS M EV0) as (v & g & EV & LE). eexists. exists v. unfold tml_at. rewrite E2, E5. cbn [rbind].
  rewrite EV0. unfold f in EV. rewrite EV. cbn [rbind fst]. split; [reflexivity|]. split; [reflexivity|exact LE].
Qed.
End Fit.
