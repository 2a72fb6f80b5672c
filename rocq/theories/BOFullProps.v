(** Property theorems about the BO classes with their own surrogates (C81). *)
From Verif Require Import Base Lists Num NumLaws UtilsModel UtilsSpec UtilsProofs HypsModel CovModel GPModel LikModel HypOptModel AcqModel TreesModel
  Monad WrapperModel BOModel BOSpec BOProofs BOProofs2 BOProps BOAcqModel BOAcqSpec BOAcqProofs BOFullModel BOFullProofs View.
From Coq Require Import List ZArith Bool String Lia Arith.
Import ListNotations.
Set Implicit Arguments.
Unset Strict Implicit.
Unset Asymmetric Patterns.
Set Bullet Behavior "Strict Subproofs".
Local Open Scope string_scope.

(** ** C81 *)
(** compute_acquisitions of the GP and TP classes is computed point by point, that of the tree class wherever the trees give a value *)
Theorem C81_gp_acquisitions_by_point :
  forall (N : Num) nexp cdf pdf nlog num_dim (prior_mu : prior N) str_acq str_cov X Y C B h, row_by_row prior_mu ->
  by_point N num_dim (gp_acquisitions nexp cdf pdf nlog num_dim prior_mu str_acq str_cov X Y C B h).
Proof. intros; now apply gp_acquisitions_points. Qed.
Print Assumptions C81_gp_acquisitions_by_point.
Theorem C81_tp_acquisitions_by_point :
  forall (N : Num) nexp cdf pdf nlog num_dim (prior_mu : prior N) str_acq str_cov X Y C B h, row_by_row prior_mu ->
  by_point N num_dim (tp_acquisitions nexp cdf pdf nlog num_dim prior_mu str_acq str_cov X Y C B h).
Proof. intros; now apply tp_acquisitions_points. Qed.
Print Assumptions C81_tp_acquisitions_by_point.
Theorem C81_rf_acquisitions_each_point :
  forall (N : Num) cdf pdf nlog num_dim str_acq schedule X Y (trees : list (tree N)), completes schedule ->
  each_point N num_dim (rf_acquisitions cdf pdf nlog num_dim str_acq schedule X Y trees).
Proof. intros; now apply rf_acquisitions_points. Qed.
Print Assumptions C81_rf_acquisitions_each_point.

Section Oracles.
Context (N : Num) (O : NumOrd N) (nexp nlog cdf pdf : N -> N) (npi : N).
Notation mx := (list (list N)).
Context (inv chol : mx -> res mx) (cho_solve : mx -> mx -> res mx) (slogdet : mx -> N * N) (ngamma ndigamma : N -> N).
Context (W : Type).
Context (get_samples : string -> Z -> option Z -> W -> W * res (list (list N))).
Context (lbfgsb : (list N -> res N) -> list N -> list (N * N) -> W -> W * res (list N)).
Context (direct : (list N -> res N) -> list (N * N) -> W -> W * res (list N)).
Context (cma : (list N -> res N) -> list N -> list (N * N) -> W -> W * res (list N)).
Context (time_ : W -> W * N).
Context (minimize : W -> minimizer N) (after : mat N -> list N -> string -> W -> W).
Context (prior_mu : prior N).
Context (choice : nat -> nat -> bool -> W -> W * res (list nat)) (uniform : N -> N -> W -> W * res N) (trunc : N -> option Z)
  (schedule : nat -> list nat).
Notation gp_run := (gp_optimize_full nexp nlog cdf pdf npi inv chol cho_solve slogdet get_samples lbfgsb direct cma time_ minimize after prior_mu).
Notation tp_run := (tp_optimize_full nexp nlog cdf pdf npi inv slogdet ngamma ndigamma get_samples lbfgsb direct cma time_ minimize after prior_mu).
Notation rf_run := (rf_optimize_full nlog cdf pdf get_samples time_ choice uniform trunc schedule).

(** the reported acquisition values are -10 times the named acquisition function, applied to the predictions of the surrogate
    at the reported candidates, for the reported hyperparameters and the (normalised) responses *)
Theorem C81_gp_reported_acquisitions o X Y samp num mlm seed s w s' w' t np gi :
  gp_run o X Y samp num mlm seed (s, w) = ((s', w'), t, Ok (np, gi)) ->
  exists mu sd S noise f a,
    predict_with_hyps nexp inv (A2 N X) (column_of N (gi_Ynorm N mx gi)) (A2 N (gi_points N mx gi)) (gi_hyps N mx gi) (go_cov N o) prior_mu
      = Ok (map (fun v => [v]) mu, map (fun v => [v]) sd, S) /\
    noise_of (gi_hyps N mx gi) = Ok noise /\ choose_fun_acquisition N cdf pdf nlog (go_acq N o) noise = Ok f /\
    f mu sd (gi_Ynorm N mx gi) = Ok a /\ gi_acqs N mx gi = negacq N a.
Proof.
  intros H. unfold gp_optimize_full in H.
  assert (K : exists g, get_kernel_inverse nexp inv (A2 N X) (gi_hyps N mx gi) (go_cov N o) true false = Ok (gi_cov N mx gi, gi_inv N mx gi, g)).
  { eapply (@optimize_kernel N W mx) with (P := fun C B h => exists g, get_kernel_inverse nexp inv (A2 N X) h (go_cov N o) true false = Ok (C, B, g)); [| |exact O|exact H].
    - intros Y0 meth w0 w1 C B h F. unfold gp_fit_full in F. injection F as _ F. eapply gp_fitted_kernel. exact F.
    - intros h C B F. unfold gp_kernel_full in F. destruct (get_kernel_inverse nexp inv (A2 N X) h (go_cov N o) true false) as [[[c i] g]|e]; [|discriminate].
      cbn in F. injection F as <- <-. eauto. }
  apply (gp_optimize_ok _ _ _ _ _ _ _ _ _ _ _ _ O) in H. destruct H as (_ & _ & _ & _ & _ & _ & HC & H). cbv zeta in H. destruct H as (H & _).
  unfold gp_acq_full, gp_acquisitions in H.
  destruct (acquisitions _ _ _ _ _ _ _ _ _ _ _ _) as [a|e] eqn:E; [|discriminate]. cbn [rmap rbind] in H. apply Ok_inj in H.
  apply acquisitions_inv in E; [|exact HC]. destruct E as (noise & f & mu & sd & E1 & E2 & E3 & E4).
  unfold gp_posteriors in E3. destruct (shapes_ok _ _ _ _ _ _ _); [|discriminate]. cbn [assert_ rbind] in E3.
  destruct (predict_with_cov _ _ _ _ _ _ _ _ _) as [[[m d] S]|e] eqn:EP; [|discriminate]. cbn [rbind] in E3.
  destruct (squeeze1 N m) as [m'|] eqn:Em; [|discriminate]. cbn [rbind] in E3. destruct (squeeze1 N d) as [d'|] eqn:Ed; [|discriminate]. cbn [rbind] in E3.
  injection E3 as -> ->. apply squeeze1_inv in Em, Ed. subst m d. destruct K as (g & K).
  exists mu, sd, S, noise, f, a. split; [eapply predict_at_hyps; eassumption|]. auto.
Qed.
Theorem C81_tp_reported_acquisitions o X Y samp num seed s w s' w' t np gi :
  tp_run o X Y samp num seed (s, w) = ((s', w'), t, Ok (np, gi)) ->
  exists nu mu sd S noise f a,
    tp_predict_with_hyps nexp inv (A2 N X) (column_of N (gi_Ynorm N mx gi)) (A2 N (gi_points N mx gi)) (gi_hyps N mx gi) (to_cov N o) prior_mu
      = Ok (nu, map (fun v => [v]) mu, map (fun v => [v]) sd, S) /\
    noise_of (gi_hyps N mx gi) = Ok noise /\ choose_fun_acquisition N cdf pdf nlog (to_acq N o) noise = Ok f /\
    f mu sd (gi_Ynorm N mx gi) = Ok a /\ gi_acqs N mx gi = negacq N a.
Proof.
  intros H. unfold tp_optimize_full in H.
  assert (K : exists g, get_kernel_inverse nexp inv (A2 N X) (gi_hyps N mx gi) (to_cov N o) true false = Ok (gi_cov N mx gi, gi_inv N mx gi, g)).
  { pose proof H as R. apply tp_optimize_run in R. destruct R as [(e & R & _)|R]; [discriminate|].
    destruct R as (Yn & t0 & ts0 & w1 & HY & w2 & rf & F & -> & R). destruct R as [(e & _ & R & _)|(f & -> & R)]; [discriminate|].
    apply (tp_rest_ok _ _ _ _ _ _ _ _ _ O) in R. destruct R as (-> & _). unfold tp_fit_full in F. injection F as _ F. eapply tp_fitted_kernel. exact F. }
  apply (tp_optimize_ok _ _ _ _ _ _ _ _ _ _ O) in H. destruct H as (_ & _ & _ & _ & _ & _ & HC & H). cbv zeta in H. destruct H as (H & _).
  unfold tp_acq_full, tp_acquisitions in H.
  destruct (acquisitions _ _ _ _ _ _ _ _ _ _ _ _) as [a|e] eqn:E; [|discriminate]. cbn [rmap rbind] in H. apply Ok_inj in H.
  apply acquisitions_inv in E; [|exact HC]. destruct E as (noise & f & mu & sd & E1 & E2 & E3 & E4).
  unfold tp_posteriors in E3. destruct (shapes_ok _ _ _ _ _ _ _); [|discriminate]. cbn [assert_ rbind] in E3.
  destruct (tp_predict_with_cov _ _ _ _ _ _ _ _ _) as [[[[nu m] d] S]|e] eqn:EP; [|discriminate]. cbn [rbind] in E3.
  destruct (squeeze1 N m) as [m'|] eqn:Em; [|discriminate]. cbn [rbind] in E3. destruct (squeeze1 N d) as [d'|] eqn:Ed; [|discriminate]. cbn [rbind] in E3.
  injection E3 as -> ->. apply squeeze1_inv in Em, Ed. subst m d. destruct K as (g & K).
  exists nu, mu, sd, S, noise, f, a. split; [eapply tp_predict_at_hyps; eassumption|]. auto.
Qed.
Theorem C81_rf_reported_acquisitions o X Y samp num seed sw sw' t np gi :
  rf_run o X Y samp num seed sw = (sw', t, Ok (np, gi)) ->
  exists p f a,
    predict_by_trees N (mrows (ri_points N (list (tree N)) gi)) (ri_trees N (list (tree N)) gi)
      (schedule ((nrows (ri_points N (list (tree N)) gi) + 99) / 100)%nat) = Ok p /\
    choose_fun_acquisition N cdf pdf nlog (ro_acq N o) (Some (GP_NOISE N)) = Ok f /\
    f (map fst p) (map snd p) (ri_Ynorm N (list (tree N)) gi) = Ok a /\ ri_acqs N (list (tree N)) gi = negacq N a.
Proof.
  intros H. unfold rf_optimize_full in H. apply rf_optimize_ok in H. destruct H as (_ & _ & _ & _ & _ & HC & H & _).
  unfold rf_acquisitions in H. set (P := ri_points N (list (tree N)) gi) in *.
  destruct (batch N (mrows P)) as [Xs|e] eqn:E; [|discriminate]. cbn [rbind] in H. apply batch_inv in E as (E1 & E2 & E3).
  destruct (Nat.eqb (nrows X) _); [|discriminate]. cbn [assert_ rbind] in H.
  destruct (Nat.eqb (mcols Xs) (mcols X) && Nat.eqb (mcols X) _) eqn:Q; [|discriminate]. cbn [assert_ rbind] in H.
  apply andb_prop in Q as [Q1 Q2]. apply Nat.eqb_eq in Q1, Q2. assert (Xs = P) as -> by (destruct Xs, P; cbn in *; congruence).
  destruct (choose_fun_acquisition _ _ _ _ _ _) as [f|e] eqn:Ef; [|discriminate]. cbn [rbind] in H.
  unfold rf_posteriors in H. destruct (Nat.eqb (mcols P) _); [|discriminate]. cbn [assert_ rbind] in H.
  destruct (predict_by_trees _ _ _ _) as [p|e] eqn:Ep; [|discriminate]. cbn [rbind] in H.
  destruct (f _ _ _) as [a|e] eqn:Ea; [|discriminate]. cbn in H. apply Ok_inj in H. exists p, f, a. auto 6.
Qed.

(** the proposed point is the first of the reported candidates whose reported value is smallest, i.e. whose acquisition is largest *)
Theorem C81_gp_proposes_best_candidate o X Y samp num mlm seed s w s' w' t np gi : row_by_row prior_mu ->
  gp_run o X Y samp num mlm seed (s, w) = ((s', w'), t, Ok (np, gi)) ->
  exists k, nth_error (mrows (gi_points N mx gi)) k = Some np /\ first_best N (gi_acqs N mx gi) k.
Proof.
  intros RW H. unfold gp_optimize_full in H. apply (gp_optimize_ok _ _ _ _ _ _ _ _ _ _ _ _ O) in H.
  destruct H as (_ & _ & _ & _ & _ & _ & _ & H). cbv zeta in H. destruct H as (H1 & vs & k & F & A & B).
  exists k. split; [exact A|]. enough (EV : vs = gi_acqs N mx gi) by (rewrite <- EV; exact B).
  eapply pointwise_negacq; [|exact H1|exact F].
  intros pts l E. unfold gp_acq_full in *. pose proof (gp_acquisitions_points nexp cdf pdf nlog (List.length (go_range N o)) (go_acq N o) (go_cov N o) X
    (gi_Ynorm N mx gi) (gi_cov N mx gi) (gi_inv N mx gi) (gi_hyps N mx gi) RW) as BP. apply by_point_each in BP. now apply BP in E as (_ & _ & E).
Qed.
Theorem C81_tp_proposes_best_candidate o X Y samp num seed s w s' w' t np gi : row_by_row prior_mu ->
  tp_run o X Y samp num seed (s, w) = ((s', w'), t, Ok (np, gi)) ->
  exists k, nth_error (mrows (gi_points N mx gi)) k = Some np /\ first_best N (gi_acqs N mx gi) k.
Proof.
  intros RW H. unfold tp_optimize_full in H. apply (tp_optimize_ok _ _ _ _ _ _ _ _ _ _ O) in H.
  destruct H as (_ & _ & _ & _ & _ & _ & _ & H). cbv zeta in H. destruct H as (H1 & vs & k & F & A & B).
  exists k. split; [exact A|]. enough (EV : vs = gi_acqs N mx gi) by (rewrite <- EV; exact B).
  eapply pointwise_negacq; [|exact H1|exact F].
  intros pts l E. unfold tp_acq_full in *. pose proof (tp_acquisitions_points nexp cdf pdf nlog (List.length (to_range N o)) (to_acq N o) (to_cov N o) X
    (gi_Ynorm N mx gi) (gi_cov N mx gi) (gi_inv N mx gi) (gi_hyps N mx gi) RW) as BP. apply by_point_each in BP. now apply BP in E as (_ & _ & E).
Qed.
End Oracles.
Print Assumptions C81_gp_reported_acquisitions.
Print Assumptions C81_tp_reported_acquisitions.
Print Assumptions C81_rf_reported_acquisitions.
Print Assumptions C81_gp_proposes_best_candidate.
Print Assumptions C81_tp_proposes_best_candidate.

(** concrete cases (floating point): one observation, candidates 1/4, 1/2, 3/4; all optimisers return their start, exp is replaced by
    1 / (1 - x), which is enough to make the kernel decrease with the distance *)
Section Cases.
Notation F := (car NumF).
Definition ex_inv (m : list (list F)) : res (list (list F)) :=
  match m with [[a]] => Ok [[ndiv NumF (nofZ NumF 1) a]] | _ => Raise LinAlgError end.
Definition ex_exp (x : F) : F := ndiv NumF (nofZ NumF 1) (nsub NumF (nofZ NumF 1) x).
Definition ex_points : list (list F) := [[nlit NumF 1 4]; [nlit NumF 1 2]; [nlit NumF 3 4]].
Definition ex_gp (acq : string) := gp_optimize_full (N := NumF) ex_exp (fun x => x) (fun x => x) (fun x => x) (nofZ NumF 3) ex_inv (fun m => Ok m) (fun _ b => Ok b)
  (fun _ => (nofZ NumF 1, nofZ NumF 0)) (W := unit) (fun _ _ _ w => (w, Ok ex_points)) (fun _ x0 _ w => (w, Ok x0)) (fun _ _ w => (w, Raise ValueError))
  (fun _ x0 _ w => (w, Ok x0)) (fun w => (w, nofZ NumF 0)) (fun _ _ start _ _ _ => Ok start) (fun _ _ _ w => w) None
  (mkgpo NumF [(nofZ NumF 0, nofZ NumF 1)] "se" acq false true "BFGS" "L-BFGS-B" "ml").
Definition ex_X : mat F := mkmat [[nofZ NumF 0]] 1.
Definition ex_Y : list F := [nofZ NumF 1].
Definition ex_view (acq : string) :=
  match ex_gp acq ex_X ex_Y "sobol" 3 "regular" None (mkgps NumF [] true, tt) with
  | (_, _, r) => rmap (fun p => (map fview (fst p), List.length (gi_acqs NumF _ (snd p)))) r
  end.
(** exploiting stays as far from the bad observation as possible, and so does exploring *)
Example gp_case : ex_view "pure_exploit" = Ok ([fview (nlit NumF 3 4)], 3%nat) /\ ex_view "pure_explore" = Ok ([fview (nlit NumF 3 4)], 3%nat).
Proof. vm_compute. auto. Qed.
End Cases.
