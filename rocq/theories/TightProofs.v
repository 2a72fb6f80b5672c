(** Proofs for C117, C118 and for sharper versions of C19, C56, C66, C71. *)
From Verif Require Import Base Lists Num NumLaws Monad UtilsModel UtilsSpec HypsModel HypsSpec HypsProofs CovModel GPModel HypOptModel WrapperModel BOModel
  BOProps ThompsonModel ThompsonSpec ThompsonProofs ThompsonProofs2 SamplingModel SamplingSpec SamplingProofs PlotModel TightSpec.
From Coq Require Import List ZArith Bool String Reals Lra Lia Arith.
From Flocq Require Import Core.Raux IEEE754.BinarySingleNaN.
Import ListNotations.
Set Implicit Arguments.
Local Open Scope string_scope.

(** ** the ladder *)
Section Ladder.
Context (N : Num) (W G : Type) (mvn : list N -> list (list N) -> W -> W * res G) (rvs : G -> W -> W * res (list N)) (lae : bool).
Definition try_jitter (mu : list N) (Sg : list (list N)) (j : N) : W -> W * list (tsev N) * res (nd N) :=
  sample_functions N mvn rvs mu (madd N Sg (mmap N (nmul N j) (eye N (List.length Sg) (List.length Sg)))) 1.
Lemma ladder_runs mu Sg js : forall w w1 t r, sample_ladder N mvn rvs lae mu Sg js w = (w1, t, r) ->
  (exists pre j post wf, js = (pre ++ j :: post)%list /\ all_failed (try_jitter mu Sg) (fun e => caught lae e = true) pre w wf /\
     try_jitter mu Sg j wf = (w1, t, r) /\ forall e, r = Raise e -> caught lae e = false) \/
  (all_failed (try_jitter mu Sg) (fun e => caught lae e = true) js w w1 /\ t = [] /\ r = Raise ValueError).
Proof.
  induction js as [|j js IH]; intros w w1 t r H; cbn [sample_ladder] in H.
  - right. inversion H; subst. split; [constructor|auto].
  - fold (try_jitter mu Sg j) in H. destruct (try_jitter mu Sg j w) as [[w2 t2] [x|e]] eqn:E.
    + inversion H; subst. left. exists [], j, js, w. split; [reflexivity|]. split; [constructor|]. split; [exact E|]. intros e Q. discriminate Q.
    + destruct (caught lae e) eqn:C.
      * pose proof (sample_one_raise _ _ _ _ _ E) as ->. destruct (sample_ladder _ _ _ _ _ _ js w2) as [[w3 t3] y] eqn:E2. inversion H; subst.
        destruct (IH _ _ _ _ E2) as [(pre & j' & post & wf & -> & F & T & Q)|(F & -> & ->)].
        -- left. exists (j :: pre), j', post, wf. split; [reflexivity|]. split; [eapply failed_more; eassumption|]. auto.
        -- right. split; [eapply failed_more; eassumption|auto].
      * inversion H; subst. left. exists [], j, js, w. split; [reflexivity|]. split; [constructor|]. split; [exact E|]. intros e' Q. congruence.
Qed.
End Ladder.

Lemma ladder_values : list_jitters NumR = [0; 1 / 10000; 1 / 100; 1; 10; 100; 1000; 10000]%R.
Proof. unfold list_jitters. cbn. repeat f_equal; try reflexivity; unfold Rdiv; lra. Qed.

Lemma combine_map_r {A B C} (f : B -> C) (l : list A) (m : list B) : combine l (map f m) = map (fun p => (fst p, f (snd p))) (combine l m).
Proof. revert m. induction l as [|a l IH]; intros [|b m]; try reflexivity. cbn. now rewrite IH. Qed.
Lemma combine_swap_seq {A} (l : list A) k : combine l (seq k (List.length l)) = map (fun p => (snd p, fst p)) (combine (seq k (List.length l)) l).
Proof. revert k. induction l as [|a l IH]; intros k; [reflexivity|]. cbn. now rewrite IH. Qed.
Lemma jitter_is_diagonal (S : list (list R)) (j : R) : Forall (fun r => List.length r = List.length S) S ->
  madd NumR S (mmap NumR (nmul NumR j) (eye NumR (List.length S) (List.length S))) = plus_diagonal S j.
Proof.
  intros F. unfold madd, mmap, eye, mgen, plus_diagonal, map2. rewrite map_map.
  rewrite combine_map_r, map_map, combine_swap_seq, map_map. apply map_ext_in. intros (i & r) I. cbn [fst snd].
  apply in_combine_r in I. rewrite Forall_forall in F. specialize (F r I). rewrite <- F.
  rewrite map_map. rewrite combine_map_r, map_map, combine_swap_seq, map_map. apply map_ext. intros (i' & x). cbn [fst snd].
  cbn. destruct (Nat.eqb i i'); f_equal; ring.
Qed.

(** ** at the level of one iteration *)
Section Iteration.
Context (N : Num) (W G : Type) (mvn : list N -> list (list N) -> W -> W * res G) (rvs : G -> W -> W * res (list N)) (lae : bool).
Context (nexp nlog : N -> N) (npi : N) (inv chol : list (list N) -> res (list (list N))) (cho_solve : list (list N) -> list (list N) -> res (list (list N)))
  (slogdet : list (list N) -> N * N) (minimize : minimizer N) (da ca : bool)
  (get_samples : list (N * N) -> string -> Z -> option Z -> W -> W * res (list (list N))).
Theorem iteration_samples range X Y (norm : bool) method num w w1 t p :
  ts_iteration mvn rvs lae nexp nlog npi inv chol cho_solve slogdet minimize da ca get_samples range X Y norm method num w = (w1, t, Ok p) ->
  exists Yn pts Xt mu sd Sg w0 pre j post wf a td,
    (if norm then normalize_min_max N Y = Ok Yn else Yn = Y) /\ get_samples range method num None w = (w0, Ok pts) /\ np_array_rows pts = Ok Xt /\
    predict_with_optimized_hyps nexp nlog npi inv chol cho_solve slogdet minimize (A2 N X) (to_column N Yn) (A2 N Xt) "matern52" "BFGS" None true = Ok (mu, sd, Sg) /\
    list_jitters N = (pre ++ j :: post)%list /\
    all_failed (try_jitter N mvn rvs (map (hd (nofZ N 0)) mu) Sg) (fun e => caught lae e = true) pre w0 wf /\
    try_jitter N mvn rvs (map (hd (nofZ N 0)) mu) Sg j wf = (w1, td, Ok a) /\ t = TsCands pts :: td.
Proof.
  intros H. unfold ts_iteration in H. minv. subst.
  match goal with K : points _ _ _ = _ |- _ => apply points_ok in K as (K1 & ->) end.
  match goal with K : match ?p with [] => _ | _ => _ end = Ok ?x |- _ => rename p into pts, x into Xt, K into EX end.
  destruct pts as [|p0 pts]; [discriminate EX|].
  match goal with K : predict_with_optimized_hyps _ _ _ _ _ _ _ _ _ _ _ _ _ _ _ = Ok ?q |- _ => destruct q as [[mu sd] Sg]; rename K into EP end.
  minv. subst.
  match goal with K : sample_ladder _ _ _ _ _ _ _ _ = _ |- _ => apply ladder_runs in K as [(pre & j & post & wf & EJ & F & T & _)|(_ & _ & Q)]; [|discriminate Q] end.
  match type of EP with predict_with_optimized_hyps _ _ _ _ _ _ _ _ _ (to_column _ ?y) _ _ _ _ _ = _ => exists y end.
  eexists (p0 :: pts), Xt, mu, sd, Sg, _, pre, j, post, wf, _, _.
  split. { destruct norm; [assumption|congruence]. }
  split; [exact K1|]. split; [exact EX|]. split; [exact EP|]. split; [exact EJ|]. split; [exact F|]. split; [exact T|].
  cbn [app]. now rewrite ?app_nil_r.
Qed.
End Iteration.

(** ** plotting: shapes are checked before anything is drawn *)
Section Plots.
Context (N : Num).
Lemma assert_false (b : bool) (P : Prop) {A} (k : unit -> M unit (draw N) A) : (b = true <-> P) ->
  (P -> k tt tt = (tt, [], Raise AssertionError)) -> bind (lift (assert_ b)) k tt = (tt, [], Raise AssertionError).
Proof.
  intros E H. unfold bind, lift. destruct b; cbn; [|reflexivity]. rewrite (H (proj1 E eq_refl)). reflexivity.
Qed.
Ltac beq := repeat first [rewrite andb_true_iff|rewrite orb_true_iff|rewrite Nat.eqb_eq|rewrite Z.leb_le|rewrite Z.eqb_eq]; reflexivity.
Ltac step := match goal with |- bind (lift (assert_ _)) _ tt = _ => eapply assert_false; [try beq|cbv beta; intro] end.

Lemma step_rejects lib (X_train Y_train X_test Y_test mean_test std_test : mat N) acq_test path_save str_postfix num_init range_shade :
  ~ step_shapes X_train Y_train X_test Y_test mean_test std_test acq_test num_init ->
  plot_bo_step_gen N lib X_train Y_train X_test Y_test mean_test std_test acq_test path_save str_postfix num_init range_shade tt = (tt, [], Raise AssertionError).
Proof.
  intros H. unfold plot_bo_step_gen. step. step. step. step. step.
  eapply assert_false with (P := match acq_test with Some a => mcols a = 1%nat | None => True end); [destruct acq_test; [beq|tauto]|cbv beta; intro].
  eapply assert_false with (P := nrows X_test = nrows Y_test /\ nrows Y_test = nrows mean_test /\ nrows mean_test = nrows std_test /\ match acq_test with Some a => nrows std_test = nrows a | None => True end);
    [destruct acq_test; [rewrite !andb_true_iff, !Nat.eqb_eq; tauto|rewrite !andb_true_iff, !Nat.eqb_eq; intuition]|cbv beta; intro].
  eapply assert_false with (P := match num_init with Some k => (k <= Z.of_nat (nrows X_train))%Z | None => True end); [destruct num_init; [beq|tauto]|cbv beta; intro].
  exfalso. apply H. unfold step_shapes, column, opt_column. destruct acq_test; unfold column; repeat split; try assumption; try tauto; intuition congruence.
Qed.
Lemma gp_rejects lib ncolors (X_train Y_train X_test mean_test std_test : mat N) Y_test path_save str_postfix range_shade :
  ~ gp_shapes X_train Y_train X_test mean_test std_test Y_test ->
  plot_gp_via_distribution N lib ncolors X_train Y_train X_test mean_test std_test Y_test path_save str_postfix range_shade tt = (tt, [], Raise AssertionError).
Proof.
  intros H. unfold plot_gp_via_distribution. step. step. step. step. step. step.
  eapply assert_false with (P := match Y_test with Some a => mcols a = 1%nat /\ nrows X_test = nrows a | None => True end); [destruct Y_test; [rewrite !andb_true_iff, !Nat.eqb_eq; tauto|tauto]|cbv beta; intro].
  exfalso. apply H. unfold gp_shapes, column, opt_column. destruct Y_test; unfold column; repeat split; try assumption; try tauto; intuition congruence.
Qed.
Lemma sample_rejects lib ncolors (X Ys : mat N) path_save str_postfix : ~ (mcols X = 1%nat /\ nrows X = mcols Ys) ->
  plot_gp_via_sample N lib ncolors X Ys path_save str_postfix tt = (tt, [], Raise AssertionError).
Proof. intros H. unfold plot_gp_via_sample. step. step. exfalso. tauto. Qed.
Lemma vs_iter_rejects lib ncolors nmarkers (minima : cube N) labels num_init ds im il p s range_shade :
  ~ (List.length labels = List.length (cexps minima) /\ (num_init <= Z.of_nat (ccols minima))%Z) ->
  plot_minimum_vs_iter N lib ncolors nmarkers minima labels num_init ds im il p s range_shade tt = (tt, [], Raise AssertionError).
Proof. intros H. unfold plot_minimum_vs_iter. step. step. exfalso. apply H. auto. Qed.
Lemma vs_time_rejects lib ncolors nmarkers (times minima : cube N) labels num_init ds im il p s range_shade :
  ~ (List.length labels = List.length (cexps minima) /\ List.length (cexps times) = List.length (cexps minima) /\ crounds times = crounds minima /\
     (num_init <= Z.of_nat (ccols minima))%Z /\ (ccols times = ccols minima \/ (Z.of_nat (ccols times) + num_init)%Z = Z.of_nat (ccols minima))) ->
  plot_minimum_vs_time N lib ncolors nmarkers times minima labels num_init ds im il p s range_shade tt = (tt, [], Raise AssertionError).
Proof. intros H. unfold plot_minimum_vs_time. step. step. step. step. exfalso. apply H. intuition. Qed.
End Plots.

(** ** default hyperparameters and their bounds *)
Lemma range_values cov dim use_gp use_ard fix_noise : In cov cov_names ->
  get_range_hyps NumR cov dim use_gp use_ard fix_noise =
  Ok ((if fix_noise then [] else [(1 / 1000, 10)]) ++ (if use_gp then [] else [(200001 / 100000, 200)]) ++ [(1 / 100, 1000)] ++
      repeat (1 / 100, 1000) (if use_ard then Z.to_nat dim else 1))%list%R.
Proof.
  intros Hc. rewrite (@HypsProofs.range_ok NumR) by exact Hc. unfold range_layout, RANGE_NOISE, RANGE_DOF, RANGE_SIGNAL, RANGE_LENGTHSCALES.
  destruct use_ard; reflexivity.
Qed.
Lemma default_values cov dim use_gp use_ard : In cov cov_names -> (0 <= dim)%Z ->
  exists d, get_hyps NumR cov dim use_gp use_ard = Ok d /\
    binds d (mkhyps (N := NumR) (1 / 100)%R (if use_gp then None else Some 5%R) 1%R (if use_ard then inl (repeat 1%R (Z.to_nat dim)) else inr 1%R)).
Proof. intros Hc Hd. exact (@get_hyps_ok NumR cov dim use_gp use_ard Hc Hd). Qed.

(** ** uniform sampling: exactly the widths that do not overflow *)
Lemma nfinite_F (x : NumF) : nfinite NumF x = is_finite (x : f64).
Proof. destruct x as [s|s| |s m e B]; try destruct s; reflexivity. Qed.
Section Uniform.
Context (W G : Type) (mkstate : option Z -> W -> W * res G) (unit_draw gauss_draw : G -> G * NumF)
  (qmc : qmc_kind -> nat -> option Z -> Z -> W -> W * res (list (list NumF))).
Lemma row_uniform (range_X : list (NumF * NumF)) : forall g,
  (Forall (fun r => is_finite (fsub (snd r) (fst r)) = true) range_X -> exists g' t row, draw_row NumF (rs_uniform NumF unit_draw) range_X g = (g', t, Ok row)) /\
  (~ Forall (fun r => is_finite (fsub (snd r) (fst r)) = true) range_X -> exists g' t, draw_row NumF (rs_uniform NumF unit_draw) range_X g = (g', t, Raise (ModelError 0))).
Proof.
  induction range_X as [|r l IH]; intros g.
  - split; [intros _; eexists _, _, _; reflexivity|intros H; exfalso; apply H; constructor].
  - rewrite draw_row_cons. unfold rs_uniform at 1 3. rewrite !nfinite_F. change (nsub NumF (snd r) (fst r)) with (fsub (snd r) (fst r)).
    destruct (is_finite (fsub (snd r) (fst r))) eqn:E.
    + destruct (unit_draw g) as [g1 u]. destruct (IH g1) as [IH1 IH2]. split; intros H.
      * inversion H; subst. destruct (IH1 H3) as (g' & t & row & ->). eexists _, _, _. reflexivity.
      * destruct IH2 as (g' & t & ->); [intros Q; apply H; constructor; assumption|]. eexists _, _. reflexivity.
    + split; intros H; [apply Forall_inv in H; exfalso; exact (Bool.diff_false_true (eq_trans (eq_sym E) H))|]. eexists _, _. reflexivity.
Qed.
Lemma rows_uniform (range_X : list (NumF * NumF)) (l : list nat) : forall g,
  Forall (fun r => is_finite (fsub (snd r) (fst r)) = true) range_X ->
  exists g' t rows, mmapM (fun _ => draw_row NumF (rs_uniform NumF unit_draw) range_X) l g = (g', t, Ok rows).
Proof.
  induction l as [|i l IH]; intros g F; [eexists _, _, _; reflexivity|]. cbn [mmapM]. unfold bind.
  destruct (row_uniform range_X g) as [H _]. destruct (H F) as (g1 & t1 & row & ->). destruct (IH g1 F) as (g2 & t2 & rows & ->).
  eexists _, _, _. reflexivity.
Qed.
Lemma uniform_exactly range_X num seed w w1 g : (1 <= num)%Z -> mkstate seed w = (w1, Ok g) ->
  (Forall (fun r => is_finite (fsub (snd r) (fst r)) = true) range_X ->
     exists rows, get_samples NumF mkstate unit_draw gauss_draw qmc range_X "uniform" num seed w = (w1, Ok rows)) /\
  (~ Forall (fun r => is_finite (fsub (snd r) (fst r)) = true) range_X ->
     get_samples NumF mkstate unit_draw gauss_draw qmc range_X "uniform" num seed w = (w1, Raise (ModelError 0))).
Proof.
  intros P E. change (get_samples NumF mkstate unit_draw gauss_draw qmc range_X "uniform" num seed w) with (get_samples_uniform NumF mkstate unit_draw range_X num seed w).
  unfold get_samples_uniform, with_state. rewrite E. unfold draw_rows. split; intros F.
  - destruct (rows_uniform (seq 0 (Z.to_nat num)) g F) as (g' & t & rows & ->). eexists. reflexivity.
  - replace (Z.to_nat num) with (S (Z.to_nat (num - 1))) by lia. cbn [seq mmapM]. unfold bind.
    destruct (row_uniform range_X g) as [_ H]. destruct (H F) as (g1 & t1 & ->). reflexivity.
Qed.
End Uniform.

(** ** the scale of the Student-t draws *)
Section Student.
Context (N : Num) (W G : Type) (mvn : list N -> list (list N) -> W -> W * res G) (rvs : G -> W -> W * res (list N)) (chisquare : N -> Z -> W -> W * res (list N)).
(** the degrees of freedom are the infinity of the number type *)
Definition infinite (nu : N) : Prop := exists i, ninf N = Some i /\ neqb N nu i = true.
Theorem tp_scaled nu mu Sg num w w1 t s : chi_contract chisquare -> draw_contract mvn rvs -> (1 <= num)%Z -> (2 <= List.length mu)%nat ->
  tp_sample_functions N mvn rvs chisquare nu mu Sg num w = (w1, t, Ok s) ->
  exists x r rv w2 w3, drawn t = r /\ List.length r = Z.to_nat num /\
    (infinite nu -> x = repeat (nofZ N 1) (Z.to_nat num) /\ w2 = w) /\
    (~ infinite nu -> exists c, chisquare nu num w = (w2, Ok c) /\ x = map (fun v => ndiv N v nu) c) /\
    mvn (repeat (nofZ N 0) (List.length mu)) Sg w2 = (w3, Ok rv) /\ Forall (fun v => exists w4 w5, rvs rv w4 = (w5, Ok v)) r /\
    nrows s = Z.to_nat num /\
    forall i j xi ri row m v, nth_error x i = Some xi -> nth_error r i = Some ri -> nth_error (mrows s) i = Some row ->
      nth_error mu j = Some m -> nth_error ri j = Some v -> nth_error row j = Some (nadd N m (ndiv N v (nsqrt N xi))).
Proof.
  intros C D P Hn H. unfold tp_sample_functions in H.
  apply bind_ok in H as (w2 & t1 & u & t2 & H1 & H & ->). apply lift_ok in H1 as (_ & -> & ->).
  apply bind_ok in H as (w3 & t3 & x & t4 & H1 & H & ->).
  pose proof (@scales_ok N W chisquare nu num _ _ _ _ H1 C ltac:(lia)) as (-> & Lx).
  minv. subst.
  match goal with K : draws _ _ _ _ _ = _ |- _ => apply draws_ok in K as (-> & L & F) end.
  match goal with K : assert_ _ = Ok _ |- _ => apply assert_ok_inv in K; apply andb_true_iff in K as (E1 & E2) end.
  apply Z.eqb_eq in E1. apply Nat.eqb_eq in E2.
  match goal with K : mvn _ _ _ = _ |- _ => rename K into HV end.
  match type of L with List.length ?r = _ => exists x, r, a, w3 end. eexists.
  split. { cbn [app]; rewrite ?app_nil_r. clear. match goal with |- drawn (map _ ?r) = _ => induction r as [|v r IH]; [reflexivity|]; cbn; f_equal; exact IH end. }
  split; [exact L|]. split; [|split; [|split; [exact HV|split; [exact F|split; [lia|]]]]].
  - intros (i & Ei & Q). unfold is_inf in H1. rewrite Ei, Q in H1. apply ret_ok in H1 as (Q1 & Q2 & Q3). subst. auto.
  - intros Q. unfold is_inf in H1. destruct (ninf N) as [i|] eqn:Ei.
    + destruct (neqb N nu i) eqn:En; [exfalso; apply Q; exists i; auto|]. minv. subst. eauto.
    + minv. subst. eauto.
  - match goal with K : div_rows _ _ = Ok _ |- _ => rename K into KD end. match goal with K : add_row _ _ _ = Ok _ |- _ => rename K into KA end.
    rewrite stack_two in KD by lia. unfold div_rows, nrows in KD. cbn [mrows mcols] in KD. rewrite L, Lx, Nat.eqb_refl in KD. injection KD as <-.
    unfold add_row in KA. cbn [mcols mrows] in KA. rewrite Nat.eqb_refl in KA. injection KA as <-. cbn [mrows].
    intros i j xi ri row m v Ex Er Erow Em Ev.
    rewrite nth_error_map in Erow. rewrite (map2_nth _ _ _ _ Er Ex) in Erow. cbn in Erow. injection Erow as <-.
    apply map2_nth; [exact Em|]. now rewrite nth_error_map, Ev.
Qed.
(** without samples the Gaussian sampler returns an empty array, the Student-t sampler raises *)
Theorem tp_no_sample nu mu Sg w w1 t s : chi_contract chisquare -> mu <> [] -> tp_sample_functions N mvn rvs chisquare nu mu Sg 0 w <> (w1, t, Ok s).
Proof.
  intros C Hmu H. apply tp_sample_ok in H as (x & r & _ & Lx & Lr & _ & E1 & E2 & E); [|exact C|lia].
  destruct x; [|discriminate Lx]. destruct r; [|discriminate Lr]. cbn in E. unfold add_row in E. cbn [mcols mrows map] in E.
  destruct mu as [|m [|m' mu]]; [now apply Hmu|..]; cbn in E; try discriminate E; injection E as <-; cbn in E2; discriminate E2.
Qed.
End Student.

(** ** the convergence test of a run *)
Section Converged.
Context (W K : Type) (get_samples : string -> Z -> option Z -> W -> W * res (list (list NumR)))
  (lbfgsb : (list NumR -> res NumR) -> list NumR -> list (NumR * NumR) -> W -> W * res (list NumR))
  (direct : (list NumR -> res NumR) -> list (NumR * NumR) -> W -> W * res (list NumR))
  (cma : (list NumR -> res NumR) -> list NumR -> list (NumR * NumR) -> W -> W * res (list NumR))
  (time_ : W -> W * NumR) (fit : mat NumR -> list NumR -> string -> string -> string -> bool -> W -> W * res (K * K * dict NumR))
  (kernel_inverse : mat NumR -> dict NumR -> string -> res (K * K)) (neg_log_ml : mat NumR -> list NumR -> list NumR -> string -> bool -> res NumR)
  (acq : string -> string -> mat NumR -> list NumR -> K -> K -> dict NumR -> list (list NumR) -> res (list NumR)).
Theorem converged_five_percent o X Y samp num seed s w s' w' t np gi pre last (hl hn : hypset NumR) :
  In (go_cov NumR o) cov_names -> gs_opt NumR s = true -> gs_hist NumR s = (pre ++ [Some last])%list ->
  binds last hl -> binds (gi_hyps NumR K gi) hn -> h_dof hl = None -> h_dof hn = None ->
  List.length (layout true hl) = List.length (layout true hn) ->
  gp_optimize NumR W K get_samples lbfgsb direct cma time_ fit kernel_inverse neg_log_ml acq o X Y samp num "converged" seed (s, w) = ((s', w'), t, Ok (np, gi)) ->
  (gs_opt NumR s' = false <-> (dist2 (layout true hn) (layout true hl) < norm2 (layout true hl) * (5 / 100))%R).
Proof.
  intros Hc Ho Hh Bl Bn Dl Dn L H. apply BOProps.converged_flag_set_by_test in H; [|exact Ho]. rewrite Hh in H. unfold check_convergence in H.
  rewrite rev_app_distr in H. cbn [rev app] in H.
  destruct (@convergence_spec (go_cov NumR o) [] last (gi_hyps NumR K gi) hl hn true (5 / 100)%R Hc Bl Bn Dl Dn L) as (b & E & Q).
  cbn [app] in E. change (nlit NumR 5 100) with (5 / 100)%R in H. rewrite E in H. injection H as ->. rewrite <- Q. destruct (gs_opt NumR s'); cbn; intuition congruence.
Qed.
End Converged.

Lemma all_failed_ext {J W E A} (f g : J -> W -> W * list E * res A) (P Q : exn -> Prop) : (forall j w, f j w = g j w) -> (forall e, P e -> Q e) ->
  forall js w w', all_failed f P js w w' -> all_failed g Q js w w'.
Proof. intros Hf HP js w w' H. induction H as [w|j js w w1 w' t e H R _ IH]; [constructor|]. rewrite Hf in H. eapply failed_more; eauto. Qed.
Definition is_value_error (linalg_is_value : bool) (e : exn) : Prop := e = ValueError \/ linalg_is_value = true /\ e = LinAlgError.
Lemma caught_iff lae e : caught lae e = true <-> is_value_error lae e.
Proof. unfold is_value_error. destruct e; cbn; intuition congruence. Qed.

Theorem ladder_real W G (mvn : list NumR -> list (list NumR) -> W -> W * res G) rvs lae mu (Sg : list (list NumR)) w w1 t r :
  Forall (fun row => List.length row = List.length Sg) Sg ->
  sample_ladder NumR mvn rvs lae mu Sg (list_jitters NumR) w = (w1, t, r) ->
  let attempt (j : R) := sample_functions NumR mvn rvs mu (plus_diagonal Sg j) 1 in
  let ladder := [0; 1 / 10000; 1 / 100; 1; 10; 100; 1000; 10000]%R in
  (exists pre j post wf, ladder = (pre ++ j :: post)%list /\ all_failed attempt (is_value_error lae) pre w wf /\
     attempt j wf = (w1, t, r) /\ forall e, r = Raise e -> ~ is_value_error lae e) \/
  (all_failed attempt (is_value_error lae) ladder w w1 /\ t = [] /\ r = Raise ValueError).
Proof.
  intros F H attempt ladder. rewrite ladder_values in H. fold ladder in H.
  assert (AE : forall j w, try_jitter NumR mvn rvs mu Sg j w = attempt j w).
  { intros j ww. exact (f_equal (fun m => sample_functions NumR mvn rvs mu m 1 ww) (@jitter_is_diagonal Sg j F)). }
  apply ladder_runs in H as [(pre & j & post & wf & E & A & T & Q)|(A & -> & ->)].
  - left. exists pre, j, post, wf. split; [exact E|]. split; [exact (all_failed_ext _ _ AE (fun e => proj1 (caught_iff lae e)) A)|].
    split; [now rewrite <- AE|]. intros e Er V. apply caught_iff in V. rewrite (Q e Er) in V. discriminate V.
  - right. split; [exact (all_failed_ext _ _ AE (fun e => proj1 (caught_iff lae e)) A)|auto].
Qed.
