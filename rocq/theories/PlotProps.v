(** Properties C88-C91: what the figures of utils_plotting.py show. *)
From Verif Require Import Base Lists Num NumLaws NumFin Monad View UtilsModel UtilsSpec HypsModel CovModel CovSpec Contracts GPModel GPSpec LikModel LikSpec LikProofs2 HypOptModel
  AcqModel TreesModel TreesSpec TreesProps WrapperModel BOModel BOAcqModel BOAcqSpec BOFullModel BOProgram BOObject BOTotalSpec BOTotalRun BOTotalProps UseSpec UseProofs UseProps
  PlotModel PlotSpec PlotProofs PlotStep PlotAccept PlotRun.
From Coq Require Import List ZArith Bool String Reals Lra Lia Arith Permutation.
Import ListNotations.
Unset Asymmetric Patterns.
Set Bullet Behavior "Strict Subproofs".

(** ** C88: comparison plots *)
Theorem C88_minimum_vs_iter : forall ncolors nmarkers (minima : cube NumR) labels num_init draw_std include_marker include_legend path_save str_postfix (range_shade : R),
  cube_wf minima -> cexps minima <> [] -> (0 < crounds minima)%nat -> List.length labels = List.length (cexps minima) ->
  (0 < num_init < Z.of_nat (ccols minima))%Z -> (0 < ncolors)%nat -> (0 < nmarkers)%nat ->
  exists curves,
    plot_minimum_vs_iter NumR true ncolors nmarkers minima labels num_init draw_std include_marker include_legend path_save str_postfix range_shade tt =
    (tt, figure 0 ncolors nmarkers draw_std include_marker labels curves ++ Xlim 0 (0%R : NumR) (IZR (Z.of_nat (ccols minima) - num_init)) ::
         closing "minimum_" labels draw_std include_legend path_save str_postfix, Ok tt) /\
    Forall2 (fun rounds c => shows_best (Z.to_nat num_init) (ccols minima) range_shade rounds c /\ counts (sh_x c)) (cexps minima) curves.
Proof. exact vs_iter_shows. Qed.
Print Assumptions C88_minimum_vs_iter.

Theorem C88_minimum_vs_time : forall ncolors nmarkers (times minima : cube NumR) labels num_init draw_std include_marker include_legend path_save str_postfix (range_shade : R),
  cube_wf minima -> cube_wf times -> cexps minima <> [] -> (0 < crounds minima)%nat -> crounds times = crounds minima ->
  List.length labels = List.length (cexps minima) -> List.length (cexps times) = List.length (cexps minima) ->
  ccols times = ccols minima \/ (Z.of_nat (ccols times) + num_init)%Z = Z.of_nat (ccols minima) ->
  (0 < num_init < Z.of_nat (ccols minima))%Z -> (0 < ncolors)%nat -> (0 < nmarkers)%nat ->
  exists curves lo hi,
    plot_minimum_vs_time NumR true ncolors nmarkers times minima labels num_init draw_std include_marker include_legend path_save str_postfix range_shade tt =
    (tt, figure 0 ncolors nmarkers draw_std include_marker labels curves ++ Xlim 0 (lo : NumR) hi ::
         closing "minimum_time_" labels draw_std include_legend path_save str_postfix, Ok tt) /\
    Forall2 (fun et c => shows_best (Z.to_nat num_init) (ccols minima) range_shade (fst et) c /\
      elapsed (fun row => if Nat.eqb (ccols times) (ccols minima) then skipn (Z.to_nat num_init) row else row) (snd et) (sh_x c)) (combine (cexps minima) (cexps times)) curves /\
    smallest (List.concat (map sh_x curves)) lo /\ largest (List.concat (map sh_x curves)) hi.
Proof. exact vs_time_shows. Qed.
Print Assumptions C88_minimum_vs_time.

(** a concrete case: two rounds of three values, one of them initial; the last point of the curve is the mean of the two minima *)
Example C88_example : exists c,
  plot_minimum_vs_iter NumR true 15 15 (mkcube [[[5; 3; 4]; [2; 6; 1]]%R] 2 3) ["a"%string] 1 false true false None None 1.96%R tt =
    (tt, [Line 0 (sh_x c : list NumR) (sh_y c) (Some "a"%string) (Palette 0) (Some 0%nat); Xlim 0 (0%R : NumR) 2%R; Show], Ok tt) /\
  nth_error (sh_y c) 2 = Some 2%R.
Proof.
  destruct (C88_minimum_vs_iter 15 15 (mkcube [[[5; 3; 4]; [2; 6; 1]]%R] 2 3) ["a"%string] 1 false true false None None 1.96%R) as (cs & E & F);
    try (cbn; lia); try reflexivity; try discriminate.
  { intros e [<-|[]]. split; [reflexivity|]. intros r [<-|[<-|[]]]; reflexivity. }
  inversion F as [|? c ? cs' [(L1 & L2 & L3 & L4 & B) _] F3]; subst. inversion F3; subst. exists c. split; [exact E|].
  destruct (nth_error (sh_y c) 2) as [y|] eqn:E1; [|apply nth_error_None in E1; cbn [ccols Z.to_nat] in *; change (Pos.to_nat 1) with 1%nat in *; lia].
  destruct (nth_error (sh_lo c) 2) as [l|] eqn:E2; [|apply nth_error_None in E2; cbn [ccols Z.to_nat] in *; change (Pos.to_nat 1) with 1%nat in *; lia].
  destruct (nth_error (sh_hi c) 2) as [u|] eqn:E3; [|apply nth_error_None in E3; cbn [ccols Z.to_nat] in *; change (Pos.to_nat 1) with 1%nat in *; lia].
  destruct (B 2%nat y l u E1 E2 E3) as (bs & s & G & ME & _). inversion G as [|? b1 ? bs1 (I1 & M1) G1]; subst. inversion G1 as [|? b2 ? bs2 (I2 & M2) G2]; subst. inversion G2; subst.
  cbn in I1, I2, M1, M2. unfold is_mean in ME. cbn in ME.
  assert (b1 = 3%R) by (specialize (M1 3%R (or_intror (or_introl eq_refl))); destruct I1 as [Q|[Q|[Q|[]]]]; change (b1 <= 3)%R in M1; lra).
  assert (b2 = 1%R) by (specialize (M2 1%R (or_intror (or_intror (or_introl eq_refl)))); destruct I2 as [Q|[Q|[Q|[]]]]; change (b2 <= 1)%R in M2; lra). f_equal. subst. lra.
Qed.

(** ** C89: every observation is marked, once, in the right colour *)
Theorem C89_step_marks_every_point : forall (N : Num) (X_train Y_train X_test Y_test mean_test std_test : mat N) acq_test path_save str_postfix num_init range_shade,
  mat_wf X_train -> mat_wf Y_train -> mat_wf X_test -> mat_wf Y_test -> mat_wf mean_test -> mat_wf std_test ->
  mcols X_train = 1%nat -> mcols Y_train = 1%nat -> mcols X_test = 1%nat -> mcols Y_test = 1%nat -> mcols mean_test = 1%nat -> mcols std_test = 1%nat ->
  nrows Y_train = nrows X_train -> nrows Y_test = nrows X_test -> nrows mean_test = nrows X_test -> nrows std_test = nrows X_test ->
  (forall a, acq_test = Some a -> mat_wf a /\ mcols a = 1%nat /\ nrows a = nrows X_test) ->
  (0 < nrows X_train)%nat -> (0 < nrows X_test)%nat -> (forall k, num_init = Some k -> (k <= Z.of_nat (nrows X_train))%Z) ->
  exists marks lo hi,
    let X := flatten N X_test in
    plot_bo_step_gen N true X_train Y_train X_test Y_test mean_test std_test acq_test path_save str_postfix num_init range_shade tt =
    (tt, Line 0 X (flatten N Y_test) None (Named "g") None :: Line 0 X (flatten N mean_test) None (Named "b") None
         :: Band 0 X (shade N (nsub N) range_shade (flatten N mean_test) (flatten N std_test)) (shade N (nadd N) range_shade (flatten N mean_test) (flatten N std_test)) (Named "b")
         :: marks ++ Xlim 0 lo hi
         :: match acq_test with Some a => [Line 1 X (flatten N a) None (Named "b") None; Xlim 1 lo hi] | None => [] end
         ++ saved N path_save str_postfix (match acq_test with Some _ => "bo_step_acq_" | None => "bo_step_" end)%string ++ [Show], Ok tt) /\
    marked marks = combine (combine (flatten N X_train) (flatten N Y_train)) (step_colours num_init (nrows X_train)) /\
    Forall (fun d => match d with Marks ax _ _ _ => ax = 0%nat | _ => False end) marks /\
    npmin N X = Ok lo /\ npmax N X = Ok hi.
Proof. exact step_shows. Qed.
Print Assumptions C89_step_marks_every_point.

Theorem C89_gp_figure : forall (N : Num) ncolors (X_train Y_train X_test mean_test std_test : mat N) Y_test path_save str_postfix range_shade,
  mat_wf X_train -> mat_wf Y_train -> mat_wf X_test -> mat_wf mean_test -> mat_wf std_test ->
  mcols X_train = 1%nat -> mcols Y_train = 1%nat -> mcols X_test = 1%nat -> mcols mean_test = 1%nat -> mcols std_test = 1%nat ->
  nrows Y_train = nrows X_train -> nrows mean_test = nrows X_test -> nrows std_test = nrows X_test ->
  (forall a, Y_test = Some a -> mat_wf a /\ mcols a = 1%nat /\ nrows a = nrows X_test) ->
  (0 < nrows X_test)%nat -> (2 < ncolors)%nat ->
  exists lo hi,
    let X := flatten N X_test in
    plot_gp_via_distribution N true ncolors X_train Y_train X_test mean_test std_test Y_test path_save str_postfix range_shade tt =
    (tt, match Y_test with Some a => [Line 0 X (flatten N a) None (Palette 1) None] | None => [] end
         ++ Line 0 X (flatten N mean_test) None (Palette 2) None
         :: Band 0 X (shade N (nsub N) range_shade (flatten N mean_test) (flatten N std_test)) (shade N (nadd N) range_shade (flatten N mean_test) (flatten N std_test)) (Palette 2)
         :: Marks 0 (flatten N X_train) (flatten N Y_train) (Palette 0) :: Xlim 0 lo hi :: saved N path_save str_postfix "gp_" ++ [Show], Ok tt) /\
    npmin N X = Ok lo /\ npmax N X = Ok hi.
Proof. exact gp_shows. Qed.
Print Assumptions C89_gp_figure.

Theorem C89_samples_figure : forall (N : Num) ncolors (X Ys : mat N) path_save str_postfix,
  mat_wf X -> mat_wf Ys -> mcols X = 1%nat -> nrows X = mcols Ys -> (0 < nrows X)%nat -> (0 < ncolors)%nat ->
  exists lo hi,
    plot_gp_via_sample N true ncolors X Ys path_save str_postfix tt =
    (tt, map (fun Y => Line 0 (flatten N X) Y None (Palette 0) None) (mrows Ys) ++ Xlim 0 lo hi :: saved N path_save str_postfix "gp_sampled_" ++ [Show], Ok tt) /\
    npmin N (flatten N X) = Ok lo /\ npmax N (flatten N X) = Ok hi.
Proof. exact sample_shows. Qed.
Print Assumptions C89_samples_figure.

(** concrete cases in binary64: four points, two of them initial; num_init = -1 counts from the end *)
Definition ex_col (l : list Z) : mat NumF := mkmat (map (fun z => [fofZ z]) l) 1.
Definition ex_marked num_init := map (fun q => (fview (fst (fst q)), snd q)) (marked (snd (fst
  (plot_bo_step NumF true (ex_col [10; 11; 12; 13]%Z) (ex_col [1; 2; 3; 4]%Z) (ex_col [0; 5]%Z) (ex_col [1; 1]%Z) (ex_col [2; 2]%Z) (ex_col [1; 0]%Z) None None num_init (fofZ 2) tt)))).
Example C89_example :
  ex_marked (Some 2%Z) = map (fun q => (fview (fofZ (fst q)), Named (snd q))) [(10%Z, "saddlebrown"%string); (11%Z, "saddlebrown"%string); (12%Z, "r"%string); (13%Z, "orange"%string)] /\
  ex_marked None = map (fun q => (fview (fofZ (fst q)), Named (snd q))) [(10%Z, "r"%string); (11%Z, "r"%string); (12%Z, "r"%string); (13%Z, "orange"%string)] /\
  ex_marked (Some 4%Z) = map (fun q => (fview (fofZ (fst q)), Named (snd q))) (map (fun z => (z, "saddlebrown"%string)) [10; 11; 12; 13]%Z) /\
  ex_marked (Some (-1)%Z) = map (fun q => (fview (fofZ (fst q)), Named (snd q))) [(10%Z, "saddlebrown"%string); (11%Z, "saddlebrown"%string); (12%Z, "saddlebrown"%string); (13%Z, "orange"%string)].
Proof. vm_compute. auto. Qed.

(** ** C90: do arguments that pass the checks give a figure? *)
Theorem C90_figure_exactly_when : forall (N : Num) i ncolors nmarkers (minima : cube N) labels num_init draw_std include_marker include_legend path_save str_postfix range_shade,
  ninf N = Some i -> cube_wf minima ->
  (snd (plot_minimum_vs_iter N true ncolors nmarkers minima labels num_init draw_std include_marker include_legend path_save str_postfix range_shade tt) = Ok tt <->
   List.length labels = List.length (cexps minima) /\ cexps minima <> [] /\ (0 < crounds minima)%nat /\ (num_init < Z.of_nat (ccols minima))%Z /\
   (0 < ncolors)%nat /\ (0 < nmarkers)%nat).
Proof. exact vs_iter_accepts. Qed.
Print Assumptions C90_figure_exactly_when.

Theorem C90_all_initial_fails : forall (N : Num) ncolors nmarkers (minima : cube N) labels draw_std include_marker include_legend path_save str_postfix range_shade,
  List.length labels = List.length (cexps minima) -> cexps minima <> [] -> (0 < ncolors)%nat -> (0 < nmarkers)%nat ->
  plot_minimum_vs_iter N false ncolors nmarkers minima labels (Z.of_nat (ccols minima)) draw_std include_marker include_legend path_save str_postfix range_shade tt = (tt, [], Ok tt) /\
  plot_minimum_vs_iter N true ncolors nmarkers minima labels (Z.of_nat (ccols minima)) draw_std include_marker include_legend path_save str_postfix range_shade tt = (tt, [], Raise AssertionError).
Proof. exact vs_iter_equal_num_init. Qed.
Print Assumptions C90_all_initial_fails.

Theorem C90_no_experiments_fails : forall (N : Num) ncolors nmarkers num_init r n draw_std include_marker include_legend path_save str_postfix range_shade, (num_init <= Z.of_nat n)%Z ->
  plot_minimum_vs_iter N false ncolors nmarkers (mkcube [] r n) [] num_init draw_std include_marker include_legend path_save str_postfix range_shade tt = (tt, [], Ok tt) /\
  plot_minimum_vs_iter N true ncolors nmarkers (mkcube [] r n) [] num_init draw_std include_marker include_legend path_save str_postfix range_shade tt = (tt, [], Raise UnboundLocalError).
Proof. exact vs_iter_no_experiments. Qed.
Print Assumptions C90_no_experiments_fails.

(** witness in binary64: one experiment of one round with two values, both initial *)
Definition ex_cube : cube NumF := mkcube [[[fofZ 1; fofZ 2]]] 1 2.
Theorem C90_checks_refuted : exists (minima : cube NumF) labels num_init, cube_wf minima /\ cexps minima <> [] /\ (0 < crounds minima)%nat /\
  plot_minimum_vs_iter NumF false 15 15 minima labels num_init false true false None None (fofZ 2) tt = (tt, [], Ok tt) /\
  plot_minimum_vs_iter NumF true 15 15 minima labels num_init false true false None None (fofZ 2) tt = (tt, [], Raise AssertionError).
Proof.
  exists ex_cube, ["a"%string], 2%Z. split; [intros e [<-|[]]; split; [reflexivity|intros r [<-|[]]; reflexivity]|]. split; [discriminate|]. split; [cbn; lia|].
  exact (@vs_iter_equal_num_init NumF 15 15 ex_cube ["a"%string] false true false None None (fofZ 2) eq_refl ltac:(discriminate) ltac:(lia) ltac:(lia)).
Qed.
Print Assumptions C90_checks_refuted.
Example C90_example :
  snd (plot_minimum_vs_iter NumF true 15 15 ex_cube ["a"%string] 1 true true true (Some "d"%string) (Some "f"%string) (fofZ 2) tt) = Ok tt /\
  snd (plot_minimum_vs_iter NumF true 15 15 ex_cube ["a"%string] (-1) true true true (Some "d"%string) (Some "f"%string) (fofZ 2) tt) = Ok tt.
Proof. vm_compute. auto. Qed.

(** ** C91: repeated runs of an accepted object can be plotted against time *)
Theorem C91_rounds_can_be_plotted :
  forall (cdf pdf : R -> R) inv chol cho_solve slogdet (gamma digamma : R -> R) (W : Type) get_samples lbfgsb direct cma (time_ : W -> W * R) minimize after
    (prior_mu : prior NumR) m choice uniform trunc schedule target (a : bo_args NumR) da ca ob w num_init seeds,
  inv_contract inv -> chol_contract chol -> cho_solve_contract cho_solve -> slogdet_contract slogdet ->
  (forall w, proper_minimizer (minimize w)) -> prior_is prior_mu m ->
  proper_from lbfgsb -> proper_direct direct -> proper_from cma ->
  choice_contract choice -> choice_total choice -> uniform_total NumR uniform -> uniform_contract NumR uniform -> int_of_integers trunc -> completes schedule ->
  proper_samples (a_range NumR a) get_samples -> returns_in (a_range NumR a) target ->
  new_object NumR da ca a = Ok ob -> usable_options a -> (0 < num_init)%Z -> seeds <> [] ->
  exists obw t rs,
    mmapM (object_optimize NumR exp ln cdf pdf PI inv chol cho_solve slogdet gamma digamma W get_samples lbfgsb direct cma time_ minimize after prior_mu choice uniform trunc schedule target num_init)
      seeds (ob, w) = (obw, t, Ok rs) /\ List.length rs = List.length seeds /\
    let n := Z.to_nat num_init in let k := Z.to_nat (a_num_iter NumR a) in
    forall label ncolors nmarkers draw_std include_marker include_legend path_save str_postfix (range_shade : R), (0 < ncolors)%nat -> (0 < nmarkers)%nat ->
    exists c lo hi,
      plot_minimum_vs_time NumR true ncolors nmarkers (mkcube [map ro_tall rs] (List.length rs) (n + k)) (mkcube [map ro_Y rs] (List.length rs) (n + k)) [label] num_init
        draw_std include_marker include_legend path_save str_postfix range_shade tt =
      (tt, figure 0 ncolors nmarkers draw_std include_marker [label] [c] ++ Xlim 0 (lo : NumR) hi :: closing "minimum_time_" [label] draw_std include_legend path_save str_postfix, Ok tt) /\
      shows_best n (n + k) range_shade (map ro_Y rs) c /\ elapsed (skipn n) (map ro_tall rs) (sh_x c).
Proof.
  intros cdf pdf inv chol cho_solve slogdet gamma digamma W get_samples lbfgsb direct cma time_ minimize after prior_mu m choice uniform trunc schedule target a da ca ob w num_init seeds
    H1 H2 H3 H4 H5 H6 H7 H8 H9 H10 H11 H12 H13 H14 H15 H16 H17 H18 H19 H20 H21.
  assert (SE : Forall (sensible (a_range NumR a)) (map (fun s => FromScratch num_init s) seeds)) by (apply Forall_forall; intros u Hu; apply in_map_iff in Hu as (s & <- & _); exact H20).
  destruct (C87_any_sequence_of_uses_completes cdf pdf inv chol cho_solve slogdet gamma digamma W get_samples lbfgsb direct cma time_ minimize after prior_mu m choice uniform trunc schedule target a da ca ob w
    (map (fun s => FromScratch num_init s) seeds) H1 H2 H3 H4 H5 H6 H7 H8 H9 H10 H11 H12 H13 H14 H15 H16 H17 H18 H19 SE) as (obw & t & rs & E & F).
  rewrite mmapM_map in E. exists obw, t, rs. split; [exact E|]. apply Forall2_map_l in F.
  assert (L : List.length rs = List.length seeds) by (symmetry; exact (Forall2_len F)). split; [exact L|]. cbv zeta.
  intros label ncolors nmarkers ds im il p s range_shade HC HM.
  assert (TI : Forall (fun r => List.length (ro_tall r) = List.length (ro_Y r)) rs).
  { eapply mmapM_forall; [|exact E]. intros x w0 w' t' r HR. unfold object_optimize, run_class in HR. eapply optimize_times. exact HR. }
  assert (G := @rounds_plot rs (Z.to_nat num_init) (Z.to_nat (a_num_iter NumR a)) label ncolors nmarkers ds im il p s range_shade). rewrite Z2Nat.id in G by lia. apply G; try assumption.
  - intros Q. rewrite Q in L. destruct seeds; [congruence|discriminate].
  - lia.
  - pose proof (@new_num_iter NumR da ca a ob H18). lia.
  - apply Forall_forall. intros r Hr. rewrite Forall_forall in TI. specialize (TI r Hr). apply in_nth_error in Hr as [i Hi].
    destruct (Forall2_nth i F Hi) as (u & _ & (_ & LY & _)). cbn [given] in LY. split; [exact LY|]. rewrite TI. exact LY.
Qed.
Print Assumptions C91_rounds_can_be_plotted.

(** a concrete case: the libraries of C83, three rounds *)
Example C91_example : forall surrogate cov opt_bo mlm,
  In (surrogate, opt_bo) [("gp", "L-BFGS-B"); ("gp", "DIRECT"); ("gp", "CMA-ES"); ("tp", "L-BFGS-B"); ("tp", "DIRECT"); ("tp", "CMA-ES"); ("rf", "random_search")]%string ->
  In cov ["eq"; "se"; "matern32"; "matern52"]%string -> In mlm ["regular"; "combined"; "converged"]%string ->
  exists ob obw t r1 r2 r3, new_object NumR true true (ex_args surrogate cov opt_bo mlm) = Ok ob /\
    mmapM (object_optimize NumR exp ln exp exp PI some_inv some_chol some_cho_solve some_slogdet exp exp unit (ex_samples ex_range) ex_from ex_direct ex_from ex_time (fun _ => ex_min) ex_after
        None ex_choice ex_unif ex_truncR ex_schedule ex_target 3) [Some 1%Z; Some 2%Z; None] (ob, tt) = (obw, t, Ok [r1; r2; r3]) /\
    exists c lo hi,
      plot_minimum_vs_time NumR true 15 15 (mkcube [[ro_tall r1; ro_tall r2; ro_tall r3]] 3 7) (mkcube [[ro_Y r1; ro_Y r2; ro_Y r3]] 3 7) ["a"%string] 3 true true true None None 1.96%R tt =
      (tt, [Line 0 (sh_x c : list NumR) (sh_y c) (Some "a"%string) (Palette 0) (Some 0%nat); Band 0 (sh_x c : list NumR) (sh_lo c) (sh_hi c) (Palette 0); Xlim 0 (lo : NumR) hi; Legend; Show], Ok tt).
Proof.
  intros surrogate cov opt_bo mlm HS HC HM. assert (HC' : In cov ALLOWED_COV) by (cbn in HC |- *; tauto).
  destruct (ex_accepted _ _ _ _ HS HC' HM) as [model EM].
  destruct (new_object NumR true true (ex_args surrogate cov opt_bo mlm)) as [ob|] eqn:EN; [|unfold new_object in EN; rewrite EM in EN; destruct model; discriminate].
  edestruct (C91_rounds_can_be_plotted exp exp some_inv some_chol some_cho_solve some_slogdet exp exp unit (ex_samples ex_range) ex_from ex_direct ex_from ex_time (fun _ => ex_min) ex_after
    None (fun _ => 0%R) ex_choice ex_unif ex_truncR ex_schedule ex_target (ex_args surrogate cov opt_bo mlm) true true ob tt 3%Z [Some 1%Z; Some 2%Z; None]) as (obw & t & rs & E & L & F); try exact EN.
  - exact some_inv_ok.
  - exact some_chol_ok.
  - exact some_cho_solve_ok.
  - exact some_slogdet_ok.
  - intros _. exact ex_min_ok.
  - intros e. reflexivity.
  - exact ex_from_ok.
  - exact ex_direct_ok.
  - exact ex_from_ok.
  - exact ex_choice_contract.
  - exact ex_choice_total.
  - intros lo hi w. unfold ex_unif. eauto.
  - intros lo hi w w' v _. reflexivity.
  - exact ex_trunc_ok.
  - intros k. apply Permutation_refl.
  - apply ex_samples_ok, ex_range_sound.
  - apply ex_target_ok.
  - split; [discriminate|]. split; [right; exact HC|]. intros _ Q. discriminate Q.
  - reflexivity.
  - discriminate.
  - destruct rs as [|r1 [|r2 [|r3 [|r4 rs]]]]; try discriminate L. exists ob, obw, t, r1, r2, r3. split; [reflexivity|]. split; [exact E|].
    destruct (F "a"%string 15%nat 15%nat true true true None None 1.96%R ltac:(lia) ltac:(lia)) as (c & lo & hi & G & _). exists c, lo, hi. exact G.
Qed.
