(** Another origin of the inputs: what the Gaussian and Student-t surrogates propose, and whole runs with any surrogate. *)
From Verif Require Import Base Lists Num NumLaws UtilsModel UtilsRProofs Monad HypsModel CovModel GPModel LikModel HypOptModel AcqModel TreesModel TreesUnitsSpec SamplingModel
  WrapperModel BOModel BOAcqModel BOFullModel BOProgram RelProofs MoveSpec MoveProofs MoveRun OriginSpec OriginCov.
From Coq Require Import List ZArith Bool String Lia Lra Arith Reals.
Import ListNotations.
Unset Asymmetric Patterns.
Set Bullet Behavior "Strict Subproofs".
Local Open Scope R_scope.
Notation N := NumR.
Notation mx := (list (list N)).

Section Axes.
Context (ax : axes) (HT : translation ax).
Notation HA := (translation_sound ax HT).
Notation nd := (List.length ax).
Notation ci := (conv_in ax).
Notation cm := (conv_mat ax).
Notation sizedm := (sizedm ax).
Notation sized := (fun x : list N => List.length x = nd).

Section Opt.
Context (W S : Type) (gs gs' : string -> Z -> option Z -> W -> W * res (list (list N))) (time_ : W -> W * N).
Context (lbfgsb : (list N -> res N) -> list N -> list (N * N) -> W -> W * res (list N)) (direct : (list N -> res N) -> list (N * N) -> W -> W * res (list N))
  (cma : (list N -> res N) -> list N -> list (N * N) -> W -> W * res (list N)).
Context (HG : forall m num seed w, gs' m num seed w = let (w', r) := gs m num seed w in (w', rmap (map ci) r)).
Context (HS : forall m num seed w w' l, gs m num seed w = (w', Ok l) -> Forall sized l).
Context (HL : moves_along ax lbfgsb) (HD : moves_with ax direct) (HC : moves_along ax cma).
Notation RE := (fun e e' => e' = conv_fitev ax e).
Notation rl := (rel (@eq (S * W)) RE).

Lemma otick_rel : rl eq (tick N W time_ S) (tick N W time_ S).
Proof. apply rel_ext. intros w ? <-. split; [reflexivity|apply rres_refl]. Qed.
Lemma osamples_rel m num seed : rl (fun l l' => l' = map ci l /\ Forall sized l) (onW N W S (gs m num seed)) (onW N W S (gs' m num seed)).
Proof.
  apply rel_ext. intros [u w] ? <-. cbn [fst snd]. rewrite HG. destruct (gs m num seed w) as [w1 [l|e]] eqn:E; cbn; [|auto]. split; [reflexivity|]. split; [reflexivity|]. eapply HS; eassumption.
Qed.
Lemma ogetS_rel : rl eq (getS N W S) (getS N W S).
Proof. intros w ? <-. cbn. split; [reflexivity|]. split; [constructor|reflexivity]. Qed.
Lemma oputS_rel s : rl eq (putS N W S s) (putS N W S s).
Proof. intros w ? <-. cbn. split; [reflexivity|]. split; [constructor|reflexivity]. Qed.
Lemma onote_rel m X Y : rl eq (note N W S (m, X, Y)) (note N W S (m, cm X, Y)).
Proof. intros w ? <-. cbn. split; [reflexivity|]. split; [constructor; [reflexivity|constructor]|reflexivity]. Qed.
Lemma oonW_rel {A} (f f' : W -> W * res A) : (forall w, f' w = f w) -> rl eq (onW N W S f) (onW N W S f').
Proof. intros H. apply rel_ext. intros [u w] ? <-. cbn [fst snd]. rewrite H. destruct (f w) as [w1 r]. split; [reflexivity|apply rres_refl]. Qed.

Section Fneg.
Context (fneg fneg' : list (list N) -> res (list N)) (HF : forall pts, Forall sized pts -> fneg' (map ci pts) = fneg pts).
Lemma point_conv : same_objective ax (at_point N fneg) (at_point N fneg').
Proof. intros x L. unfold at_point. change [ci x] with (map ci [x]). rewrite HF by (constructor; [exact L|constructor]). reflexivity. Qed.
Lemma eval_conv l : Forall sized l -> forall b, eval_loop N (at_point N fneg') (map ci l) (option_map (fun p => (ci (fst p), snd p)) b) = rmap (option_map (fun p => (ci (fst p), snd p))) (eval_loop N (at_point N fneg) l b).
Proof.
  induction 1 as [|x l Hx F IH]; intros b; [reflexivity|]. cbn [map eval_loop]. rewrite (point_conv x Hx). destruct (at_point N fneg x) as [v|e]; [|reflexivity]. cbn [rbind].
  assert (E : option_map snd (option_map (fun p : list N * N => (ci (fst p), snd p)) b) = option_map snd b) by (destruct b; reflexivity). rewrite E. rewrite <- IH. destruct (better _ _ _); reflexivity.
Qed.
Lemma eval_in f (l : list (list N)) : forall b p, eval_loop N f l b = Ok (Some p) -> In (fst p) l \/ b = Some p.
Proof.
  induction l as [|x l IH]; intros b p H; cbn in H; [injection H as ->; now right|]. destruct (f x) as [v|e]; [|discriminate]. cbn [rbind] in H. apply IH in H as [H|H]; [left; now right|].
  destruct (better _ _ _); [injection H as <-; left; now left|now right].
Qed.
Lemma bestof_conv l : Forall sized l -> rres (fun p p' => p' = ci p /\ sized p) (get_best_acquisition_by_evaluation N l (at_point N fneg)) (get_best_acquisition_by_evaluation N (map ci l) (at_point N fneg')).
Proof.
  intros F. unfold get_best_acquisition_by_evaluation. pose proof (eval_conv l F None) as E. cbn [option_map] in E. rewrite E.
  destruct (eval_loop N (at_point N fneg) l None) as [[[p v]|]|e] eqn:EE; cbn; try reflexivity. split; [reflexivity|]. apply eval_in in EE as [I|I]; [exact (proj1 (Forall_forall _ _) F p I)|discriminate].
Qed.
Lemma opt_conv ob (r : list (R * R)) samp num seed : List.length r = nd ->
  rl (fun p p' => p' = (ci (fst p), cm (snd p)) /\ sized (fst p) /\ sizedm (snd p))
    (optimize_acq N W gs lbfgsb direct cma S ob r fneg samp num seed) (optimize_acq N W gs' lbfgsb direct cma S ob (conv_range ax r) fneg' samp num seed).
Proof.
  intros H. unfold optimize_acq. eapply rel_bind with (RA := fun l l' => l' = map ci l /\ Forall sized l).
  { destruct (String.eqb ob "L-BFGS-B"); [|destruct (String.eqb ob "DIRECT"); [|destruct (String.eqb ob "CMA-ES")]].
    - eapply rel_bind; [apply osamples_rel|]. intros l ? (-> & F). eapply rel_weaken; [apply rel_mmapM with (RA := fun x x' => x' = ci x /\ sized x) (RB := fun x x' => x' = ci x /\ sized x)|].
      + clear -F. induction F as [|x l Hx F IH]; constructor; auto.
      + intros x ? (-> & L). apply rel_ext. intros [u w] ? <-. cbn [fst snd]. destruct (HL _ _ x r w point_conv L H) as (E & Z). rewrite E. destruct (lbfgsb _ x r w) as [w1 [p|e]]; cbn; [|auto].
        split; [reflexivity|]. split; [reflexivity|]. exact (Z w1 p eq_refl).
      + intros a b F2. clear -F2. induction F2 as [|x y l l' (-> & L) F2 (E & IH)]; [split; [reflexivity|constructor]|]. subst l'. split; [reflexivity|now constructor].
    - eapply rel_bind with (RA := fun x x' => x' = ci x /\ sized x).
      + apply rel_ext. intros [u w] ? <-. cbn [fst snd]. destruct (HD _ _ r w point_conv H) as (E & Z). rewrite E. destruct (direct _ r w) as [w1 [p|e]]; cbn; [|auto].
        split; [reflexivity|]. split; [reflexivity|]. exact (Z w1 p eq_refl).
      + intros x ? (-> & L). apply rel_ret. split; [reflexivity|now repeat constructor].
    - eapply rel_bind; [apply osamples_rel|]. intros l ? (-> & F). destruct F as [|x l L F]; cbn [map]; [apply rel_raise|]. eapply rel_bind with (RA := fun x x' => x' = ci x /\ sized x).
      + apply rel_ext. intros [u w] ? <-. cbn [fst snd]. destruct (HC _ _ x r w point_conv L H) as (E & Z). rewrite E. destruct (cma _ x r w) as [w1 [p|e]]; cbn; [|auto].
        split; [reflexivity|]. split; [reflexivity|]. exact (Z w1 p eq_refl).
      + intros y ? (-> & Ly). apply rel_ret. split; [reflexivity|now repeat constructor].
    - apply rel_ret. split; [reflexivity|constructor]. }
  intros pts ? (-> & FP). eapply rel_bind with (RA := fun P P' => P' = cm P /\ sizedm P).
  { apply rel_lift. rewrite (array_conv ax pts FP). destruct (np_array_rows pts) as [P|e] eqn:EP; cbn; [|reflexivity]. split; [reflexivity|]. unfold MoveProofs.sizedm. now rewrite (array_sized _ _ EP). }
  intros P ? (-> & SP). eapply rel_bind; [apply rel_lift; cbn [mrows conv_mat]; now apply bestof_conv|]. intros p ? (-> & LP). apply rel_ret. cbn. auto.
Qed.
End Fneg.
Lemma point_check_conv (r : list (R * R)) p : List.length r = nd -> sized p -> rres (fun q q' => q' = ci q /\ sized q) (check_point N r p) (check_point N (conv_range ax r) (ci p)).
Proof.
  intros H L. unfold check_point. pose proof (bounds_conv ax HA r (mkmat [p] (List.length p)) H (Forall_cons _ L (Forall_nil _))) as E.
  unfold conv_mat in E. cbn [mrows mcols map] in E. rewrite (conv_in_len ax p L), <- L. setoid_rewrite E. destruct (check_points_in_bounds N (mkmat [p] (List.length p)) r); cbn; [|reflexivity]. split; reflexivity.
Qed.
Lemma points_check_conv (r : list (R * R)) P : List.length r = nd -> sizedm P -> rres (fun q q' => q' = cm q /\ sizedm q) (check_points_in_bounds N P r) (check_points_in_bounds N (cm P) (conv_range ax r)).
Proof.
  intros H SP. rewrite (bounds_conv ax HA r P H SP). destruct (check_points_in_bounds N P r) as [P'|e] eqn:EP; cbn; [|reflexivity]. split; [reflexivity|]. apply bounds_same in EP. now subst P'.
Qed.
End Opt.

(** ** the classes *)
Context (nexp nlog cdf pdf : N -> N) (npi : N) (inv chol : mx -> res mx) (cho_solve : mx -> mx -> res mx) (slogdet : mx -> N * N) (ngamma ndigamma : N -> N) (W : Type).
Context (gs gs' : string -> Z -> option Z -> W -> W * res (list (list N))) (time_ : W -> W * N).
Context (lbfgsb : (list N -> res N) -> list N -> list (N * N) -> W -> W * res (list N)) (direct : (list N -> res N) -> list (N * N) -> W -> W * res (list N))
  (cma : (list N -> res N) -> list N -> list (N * N) -> W -> W * res (list N)) (minimize : W -> minimizer N) (aft : mat N -> list N -> string -> W -> W) (prior prior' : prior N).
Context (HG : forall m num seed w, gs' m num seed w = let (w', r) := gs m num seed w in (w', rmap (map ci) r)).
Context (HS : forall m num seed w w' l, gs m num seed w = (w', Ok l) -> Forall sized l).
Context (HL : moves_along ax lbfgsb) (HD : moves_with ax direct) (HC : moves_along ax cma) (HP : same_prior ax prior prior') (HAF : same_after ax aft).
Notation RE := (fun e e' => e' = conv_fitev ax e).
Definition moved_gpo (o : gp_obj N) : gp_obj N := mkgpo N (conv_range ax (go_range N o)) (go_cov N o) (go_acq N o) (go_norm N o) (go_ard N o) (go_opt_gp N o) (go_opt_bo N o) (go_msel N o).
Definition moved_tpo (o : tp_obj N) : tp_obj N := mktpo N (conv_range ax (to_range N o)) (to_cov N o) (to_acq N o) (to_norm N o) (to_ard N o) (to_opt_tp N o) (to_opt_bo N o).

Lemma gp_fit_conv X Y c m ms ard w : sizedm X ->
  gp_fit_full nexp nlog npi inv chol cho_solve slogdet minimize aft prior' (cm X) Y c m ms ard w = gp_fit_full nexp nlog npi inv chol cho_solve slogdet minimize aft prior X Y c m ms ard w.
Proof. intros S. unfold gp_fit_full. f_equal; [exact (HAF X Y m w (proj1 (Forall_forall _ _) S))|]. now apply kernel_conv. Qed.
Lemma tp_fit_conv X Y c m ard w : sizedm X ->
  tp_fit_full nexp nlog npi inv slogdet ngamma ndigamma minimize aft prior' (cm X) Y c m ard w = tp_fit_full nexp nlog npi inv slogdet ngamma ndigamma minimize aft prior X Y c m ard w.
Proof. intros S. unfold tp_fit_full. f_equal; [exact (HAF X Y m w (proj1 (Forall_forall _ _) S))|]. now apply tp_kernel_conv. Qed.
Lemma gp_kern_conv X h c : sizedm X -> gp_kernel_full nexp inv (cm X) h c = gp_kernel_full nexp inv X h c.
Proof. intros S. unfold gp_kernel_full. now rewrite (inverse_conv ax HT nexp inv X h c true false S). Qed.
Lemma gp_lik_conv X Y v c ard : sizedm X -> gp_nlml_full nexp nlog npi inv chol cho_solve slogdet prior' (cm X) Y v c ard = gp_nlml_full nexp nlog npi inv chol cho_solve slogdet prior X Y v c ard.
Proof.
  intros S. unfold gp_nlml_full. rewrite (prior_conv ax prior prior' HP X S). destruct (get_prior_mu prior (A2 N X)) as [p|e]; [|reflexivity]. cbn [rbind].
  now rewrite (nlml_conv ax HT nexp nlog npi inv chol cho_solve slogdet X (column_of N Y) v c p ard true true false S).
Qed.

Notation rg := (rel (@eq (gp_state N * W)) RE).
Notation gfit p := (gp_fit_full nexp nlog npi inv chol cho_solve slogdet minimize aft p).
Notation glik p := (gp_nlml_full nexp nlog npi inv chol cho_solve slogdet p).
Lemma fit_rel o meth X Y : sizedm X -> rg eq (gp_fit N W mx (gfit prior) o meth X Y) (gp_fit N W mx (gfit prior') (moved_gpo o) meth (cm X) Y).
Proof.
  intros S. unfold gp_fit. eapply rel_bind with (RA := eq); [apply onote_rel|]. intros ? ? _. cbn [moved_gpo go_cov go_msel go_ard]. apply oonW_rel. intros w. now apply gp_fit_conv.
Qed.
Lemma combined_rel o X Y meth b : sizedm X -> rg eq (combined_step N W mx (gfit prior) (glik prior) o X Y meth b) (combined_step N W mx (gfit prior') (glik prior') (moved_gpo o) (cm X) Y meth b).
Proof.
  intros S. unfold combined_step. st; [now apply fit_rel|]. cbn [moved_gpo go_cov go_ard]. st; [apply rel_lift_eq|]. st; [apply rel_lift; rewrite (gp_lik_conv X Y _ _ _ S); apply rres_refl|]. now apply rel_ret.
Qed.
Lemma surrogate_rel o mlm X Y : sizedm X ->
  rg eq (gp_surrogate N W mx (gfit prior) (gp_kernel_full nexp inv) (glik prior) o mlm X Y) (gp_surrogate N W mx (gfit prior') (gp_kernel_full nexp inv) (glik prior') (moved_gpo o) mlm (cm X) Y).
Proof.
  intros S. unfold gp_surrogate. cbn [moved_gpo go_opt_gp go_cov]. destruct (String.eqb mlm "regular"); [|destruct (String.eqb mlm "combined"); [|destruct (String.eqb mlm "converged")]].
  - st; [now apply fit_rel|]. now apply rel_ret.
  - st; [now apply combined_rel|]. st; [now apply combined_rel|]. now apply rel_ret.
  - st; [apply ogetS_rel|]. destruct (gs_opt N a).
    + st; [now apply fit_rel|]. st; [apply ogetS_rel|]. st; [apply rel_lift_eq|]. st; [apply oputS_rel|]. now apply rel_ret.
    + destruct (rev (gs_hist N a)) as [|[h|] l]; [apply rel_raise| |apply rel_raise]. st; [apply rel_lift; rewrite (gp_kern_conv X h (go_cov N o) S); apply rres_refl|]. now apply rel_ret.
  - apply rel_raise.
Qed.
Lemma gp_conv o X Y samp num mlm seed : List.length (go_range N o) = nd -> sizedm X ->
  rg (fun p p' => p' = (ci (fst p), conv_gp_info ax (snd p)) /\ (sized (fst p) /\ sizedm (gi_points N mx (snd p))))
    (gp_optimize_full nexp nlog cdf pdf npi inv chol cho_solve slogdet gs lbfgsb direct cma time_ minimize aft prior o X Y samp num mlm seed)
    (gp_optimize_full nexp nlog cdf pdf npi inv chol cho_solve slogdet gs' lbfgsb direct cma time_ minimize aft prior' (moved_gpo o) (cm X) Y samp num mlm seed).
Proof.
  intros H S. unfold gp_optimize_full, gp_optimize. rewrite nrows_conv. cbn [mcols conv_mat]. cbn [moved_gpo go_range go_norm go_acq go_cov go_opt_bo].
  assert (EL : @List.length (N * N) (conv_range ax (go_range N o)) = @List.length (N * N) (go_range N o)) by exact (conv_range_len ax (go_range N o) H). rewrite EL.
  do 5 (st; [apply rel_lift_eq|]). st; [apply otick_rel|]. st; [apply rel_lift_eq|]. rename a5 into Yn. st; [apply otick_rel|].
  st; [exact (surrogate_rel o mlm X Yn S)|]. rename a6 into f. st; [apply ogetS_rel|]. st; [apply oputS_rel|]. st; [apply otick_rel|]. st; [apply otick_rel|].
  set (fneg := fun pts => match f with None => _ | Some _ => _ end).
  match goal with |- context [optimize_acq N W gs' lbfgsb direct cma (gp_state N) _ _ ?g _ _ _] => set (fneg' := g) end.
  assert (HF : forall pts, Forall sized pts -> fneg' (map ci pts) = fneg pts).
  { intros pts F. unfold fneg, fneg'. destruct f as [[[c i] h]|]; [|reflexivity]. now rewrite (gp_acq_conv ax HT nexp nlog prior prior' HP cdf pdf (List.length (go_range N o)) (go_acq N o) (go_cov N o) X Yn c i h pts S F). }
  eapply rel_bind; [exact (opt_conv W (gp_state N) gs gs' lbfgsb direct cma HG HS HL HD HC fneg fneg' HF (go_opt_bo N o) (go_range N o) samp num seed H)|]. intros [p P] ? (-> & LP & SP). cbn [fst snd] in *.
  eapply rel_bind; [apply rel_lift; now apply point_check_conv|]. clear p LP. intros p ? (-> & LP).
  eapply rel_bind; [apply rel_lift; now apply points_check_conv|]. clear P SP. intros P ? (-> & SP). st; [apply otick_rel|].
  st; [apply rel_lift; match goal with |- rres _ ?a ?b => change b with (fneg' (map ci (mrows P))); change a with (fneg (mrows P)) end; rewrite (HF (mrows P) SP); apply rres_refl|]. st; [apply otick_rel|].
  destruct f as [[[c i] h]|]; [|apply rel_raise]. apply rel_ret. cbn. auto.
Qed.
Lemma tp_conv o X Y samp num seed : List.length (to_range N o) = nd -> sizedm X ->
  rel (@eq (list (dict N) * W)) RE (fun p p' => p' = (ci (fst p), conv_gp_info ax (snd p)) /\ (sized (fst p) /\ sizedm (gi_points N mx (snd p))))
    (tp_optimize_full nexp nlog cdf pdf npi inv slogdet ngamma ndigamma gs lbfgsb direct cma time_ minimize aft prior o X Y samp num seed)
    (tp_optimize_full nexp nlog cdf pdf npi inv slogdet ngamma ndigamma gs' lbfgsb direct cma time_ minimize aft prior' (moved_tpo o) (cm X) Y samp num seed).
Proof.
  intros H S. unfold tp_optimize_full, tp_optimize. rewrite nrows_conv. cbn [mcols conv_mat]. cbn [moved_tpo to_range to_norm to_acq to_cov to_opt_bo to_opt_tp to_ard].
  assert (EL : @List.length (N * N) (conv_range ax (to_range N o)) = @List.length (N * N) (to_range N o)) by exact (conv_range_len ax (to_range N o) H). rewrite EL.
  do 4 (st; [apply rel_lift_eq|]). st; [apply otick_rel|]. st; [apply rel_lift_eq|]. rename a4 into Yn. st; [apply otick_rel|]. eapply rel_bind with (RA := eq); [apply onote_rel|]. intros ? ? _.
  st; [apply oonW_rel; intros w; now apply tp_fit_conv|]. destruct a6 as [[c i] h]. st; [apply ogetS_rel|]. st; [apply oputS_rel|]. st; [apply otick_rel|]. st; [apply otick_rel|].
  set (fneg := fun pts => rbind (tp_acq_full nexp nlog cdf pdf prior (List.length (to_range N o)) (to_acq N o) (to_cov N o) X Yn c i h pts) _).
  match goal with |- context [optimize_acq N W gs' lbfgsb direct cma (list (dict N)) _ _ ?g _ _ _] => set (fneg' := g) end.
  assert (HF : forall pts, Forall sized pts -> fneg' (map ci pts) = fneg pts).
  { intros pts F. unfold fneg, fneg'. now rewrite (tp_acq_conv ax HT nexp nlog prior prior' HP cdf pdf (List.length (to_range N o)) (to_acq N o) (to_cov N o) X Yn c i h pts S F). }
  eapply rel_bind; [exact (opt_conv W (list (dict N)) gs gs' lbfgsb direct cma HG HS HL HD HC fneg fneg' HF (to_opt_bo N o) (to_range N o) samp num seed H)|]. intros [p P] ? (-> & LP & SP). cbn [fst snd] in *.
  eapply rel_bind; [apply rel_lift; now apply point_check_conv|]. clear p LP. intros p ? (-> & LP).
  eapply rel_bind; [apply rel_lift; now apply points_check_conv|]. clear P SP. intros P ? (-> & SP). st; [apply otick_rel|].
  st; [apply rel_lift; match goal with |- rres _ ?a ?b => change b with (fneg' (map ci (mrows P))); change a with (fneg (mrows P)) end; rewrite (HF (mrows P) SP); apply rres_refl|]. st; [apply otick_rel|].
  apply rel_ret. cbn. auto.
Qed.
End Axes.

(** ** BayesianOptimization(...).optimize *)
Section Program.
Context (ax : axes) (HT : translation ax).
Notation HA := (translation_sound ax HT).
Notation nd := (List.length ax).
Notation ci := (conv_in ax).
Notation cm := (conv_mat ax).
Notation sizedm := (sizedm ax).
Notation sized := (fun x : list N => List.length x = nd).
Context (W : Type).

Lemma untraced_conv {St A} (toinfo : A -> info N) (fi : A -> A) (m m' : M (St * W) (fitev N) (list N * A)) :
  (forall g, toinfo (fi g) = conv_info ax (toinfo g)) ->
  rel (@eq (St * W)) (fun e e' => e' = conv_fitev ax e) (fun p p' => p' = (ci (fst p), fi (snd p)) /\ (sized (fst p) /\ sizedm (in_points (toinfo (snd p))))) m m' -> forall sw,
  untraced N W toinfo m' sw = (let (sw', r) := untraced N W toinfo m sw in (sw', rmap (conv_proposal ax) r)) /\
  (forall sw' p, untraced N W toinfo m sw = (sw', Ok p) -> sized (fst p) /\ sizedm (in_points (snd p))).
Proof.
  intros HI HR sw. unfold untraced.
  destruct (rel_converted (conv_fitev ax) (fun p => (ci (fst p), fi (snd p))) (fun p => sized (fst p) /\ sizedm (in_points (toinfo (snd p)))) m m' HR sw) as (E & S). rewrite E.
  destruct (m sw) as [[sw' t] [p|e]] eqn:EO; cbn [converted rmap].
  - split; [unfold conv_proposal; cbn [fst snd]; now rewrite HI|]. intros w' q Q. injection Q as _ <-. exact (S _ _ _ eq_refl).
  - split; [reflexivity|discriminate].
Qed.

Context (gs gs' : string -> Z -> option Z -> W -> W * res (list (list N))) (time_ : W -> W * N) (f f' : list N -> W -> W * res N).
Context (HG : forall m num seed w, gs' m num seed w = let (w', r) := gs m num seed w in (w', rmap (map ci) r)).
Context (HS : forall m num seed w w' l, gs m num seed w = (w', Ok l) -> Forall sized l).
Context (HF : same_target ax f f').
Lemma run_gen {St} (s0 : St) (single single' : mat N -> list N -> St * W -> (St * W) * res (list N * info N)) meth it ni seed w :
  (forall X Y sw, sizedm X -> single' (cm X) Y sw = (let (sw', r) := single X Y sw in (sw', rmap (conv_proposal ax) r)) /\
    (forall sw' p, single X Y sw = (sw', Ok p) -> sized (fst p) /\ sizedm (in_points (snd p)))) ->
  forget W (run_class N W gs' time_ f' single' meth it ni seed) s0 w = converted (conv_event ax) (conv_run ax) (forget W (run_class N W gs time_ f single meth it ni seed) s0 w).
Proof.
  intros HI. assert (Q : rel eq (fun e e' => e' = conv_event ax e) (fun r r' => r' = conv_run ax r /\ True) (run_class N W gs time_ f single meth it ni seed) (run_class N W gs' time_ f' single' meth it ni seed)).
  { unfold run_class. apply (optimize_conv ax HT).
    - intros x [u w0] L. unfold onsnd. cbn [snd fst]. now rewrite (HF x w0 L).
    - exact HI.
    - intros m n s [u w0]. unfold onsnd, BOModel.get_initials. cbn [fst snd]. rewrite HG. destruct (gs m n s w0) as [w1 [l|e]] eqn:EG; cbn [rmap rbind].
      + pose proof (HS _ _ _ _ _ _ EG) as F. rewrite (array_conv ax l F). split; [reflexivity|]. intros w' X Q. injection Q as _ Q. unfold MoveProofs.sizedm. now rewrite (array_sized l X Q).
      + split; [reflexivity|discriminate]. }
  destruct (rel_converted (conv_event ax) (conv_run ax) (fun _ => True) _ _ Q (s0, w)) as (E & _). unfold forget. rewrite E.
  match goal with |- context [converted _ _ ?m] => destruct m as [[sw t] r] end. reflexivity.
Qed.
End Program.

Section Whole.
Context (ax : axes) (HT : translation ax).
Notation HA := (translation_sound ax HT).
Notation nd := (List.length ax).
Definition moved (m : bo_model N) : bo_model N :=
  match m with MGP _ o => MGP N (moved_gpo ax o) | MTP _ o => MTP N (moved_tpo ax o) | MRF _ o => MRF N (mkrfo N (conv_range ax (ro_range N o)) (ro_acq N o) (ro_norm N o)) end.
Definition range_of (m : bo_model N) : list (N * N) := match m with MGP _ o => go_range N o | MTP _ o => to_range N o | MRF _ o => ro_range N o end.
Definition inits_alike (r r' : res (bo_model N)) (rng : list (N * N)) : Prop := r' = rmap moved r /\ (forall m, r = Ok m -> range_of m = rng).
Lemma bo_init_any da ca a : List.length (a_range N a) = nd -> inits_alike (bo_init N da ca a) (bo_init N da ca (with_range (conv_range ax (a_range N a)) a)) (a_range N a).
Proof.
  intros H. assert (K : forall e rng, inits_alike (Raise e) (Raise e) rng) by (intros; split; [reflexivity|discriminate]).
  unfold bo_init. cbn [with_range a_range a_num_iter a_surrogate a_cov a_acq a_norm a_ard a_init a_samp a_opt_gp a_opt_tp a_opt_bo a_mlm a_msel a_num_samples].
  unfold rf_init, gp_init, tp_init, base_init.
  rewrite (range_ok_conv ax HA _ H). replace (@List.length (N * N) (conv_range ax (a_range N a))) with (@List.length (N * N) (a_range N a)) by (symmetry; exact (conv_range_len ax _ H)).
  destruct (range_ok N (a_range N a)); [|apply K]. cbn [assert_ rbind].
  do 12 (match goal with |- context [assert_ ?b] => destruct b end; [cbn [assert_ rbind]|apply K]).
  destruct (check_optimizer_method_bo _ _ _ _) as [ob|e]; cbn [rbind]; [|apply K].
  destruct (str_in (a_surrogate N a) _); [|destruct (String.eqb (a_surrogate N a) "gp"); [|destruct (String.eqb (a_surrogate N a) "tp"); [|apply K]]].
  - destruct (assert_ true) as [u|e]; [cbn [rbind]|apply K]. repeat (match goal with |- context [assert_ ?b] => destruct b end; [cbn [assert_ rbind]|apply K]).
    destruct (check_optimizer_method_bo _ _ _ _) as [ob'|e]; cbn [rbind]; [|apply K]. split; [reflexivity|]. intros m Q. injection Q as <-. reflexivity.
  - repeat (match goal with |- context [assert_ ?b] => destruct (assert_ b) end; [cbn [rbind]|apply K]).
    destruct (check_optimizer_method_bo _ _ _ _) as [ob'|e]; cbn [rbind]; [|apply K]. split; [reflexivity|]. intros m Q. injection Q as <-. reflexivity.
  - repeat (match goal with |- context [assert_ ?b] => destruct (assert_ b) end; [cbn [rbind]|apply K]).
    destruct (check_optimizer_method_bo _ _ _ _) as [ob'|e]; cbn [rbind]; [|apply K]. split; [reflexivity|]. intros m Q. injection Q as <-. reflexivity.
Qed.

Context (nexp nlog cdf pdf : N -> N) (npi : N) (inv chol : mx -> res mx) (cho_solve : mx -> mx -> res mx) (slogdet : mx -> N * N) (ngamma ndigamma : N -> N) (W G : Type)
  (mkstate : option Z -> W -> W * res G) (unit_draw gauss_draw : G -> G * N) (qmc : qmc_kind -> nat -> option Z -> Z -> W -> W * res (list (list N))).
Context (lbfgsb : (list N -> res N) -> list N -> list (N * N) -> W -> W * res (list N)) (direct : (list N -> res N) -> list (N * N) -> W -> W * res (list N))
  (cma : (list N -> res N) -> list N -> list (N * N) -> W -> W * res (list N)) (time_ : W -> W * N) (minimize : W -> minimizer N) (aft : mat N -> list N -> string -> W -> W) (prior prior' : prior N).
Context (choice : nat -> nat -> bool -> W -> W * res (list nat)) (uniform : N -> N -> W -> W * res N) (trunc : N -> option Z) (schedule : nat -> list nat).
Context (f f' : list N -> W -> W * res N).
Context (HU : uniform_affine uniform) (HQ : qmc_rows qmc) (HF : same_target ax f f').
Context (HL : moves_along ax lbfgsb) (HD : moves_with ax direct) (HC : moves_along ax cma) (HP : same_prior ax prior prior') (HAF : same_after ax aft).
Theorem program_moved da ca a num_init seed w : List.length (a_range N a) = nd ->
  let range' := conv_range ax (a_range N a) in
  bo_program N nexp nlog cdf pdf npi inv chol cho_solve slogdet ngamma ndigamma W (get_samples N mkstate unit_draw gauss_draw qmc range') lbfgsb direct cma time_ minimize aft prior'
    choice uniform trunc schedule f' da ca (with_range range' a) num_init seed w =
  converted (conv_event ax) (conv_run ax)
    (bo_program N nexp nlog cdf pdf npi inv chol cho_solve slogdet ngamma ndigamma W (get_samples N mkstate unit_draw gauss_draw qmc (a_range N a)) lbfgsb direct cma time_ minimize aft prior
      choice uniform trunc schedule f da ca a num_init seed w).
Proof.
  intros H range'. unfold bo_program. destruct (bo_init_any da ca a H) as (E & R). fold range' in E. rewrite E.
  cbn [with_range a_range a_num_iter a_init a_samp a_num_samples a_mlm].
  set (gs := get_samples N mkstate unit_draw gauss_draw qmc (a_range N a)). set (gs' := get_samples N mkstate unit_draw gauss_draw qmc range').
  assert (HGS : forall m num seed w, gs' m num seed w = let (w', r) := gs m num seed w in (w', rmap (map (conv_in ax)) r)) by (intros; now apply samples_conv; [exact HA|]).
  assert (HSZ : forall m num seed w w' l, gs m num seed w = (w', Ok l) -> Forall (fun x => List.length x = List.length ax) l) by (intros m n s w0 w' l Q; eapply samples_sized; eassumption).
  clearbody gs gs'. destruct (bo_init N da ca a) as [m|e]; cbn [rmap]; [|reflexivity]. specialize (R m eq_refl).
  destruct m as [o|o|o]; cbn [moved range_of] in *.
  - apply (run_gen ax HT W gs gs' time_ f f' HGS HSZ HF). intros X Y sw SX. unfold gp_single. apply (untraced_conv ax W (gp_to_info N mx) (conv_gp_info ax)); [reflexivity|].
    apply (gp_conv ax HT); try assumption. now rewrite R.
  - apply (run_gen ax HT W gs gs' time_ f f' HGS HSZ HF). intros X Y sw SX. unfold tp_single. apply (untraced_conv ax W (gp_to_info N mx) (conv_gp_info ax)); [reflexivity|].
    apply (tp_conv ax HT); try assumption. now rewrite R.
  - apply (run_gen ax HT W gs gs' time_ f f' HGS HSZ HF). intros X Y sw SX. unfold rf_single. apply (untraced_conv ax W (@rf_to_info N (list (tree N))) (conv_rf_info ax)); [reflexivity|].
    destruct o as [r acq nrm]. cbn [ro_range ro_acq ro_norm] in *. subst r. exact (rf_conv ax HA cdf pdf nlog W choice uniform trunc schedule HU gs gs' time_ HGS HSZ (a_range N a) acq nrm X Y (a_samp N a) (a_num_samples N a) None H SX).
Qed.
End Whole.

(** ** BOwGP.optimize and BOwTP.optimize with the samplers of the code *)
Section Proposals.
Context (ax : axes) (HT : translation ax).
Context (nexp nlog cdf pdf : N -> N) (npi : N) (inv chol : mx -> res mx) (cho_solve : mx -> mx -> res mx) (slogdet : mx -> N * N) (ngamma ndigamma : N -> N) (W G : Type)
  (mkstate : option Z -> W -> W * res G) (unit_draw gauss_draw : G -> G * N) (qmc : qmc_kind -> nat -> option Z -> Z -> W -> W * res (list (list N))).
Context (lbfgsb : (list N -> res N) -> list N -> list (N * N) -> W -> W * res (list N)) (direct : (list N -> res N) -> list (N * N) -> W -> W * res (list N))
  (cma : (list N -> res N) -> list N -> list (N * N) -> W -> W * res (list N)) (time_ : W -> W * N) (minimize : W -> minimizer N) (aft : mat N -> list N -> string -> W -> W) (prior prior' : prior N).
Context (HQ : qmc_rows qmc) (HL : moves_along ax lbfgsb) (HD : moves_with ax direct) (HC : moves_along ax cma) (HP : same_prior ax prior prior') (HAF : same_after ax aft).
Theorem gp_moved (o : gp_obj N) X Y samp num mlm seed s : List.length (go_range N o) = List.length ax -> (forall x, In x (mrows X) -> List.length x = List.length ax) ->
  gp_optimize_full nexp nlog cdf pdf npi inv chol cho_solve slogdet (get_samples N mkstate unit_draw gauss_draw qmc (conv_range ax (go_range N o))) lbfgsb direct cma time_ minimize aft prior'
    (moved_gpo ax o) (conv_mat ax X) Y samp num mlm seed s =
  converted (conv_fitev ax) (fun p => (conv_in ax (fst p), conv_gp_info ax (snd p)))
    (gp_optimize_full nexp nlog cdf pdf npi inv chol cho_solve slogdet (get_samples N mkstate unit_draw gauss_draw qmc (go_range N o)) lbfgsb direct cma time_ minimize aft prior o X Y samp num mlm seed s).
Proof.
  intros H HX. assert (SX : sizedm ax X) by now apply Forall_forall.
  set (gs := get_samples N mkstate unit_draw gauss_draw qmc (go_range N o)). set (gs' := get_samples N mkstate unit_draw gauss_draw qmc (conv_range ax (go_range N o))).
  assert (HGS : forall m num seed w, gs' m num seed w = let (w', r) := gs m num seed w in (w', rmap (map (conv_in ax)) r)) by (intros; now apply samples_conv; [exact (translation_sound ax HT)|]).
  assert (HSZ : forall m num seed w w' l, gs m num seed w = (w', Ok l) -> Forall (fun x => List.length x = List.length ax) l) by (intros m n s0 w0 w' l Q; eapply samples_sized; eassumption).
  clearbody gs gs'.
  exact (proj1 (rel_converted (conv_fitev ax) (fun p => (conv_in ax (fst p), conv_gp_info ax (snd p))) (fun p => List.length (fst p) = List.length ax /\ sizedm ax (gi_points N mx (snd p))) _ _
    (gp_conv ax HT nexp nlog cdf pdf npi inv chol cho_solve slogdet W gs gs' time_ lbfgsb direct cma minimize aft prior prior' HGS HSZ HL HD HC HP HAF o X Y samp num mlm seed H SX) s)).
Qed.
Theorem tp_moved (o : tp_obj N) X Y samp num seed s : List.length (to_range N o) = List.length ax -> (forall x, In x (mrows X) -> List.length x = List.length ax) ->
  tp_optimize_full nexp nlog cdf pdf npi inv slogdet ngamma ndigamma (get_samples N mkstate unit_draw gauss_draw qmc (conv_range ax (to_range N o))) lbfgsb direct cma time_ minimize aft prior'
    (moved_tpo ax o) (conv_mat ax X) Y samp num seed s =
  converted (conv_fitev ax) (fun p => (conv_in ax (fst p), conv_gp_info ax (snd p)))
    (tp_optimize_full nexp nlog cdf pdf npi inv slogdet ngamma ndigamma (get_samples N mkstate unit_draw gauss_draw qmc (to_range N o)) lbfgsb direct cma time_ minimize aft prior o X Y samp num seed s).
Proof.
  intros H HX. assert (SX : sizedm ax X) by now apply Forall_forall.
  set (gs := get_samples N mkstate unit_draw gauss_draw qmc (to_range N o)). set (gs' := get_samples N mkstate unit_draw gauss_draw qmc (conv_range ax (to_range N o))).
  assert (HGS : forall m num seed w, gs' m num seed w = let (w', r) := gs m num seed w in (w', rmap (map (conv_in ax)) r)) by (intros; now apply samples_conv; [exact (translation_sound ax HT)|]).
  assert (HSZ : forall m num seed w w' l, gs m num seed w = (w', Ok l) -> Forall (fun x => List.length x = List.length ax) l) by (intros m n s0 w0 w' l Q; eapply samples_sized; eassumption).
  clearbody gs gs'.
  exact (proj1 (rel_converted (conv_fitev ax) (fun p => (conv_in ax (fst p), conv_gp_info ax (snd p))) (fun p => List.length (fst p) = List.length ax /\ sizedm ax (gi_points N mx (snd p))) _ _
    (tp_conv ax HT nexp nlog cdf pdf npi inv slogdet ngamma ndigamma W gs gs' time_ lbfgsb direct cma minimize aft prior prior' HGS HSZ HL HD HC HP HAF o X Y samp num seed H SX) s)).
Qed.
End Proposals.
