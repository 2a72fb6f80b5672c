(** Thompson sampling on exact reals: which runs complete. *)
From Verif Require Import Base Lists Num NumLaws Monad UtilsModel UtilsSpec HypsModel HypsSpec HypsProofs CovModel KernelSpec CovSpec CovProofs CovProofs2
  GPProofs2 GPProofs3 GPModel GPSpec GPProofs LikModel LikSpec Contracts HypOptModel HypOptSpec HypOptProofs WrapperModel BOModel BOAcqModel
  ThompsonModel ThompsonSpec ThompsonProofs ThompsonProofs2 PredictOpt ThompsonReal BOTotalSpec BOTotalProofs BOTotalRun BOTotalOpt BOTotalFull BOTotalSet ThompsonRunSpec.
From Coq Require Import List ZArith Bool String Reals Lra Lia Arith.
Import ListNotations.
Local Open Scope string_scope.
Set Implicit Arguments.
Unset Strict Implicit.
Unset Asymmetric Patterns.
Set Bullet Behavior "Strict Subproofs".
Local Notation N := NumR.

Lemma nil_or_pos {A} (l : list A) n : List.length l = n -> (0 < n)%nat -> l <> [].
Proof. intros <- H ->. cbn in H. lia. Qed.

Lemma combine_add0 (r z : list R) : List.length r = List.length z -> (forall v, In v z -> v = 0%R) -> map (fun p => (fst p + snd p)%R) (combine r z) = r.
Proof.
  revert z. induction r as [|a r IH]; intros [|b z] L H; cbn in *; try discriminate; [reflexivity|]. rewrite (H b (or_introl eq_refl)), Rplus_0_r. f_equal. apply IH; [lia|auto].
Qed.
(** adding zero times the identity changes nothing *)
Lemma no_jitter n (a : list (list R)) : is_mx n n a -> madd N a (mmap N (nmul N (nofZ N 0)) (eye N (List.length a) (List.length a))) = a.
Proof.
  intros [L F]. replace (List.length a) with n by (symmetry; exact L). unfold madd, map2.
  assert (G : forall (b z : list (list R)), List.length b = List.length z -> (forall r, In r b -> List.length r = n) -> (forall r, In r z -> List.length r = n /\ forall v, In v r -> v = 0%R) ->
    map (fun p => map (fun p => nadd N (fst p) (snd p)) (combine (fst p) (snd p))) (combine b z) = b).
  { induction b as [|r b IH]; intros [|z0 z] LB FB FZ; cbn [combine map fst snd List.length] in *; try discriminate; [reflexivity|]. f_equal.
    - destruct (FZ z0 (or_introl eq_refl)) as (L0 & Z0). apply (@combine_add0 r z0); [rewrite L0; apply FB; now left|exact Z0].
    - apply IH; [lia|intros; apply FB; now right|intros; apply FZ; now right]. }
  apply G; [|exact F|].
  - unfold mmap, eye, mgen. rewrite !map_length, seq_length. exact L.
  - intros r I. unfold mmap, eye, mgen in I. apply in_map_iff in I as (q0 & <- & I). apply in_map_iff in I as (i & <- & _).
    rewrite !map_length, seq_length. split; [reflexivity|]. intros v I. apply in_map_iff in I as (e & <- & _). cbn. lra.
Qed.

Section Run.
Variables (inv chol : list (list R) -> res (list (list R))) (cho_solve : list (list R) -> list (list R) -> res (list (list R)))
  (slogdet : list (list R) -> R * R) (minimize : minimizer NumR).
Hypotheses (HI : inv_contract inv) (HC : chol_contract chol) (HS : cho_solve_contract cho_solve) (HD : slogdet_contract slogdet) (HM : proper_minimizer minimize).
Context (W G : Type) (mvn : list N -> list (list N) -> W -> W * res G) (rvs : G -> W -> W * res (list N)) (lae da ca : bool).
Context (get_samples get_initials : list (N * N) -> string -> Z -> option Z -> W -> W * res (list (list N))).
Context (target : list N -> W -> W * res N) (range : list (N * N)).
Notation d := (List.length range).
Hypotheses (SR : sound_range range) (HG : proper_samples range (get_samples range)) (HGI : proper_initials range (get_initials range)) (HT : returns_in range target)
  (HN : proper_normal mvn rvs).

(** prediction with optimised hyperparameters: a mean per point and a symmetric positive definite covariance *)
Lemma predict_total X Y (Xs : mat N) : data d X Y -> mcols Xs = d -> (forall x, In x (mrows Xs) -> List.length x = d) ->
  exists mu sd S, @predict_with_optimized_hyps NumR exp ln PI inv chol cho_solve slogdet minimize (A2 N X) (to_column N Y) (A2 N Xs) "matern52" "BFGS" None true = Ok (mu, sd, S) /\
    List.length mu = nrows Xs /\ is_mx (nrows Xs) (nrows Xs) S /\ CovSpec.symmetric (nrows Xs) S /\ definite (nrows Xs) S.
Proof.
  intros D CX FX. assert (BK : In "matern52" base_kernels) by (cbn; tauto). pose proof (data_fits BK D) as F.
  assert (Fs : fits "matern52" (A2 N Xs) d).
  { split; [intros r I; exact (eq_trans (FX r I) (eq_sym CX))|]. split; [discriminate|exact CX]. }
  assert (HY : column (alen (A2 N X)) (to_column N Y)) by (apply column_of_ok; apply D).
  assert (HP : prior_is (None : prior N) (fun _ => 0%R)) by (intros e; reflexivity).
  destruct (fits_shape_pair F Fs) as (CK & CK1 & VA).
  rewrite (@gp_predict_opt NumR exp ln PI inv chol cho_solve slogdet minimize (A2 N X) (to_column N Y) (A2 N Xs) None "matern52" "BFGS" true (VA _ HY) CK (or_introl eq_refl)).
  destruct (@gp_fit_total inv chol cho_solve slogdet exp exp minimize None (fun _ => 0%R) HI HC HS HD HM HP "matern52" d X Y BK D "BFGS" "ml" true (or_introl eq_refl) (or_introl eq_refl))
    as (C & B & h & E & (ls & s & nz & x & HH & _) & _).
  setoid_rewrite E. destruct (fits_facts F) as (_ & _ & HK). destruct (HK ls s) as [K EK].
  assert (RG : regression "matern52" h d ls s nz K None (fun _ => 0%R)) by (constructor; [exact HH|exact EK|exact HP]).
  destruct (posterior_definite RG HI F Fs HY) as (mu & sd & S & EP & S1 & _ & S2 & SY & _ & SD & _). exists mu, sd, S. split; [exact EP|]. split; [exact (proj1 S1)|]. auto.
Qed.

(** the first rung of the jitter ladder is enough *)
Lemma ladder_total (mu : list N) Sg w : is_mx (List.length mu) (List.length mu) Sg -> CovSpec.symmetric (List.length mu) Sg -> definite (List.length mu) Sg ->
  exists w' v, sample_ladder N mvn rvs lae mu Sg (list_jitters N) w = (w', [TsDraw v], Ok (np_stack N (List.length mu) [v])) /\ List.length v = List.length mu.
Proof.
  intros S1 S2 S3. unfold list_jitters. cbn [sample_ladder].
  assert (NJ : madd N Sg (mmap N (nmul N (nofZ N 0)) (eye N (@List.length (list N) Sg) (@List.length (list N) Sg))) = Sg) by exact (no_jitter S1). rewrite NJ. unfold sample_functions, bind, lift, ext.
  rewrite (@has_shape_mx (List.length mu) (List.length mu)) by exact S1. cbn [assert_].
  destruct (HN w S1 S2 S3) as (w2 & g & -> & HR). unfold draws. change (seq 0 (Z.to_nat 1)) with [0%nat]. cbn [mmapM]. unfold draw, bind, ret.
  destruct (HR w2) as (w3 & v & -> & LV). exists w3, v. split; [reflexivity|exact LV].
Qed.

Notation iteration := (ts_iteration mvn rvs lae exp ln PI inv chol cho_solve slogdet minimize da ca get_samples range).
Lemma range_checked : forallb (fun b => nle NumR (fst b) (snd b)) range = true.
Proof. apply forallb_forall. intros b I. apply Flocq.Core.Raux.Rle_bool_true. exact (proj1 (Forall_forall _ _) SR b I). Qed.

(** an iteration up to the sampled function *)
Lemma iteration_steps X Y (norm : bool) method num w : data d X Y -> In method ["grid"; "sobol"; "halton"; "uniform"; "gaussian"] -> (0 < num)%Z ->
  exists w1 pts w2 v, get_samples range method num None w = (w1, Ok pts) /\ pts <> [] /\ Forall (in_range range) pts /\ (method <> "grid" -> List.length pts = Z.to_nat num) /\
    List.length v = List.length pts /\
    iteration X Y norm method num w = (w2, [TsCands pts; TsDraw v],
      match nth_error pts 0 with Some p => if Nat.eqb (List.length pts) 1 then Raise IndexError else Ok p | None => Raise IndexError end).
Proof.
  intros D HMeth HNum. pose proof D as (RX & CX & LX & NY). destruct (@HG method num None w HMeth HNum) as (w1 & pts & EG & NP & FP & LP).
  assert (F2 : Forall (fun p : list N => List.length p = d) pts) by (eapply Forall_impl; [|exact FP]; intros p; apply range_len).
  assert (EX : np_array_rows pts = Ok (mkmat pts d)) by (apply np_array_ok; [exact NP|exact F2]).
  destruct (normal_or_not norm NY) as (Yn & EN & LN). pose proof (data_resp D LN) as DN.
  destruct (@predict_total X Yn (mkmat pts d) DN eq_refl) as (mu & sd & Sg & EP & Lmu & S1 & S2 & S3); [rewrite Forall_forall in F2; exact F2|].
  assert (LM : List.length (map (hd (nofZ N 0)) mu) = List.length pts) by (rewrite map_length; exact Lmu).
  change (nrows (mkmat pts d)) with (List.length pts) in *. rewrite <- LM in S1, S2, S3. destruct (@ladder_total _ Sg w1 S1 S2 S3) as (w2 & v & EL & LV).
  exists w1, pts, w2, v. split; [exact EG|]. split; [exact NP|]. split; [exact FP|]. split; [exact LP|]. split; [exact (eq_trans LV LM)|].
  destruct pts as [|p0 pts]; [congruence|].
  unfold ts_iteration. unfold bind, lift, points at 1. cbv beta.
  change (@mcols R X) with (@mcols (car N) X) in CX.
  replace (Nat.eqb (nrows X) (List.length Y)) with true by (symmetry; apply Nat.eqb_eq; exact LX).
  replace (Nat.eqb d (mcols X)) with true by (symmetry; apply Nat.eqb_eq; symmetry; exact CX). cbn [assert_].
  setoid_rewrite EN. rewrite (default_bo_ok da ca range_checked), EG. cbn [app]. rewrite EX, EP, EL, LM. cbn [app nth_error List.length]. unfold np_stack.
  destruct (Nat.eqb (S (List.length pts)) 1) eqn:E1; [reflexivity|]. destruct v as [|v0 v]; [rewrite LM in LV; discriminate LV|]. reflexivity.
Qed.

Notation loop := (ts_loop mvn rvs lae exp ln PI inv chol cho_solve slogdet minimize da ca get_samples target range).
Notation run := (thompson_sampling_gp mvn rvs lae exp ln PI inv chol cho_solve slogdet minimize da ca get_samples get_initials target range).
Definition seen (X : mat N) (Y : list N) : Prop := data d X Y /\ Forall (in_range range) (mrows X).

Lemma runs_target x w (Q : N -> W -> Prop) : in_range range x -> (forall y w, Q y w) -> runs (ts_target N target x) w Q.
Proof. intros HX H. destruct (@HT x w HX) as (w' & y & E). unfold runs, ts_target, ext_ev. rewrite E. eauto 6. Qed.

Lemma loop_runs norm method num : In method ["sobol"; "halton"; "uniform"; "gaussian"] -> (2 <= num)%Z ->
  forall n X Y w, seen X Y -> runs (loop norm method num n X Y) w (fun r _ => seen (fst r) (snd r) /\ nrows (fst r) = (nrows X + n)%nat).
Proof.
  intros HMeth HNum. assert (NG : method <> "grid") by (intros Q; rewrite Q in HMeth; cbn in HMeth; intuition discriminate).
  induction n as [|n IH]; intros X Y w HX; cbn [ts_loop]; [apply runs_ret; cbn; split; [exact HX|lia]|].
  pose proof HX as (D & FX). pose proof D as (RX & CX & LX & NY).
  destruct (@iteration_steps X Y norm method num w D (or_intror HMeth)) as (w1 & pts & w2 & v & EG & NP & FP & LP & LV & E); [lia|]. specialize (LP NG).
  destruct pts as [|p pts]; [congruence|]. cbn [nth_error] in E. replace (Nat.eqb (List.length (p :: pts)) 1) with false in E by (symmetry; apply Nat.eqb_neq; rewrite LP; lia).
  inversion FP as [|? ? HP _]; subst.
  eapply runs_bind with (P := fun q _ => q = p); [unfold runs; rewrite E; eauto|]. intros q w3 ->.
  eapply runs_bind with (P := fun r _ => r = (mkmat (mrows X ++ [p]) (mcols X), p)).
  { eapply runs_lift; [|reflexivity]. unfold vstack_row.
    assert (L2 : Nat.eqb (@List.length (car N) p) (mcols X) = true) by (apply Nat.eqb_eq; rewrite CX; exact (range_len HP)). rewrite L2. reflexivity. }
  intros r w4 ->. eapply runs_bind with (P := fun _ _ => True); [apply runs_target; auto|]. intros y w5 _.
  eapply runs_weaken; [apply IH|].
  - unfold seen, data, nrows. cbn [mrows mcols]. rewrite !app_length. cbn [List.length].
    split; [|apply Forall_app; split; [exact FX|repeat constructor; exact HP]].
    split; [intros x Hx; apply in_app_or in Hx as [Hx|[<-|[]]]; [now apply RX|exact (range_len HP)]|].
    split; [exact CX|]. split; [unfold nrows in LX; now rewrite LX|]. destruct Y; discriminate.
  - intros r w6 (A & B). split; [exact A|]. rewrite B. unfold nrows. cbn [mrows]. rewrite app_length. cbn. lia.
Qed.

Lemma targets_traced (l : list (list N)) : forall w, Forall (in_range range) l -> traces (mmapM (ts_target N target) l) w
  (fun t ys _ => List.length ys = List.length l /\ map fst (ts_calls t) = l).
Proof.
  induction l as [|x l IH]; intros w F; cbn [mmapM]; [exists w, [], []; cbn; auto|]. inversion F as [|? ? Hx F']; subst.
  destruct (@HT x w Hx) as (w2 & y & E).
  eapply traces_bind with (P := fun t _ _ => map fst (ts_calls t) = [x]).
  { exists w2, [@TsTarget N x (Ok y)], y. unfold ts_target, ext_ev. rewrite E. auto. }
  intros t1 y1 w3 T1. eapply traces_bind; [apply (IH w3 F')|]. intros t2 ys w4 (LY & T2).
  exists w4, [], (y1 :: ys). split; [reflexivity|]. rewrite app_nil_r. unfold ts_calls in *. rewrite flat_map_app, map_app, T1, T2. cbn. split; [now f_equal|reflexivity].
Qed.
Lemma initial_steps method num_init w : In method ["sobol"; "halton"; "uniform"; "gaussian"] -> (0 < num_init)%Z ->
  exists w1 l, get_initials range method num_init None w = (w1, Ok l) /\ np_array_rows l = Ok (mkmat l d) /\ l <> [] /\ Forall (in_range range) l /\ List.length l = Z.to_nat num_init.
Proof.
  intros HMeth HInit. destruct (@HGI method num_init None w HMeth HInit) as (w1 & l & E & FL & LL). exists w1, l. split; [exact E|].
  assert (NE : l <> []) by (apply (nil_or_pos LL); lia). split; [|auto]. apply np_array_ok; [exact NE|]. eapply Forall_impl; [|exact FL]. intros p; apply range_len.
Qed.
Lemma start_seen l (ys : list N) : l <> [] -> Forall (in_range range) l -> List.length ys = List.length l -> seen (mkmat l d) ys.
Proof.
  intros NE FL LY. split; [|exact FL]. split; [intros x Hx; rewrite Forall_forall in FL; exact (range_len (FL x Hx))|]. split; [reflexivity|]. split; [symmetry; exact LY|].
  intros ->. destruct l; [congruence|discriminate LY].
Qed.

Theorem run_completes num_init num_iter norm method num w : In method ["sobol"; "halton"; "uniform"; "gaussian"] -> (0 < num_init)%Z -> (2 <= num)%Z ->
  exists w' t X Y, run num_init num_iter norm method num w = (w', t, Ok (X, Y)) /\ complete_run range (Z.to_nat num_init + Z.to_nat num_iter) X Y.
Proof.
  intros HMeth HInit HNum. destruct (initial_steps w HMeth HInit) as (w1 & l & E & EX & NE & FL & LL).
  assert (RN : runs (run num_init num_iter norm method num) w (fun r _ => seen (fst r) (snd r) /\ nrows (fst r) = (Z.to_nat num_init + Z.to_nat num_iter)%nat)).
  { unfold thompson_sampling_gp. eapply runs_bind with (P := fun _ _ => True); [eapply runs_lift; [apply (default_bo_ok da ca range_checked)|exact Logic.I]|]. intros ? w0' _.
    clear E EX NE FL LL l w1. destruct (initial_steps w0' HMeth HInit) as (w1 & l & E & EX & NE & FL & LL).
    eapply runs_bind with (P := fun q _ => q = l); [unfold runs, points; rewrite E; eauto|]. intros q w2 ->.
    eapply runs_bind with (P := fun q _ => q = mkmat l d); [eapply runs_lift; [exact EX|reflexivity]|]. intros q w3 ->.
    destruct (targets_traced w3 FL) as (w4 & t & ys & E4 & LY & _).
    eapply runs_bind with (P := fun q _ => q = ys); [exists w4, t, ys; auto|]. intros q w5 ->.
    eapply runs_weaken; [apply (loop_runs norm HMeth HNum); apply (start_seen NE FL LY)|]. intros r w6 (A & B). split; [exact A|]. rewrite B. unfold nrows at 1. cbn [mrows]. f_equal. exact LL. }
  destruct RN as (w' & t & (X & Y) & ER & (((_ & _ & LX & _) & FX) & LN)). cbn [fst snd] in *. exists w', t, X, Y. split; [exact ER|]. split; [exact LN|]. split; [congruence|exact FX].
Qed.

(** with a single candidate the sampled function comes back one-dimensional: every run with an iteration fails after the initial evaluations *)
Theorem run_one_candidate num_init num_iter norm method w : In method ["sobol"; "halton"; "uniform"; "gaussian"] -> (0 < num_init)%Z -> (0 < num_iter)%Z ->
  fails (run num_init num_iter norm method 1) w IndexError (fun t => List.length (ts_calls t) = Z.to_nat num_init).
Proof.
  intros HMeth HInit HIter. assert (NG : method <> "grid") by (intros Q; rewrite Q in HMeth; cbn in HMeth; intuition discriminate).
  unfold thompson_sampling_gp.
  eapply fails_bind with (P := fun t _ _ => t = []); [exists w, [], tt; unfold lift; rewrite (default_bo_ok da ca range_checked); auto|]. intros ? ? w0 ->.
  destruct (initial_steps w0 HMeth HInit) as (w1 & l & E & EX & NE & FL & LL).
  eapply fails_bind with (P := fun t q _ => t = [TsInit l] /\ q = l); [exists w1, [TsInit l], l; unfold points; rewrite E; auto|]. intros ? ? w2 (-> & ->).
  eapply fails_bind with (P := fun t q _ => t = [] /\ q = mkmat l d); [exists w2, [], (mkmat l d); unfold lift; rewrite EX; auto|]. intros ? ? w3 (-> & ->).
  eapply fails_bind; [apply (targets_traced w3 FL)|]. intros t ys w4 (LY & T). destruct (Z.to_nat num_iter) as [|k] eqn:EK; [lia|]. cbn [ts_loop]. apply fails_first.
  destruct (start_seen NE FL LY) as (D & _).
  destruct (@iteration_steps _ _ norm method 1 w4 D (or_intror HMeth)) as (w5 & pts & w6 & v & EG & NP & FP & LP & LV & EI); [lia|]. specialize (LP NG).
  destruct pts as [|p [|q pts]]; [congruence| |discriminate LP]. cbn [nth_error List.length Nat.eqb] in EI.
  exists w6, [TsCands [p]; TsDraw v]. split; [exact EI|]. cbn [app]. unfold ts_calls in *. cbn [flat_map app]. rewrite flat_map_app. cbn [flat_map app]. rewrite app_nil_r. transitivity (List.length l); [rewrite <- T; now rewrite map_length|exact LL].
Qed.
End Run.
