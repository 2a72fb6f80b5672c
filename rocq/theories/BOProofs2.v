From Verif Require Import Base Lists Num NumLaws UtilsModel UtilsSpec UtilsProofs HypsModel HypsSpec HypsProofs
  Monad WrapperModel WrapperSpec WrapperProofs BOModel BOSpec BOProofs.
From Coq Require Import List ZArith Bool String Lia Arith.
Local Open Scope string_scope.

(** np.argmin picks the first smallest value *)
Section Proofs.
Context (N : Num) (W K : Type).
Context (get_samples : string -> Z -> option Z -> W -> W * res (list (list N))).
Context (lbfgsb : (list N -> res N) -> list N -> list (N * N) -> W -> W * res (list N)).
Context (direct : (list N -> res N) -> list (N * N) -> W -> W * res (list N)).
Context (cma : (list N -> res N) -> list N -> list (N * N) -> W -> W * res (list N)).
Context (time_ : W -> W * N).

Section TP.
Context (fit : mat N -> list N -> string -> string -> bool -> W -> W * res (K * K * dict N)).
Context (acq : string -> string -> mat N -> list N -> K -> K -> dict N -> list (list N) -> res (list N)).
Notation tp_optimize := (tp_optimize N W K get_samples lbfgsb direct cma time_ fit acq).

Definition tp_rest (o : tp_obj N) X Y samp num seed t0 Yn ts0 (f : K * K * dict N) : M (list (dict N) * W) (fitev N) (list N * gp_info N K) :=
  let '(c, i, h) := f in
  mlet ts1 <- tick N W time_ _;
  mlet ta0 <- tick N W time_ _;
  let fneg pts := do a <- acq (to_acq N o) (to_cov N o) X Yn c i h pts; Ok (neg N (scaled N a)) in
  mlet r <- optimize_acq N W get_samples lbfgsb direct cma _ (to_opt_bo N o) (to_range N o) fneg samp num seed;
  let (next_point, next_points) := r in
  mlet next_point <- lift (check_point N (to_range N o) next_point);
  mlet next_points <- lift (check_points_in_bounds N next_points (to_range N o));
  mlet ta1 <- tick N W time_ _;
  mlet acqs <- lift (fneg (mrows next_points));
  mlet t1 <- tick N W time_ _;
  ret (next_point, mkgpi N K next_points acqs Y Yn c i h (nsub N ts1 ts0) (nsub N ta1 ta0) (nsub N t1 t0)).

Lemma pres_tp_rest o X Y samp num seed t0 Yn ts0 f : pres N W (tp_rest o X Y samp num seed t0 Yn ts0 f).
Proof.
  unfold tp_rest. destruct f as [[c i] h]. apply pres_bind; [apply pres_tick|intros]. apply pres_bind; [apply pres_tick|intros].
  apply pres_bind; [apply pres_optimize_acq|intros [? ?]].
  apply pres_bind; [apply pres_lift|intros]. apply pres_bind; [apply pres_lift|intros].
  apply pres_bind; [apply pres_tick|intros]. apply pres_bind; [apply pres_lift|intros]. apply pres_bind; [apply pres_tick|intros].
  apply pres_ret.
Qed.

Lemma tp_rest_ok (O : NumOrd N) o X Y samp num seed t0 Yn ts0 f sw sw' t np gi :
  tp_rest o X Y samp num seed t0 Yn ts0 f sw = (sw', t, Ok (np, gi)) ->
  f = (gi_cov N K gi, gi_inv N K gi, gi_hyps N K gi) /\
  gi_Yorig N K gi = Y /\ gi_Ynorm N K gi = Yn /\
  inside N (to_range N o) np /\ Forall (inside N (to_range N o)) (mrows (gi_points N K gi)) /\
  mcols (gi_points N K gi) = List.length (to_range N o) /\
  let g pts := acq (to_acq N o) (to_cov N o) X Yn (gi_cov N K gi) (gi_inv N K gi) (gi_hyps N K gi) pts in
  rmap (negacq N) (g (mrows (gi_points N K gi))) = Ok (gi_acqs N K gi) /\
  exists vs i, Forall2 (fun c v => rmap (negacq N) (g [c]) = Ok [v]) (mrows (gi_points N K gi)) vs /\
    nth_error (mrows (gi_points N K gi)) i = Some np /\ first_best N vs i.
Proof.
  unfold tp_rest. destruct f as [[c i] h]. intros H. apply bind_ok in H. destruct H as (w1 & u1 & ts1 & u2 & _ & H & _).
  apply bind_ok in H. destruct H as (w2 & u3 & ta0 & u4 & _ & H & _).
  apply bind_ok in H. destruct H as (w3 & u5 & [p P] & u6 & HO & H & _).
  apply bind_ok in H. destruct H as (w4 & u7 & p' & u8 & HP & H & _).
  apply bind_ok in H. destruct H as (w5 & u9 & P' & u10 & HPs & H & _).
  apply bind_ok in H. destruct H as (w6 & u11 & ta1 & u12 & _ & H & _).
  apply bind_ok in H. destruct H as (w7 & u13 & a & u14 & HA & H & _).
  apply bind_ok in H. destruct H as (w8 & u15 & t1 & u16 & _ & H & _).
  apply lift_ok in HP. destruct HP as (HP & _). apply lift_ok in HPs. destruct HPs as (HPs & _).
  apply lift_ok in HA. destruct HA as (HA & _).
  apply ret_ok in H. destruct H as (H & _ & _). inversion H; subst. cbn [gi_points gi_acqs gi_Yorig gi_Ynorm gi_cov gi_inv gi_hyps].
  apply (optimize_acq_ok _ _ _ _ _ _ O) in HO. destruct HO as (WF & vs & k & F & A & B).
  apply check_point_ok in HP. destruct HP as (-> & HP). apply check_points_ok in HPs; [|exact WF]. destruct HPs as (-> & C & FP).
  split; [reflexivity|]. split; [reflexivity|]. split; [reflexivity|]. split; [exact HP|]. split; [exact FP|]. split; [exact C|].
  cbv zeta. split.
  - revert HA. destruct (acq _ _ _ _ _ _ _ (mrows P)); cbn; [|discriminate]. now rewrite neg_scaled.
  - exists vs, k. split; [|auto]. eapply Forall2_imp; [|exact F]. cbv beta. intros x v Hx. revert Hx.
    destruct (acq _ _ _ _ _ _ _ [x]); cbn; [|discriminate]. now rewrite neg_scaled.
Qed.

Lemma tp_optimize_run o X Y samp num seed s w sw' t r :
  tp_optimize o X Y samp num seed (s, w) = (sw', t, r) ->
  (exists e, r = Raise e /\ fst sw' = s /\ t = []) \/
  exists Yn t0 ts0 w1, (if to_norm N o then normalize_min_max N Y else Ok Y) = Ok Yn /\
     exists w2 rf, fit X Yn (to_cov N o) (to_opt_tp N o) (to_ard N o) w1 = (w2, rf) /\ t = [(to_opt_tp N o, X, Yn)] /\
       ((exists e, rf = Raise e /\ r = Raise e /\ fst sw' = s) \/
        exists f, rf = Ok f /\ tp_rest o X Y samp num seed t0 Yn ts0 f ((s ++ [snd f])%list, w2) = (sw', [], r)).
Proof.
  unfold BOModel.tp_optimize. intros H.
  apply massert_ok in H. destruct H as [[B1 H]|(_ & -> & -> & ->)]; [|left; eexists; eauto].
  apply massert_ok in H. destruct H as [[B2 H]|(_ & -> & -> & ->)]; [|left; eexists; eauto].
  apply massert_ok in H. destruct H as [[B3 H]|(_ & -> & -> & ->)]; [|left; eexists; eauto].
  apply massert_ok in H. destruct H as [[B4 H]|(_ & -> & -> & ->)]; [|left; eexists; eauto].
  apply bind_pres_inv in H; [|apply pres_tick]. destruct H as [(e & -> & E & -> & _)|([s1 w1] & t0 & _ & E & H)]; [left; eauto|].
  cbn in E. subst s1.
  apply bind_pres_inv in H; [|apply pres_lift]. destruct H as [(e & -> & E & -> & _)|([s1 w2] & Yn & HY & E & H)]; [left; eauto|].
  cbn in E. subst s1. apply lift_ok in HY. destruct HY as (HY & _ & _).
  apply bind_pres_inv in H; [|apply pres_tick]. destruct H as [(e & -> & E & -> & _)|([s1 w3] & ts0 & _ & E & H)]; [left; eauto|].
  cbn in E. subst s1.
  right. exists Yn, t0, ts0, w3. split; [exact HY|].
  unfold bind at 1, note at 1 in H. unfold bind at 1, onW at 1, ext at 1 in H. cbn [fst snd] in H.
  destruct (fit X Yn (to_cov N o) (to_opt_tp N o) (to_ard N o) w3) as [w4 [f|e]] eqn:F.
  2:{ exists w4, (Raise e). split; [reflexivity|]. inversion H; subst. split; [reflexivity|]. left. exists e. auto. }
  destruct f as [[c i] h]. exists w4, (Ok (c, i, h)). split; [reflexivity|].
  unfold bind at 1, getS at 1 in H. cbn [fst] in H. unfold bind at 1, putS at 1 in H. cbn [snd] in H.
  destruct (tp_rest o X Y samp num seed t0 Yn ts0 (c, i, h) ((s ++ [h])%list, w4)) as [[sw5 t5] r5] eqn:R.
  assert (T5 : t5 = []) by (now apply pres_tp_rest in R). subst t5.
  pose proof R as R0. unfold tp_rest in R. rewrite R in H. cbn in H. inversion H; subst. split; [reflexivity|]. right.
  exists (c, i, h). split; [reflexivity|exact R0].
Qed.

Theorem tp_optimize_ok (O : NumOrd N) o X Y samp num seed s w s' w' t np gi :
  tp_optimize o X Y samp num seed (s, w) = ((s', w'), t, Ok (np, gi)) ->
  gi_Yorig N K gi = Y /\
  (if to_norm N o then normalize_min_max N Y = Ok (gi_Ynorm N K gi) else gi_Ynorm N K gi = Y) /\
  t = [(to_opt_tp N o, X, gi_Ynorm N K gi)] /\
  s' = (s ++ [gi_hyps N K gi])%list /\
  inside N (to_range N o) np /\ Forall (inside N (to_range N o)) (mrows (gi_points N K gi)) /\
  mcols (gi_points N K gi) = List.length (to_range N o) /\
  let g pts := acq (to_acq N o) (to_cov N o) X (gi_Ynorm N K gi) (gi_cov N K gi) (gi_inv N K gi) (gi_hyps N K gi) pts in
  rmap (negacq N) (g (mrows (gi_points N K gi))) = Ok (gi_acqs N K gi) /\
  exists vs i, Forall2 (fun c v => rmap (negacq N) (g [c]) = Ok [v]) (mrows (gi_points N K gi)) vs /\
    nth_error (mrows (gi_points N K gi)) i = Some np /\ first_best N vs i.
Proof.
  intros H. apply tp_optimize_run in H. destruct H as [(e & H & _)|H]; [discriminate|].
  destruct H as (Yn & t0 & ts0 & w1 & HY & w2 & rf & F & -> & H).
  destruct H as [(e & _ & H & _)|(f & -> & R)]; [discriminate|].
  pose proof (pres_tp_rest _ _ _ _ _ _ _ _ _ _ _ _ _ _ R) as [P _]. cbn in P. subst s'.
  apply (tp_rest_ok O) in R. destruct R as (-> & R1 & R2 & R3 & R4 & R5 & R6).
  split; [exact R1|]. rewrite R2. split; [|auto 10].
  destruct (to_norm N o); [exact HY|now apply Ok_inj in HY].
Qed.

(** whatever the outcome, at most one entry is appended and nothing else changes *)
Theorem tp_optimize_state o X Y samp num seed s w s' w' t r :
  tp_optimize o X Y samp num seed (s, w) = ((s', w'), t, r) ->
  exists l, s' = (s ++ l)%list /\ (List.length l <= List.length t <= 1)%nat.
Proof.
  intros H. apply tp_optimize_run in H. destruct H as [(e & -> & E & ->)|H].
  { cbn in E. subst s'. exists []. rewrite app_nil_r. auto. }
  destruct H as (Yn & t0 & ts0 & w1 & HY & w2 & rf & F & -> & H).
  destruct H as [(e & _ & _ & E)|(f & -> & R)].
  - cbn in E. subst s'. exists []. rewrite app_nil_r. cbn. auto.
  - apply pres_tp_rest in R. destruct R as [P _]. cbn in P. subst s'. eexists. split; [reflexivity|]. cbn. auto.
Qed.
End TP.

Section Trees.
Context (T : Type).
Context (get_trees : mat N -> list N -> W -> W * res T).
Context (acq : string -> mat N -> list N -> T -> list (list N) -> res (list N)).
Notation rf_optimize := (rf_optimize N W get_samples time_ T get_trees acq).

Theorem rf_optimize_ok o X Y samp num seed sw sw' t np gi :
  rf_optimize o X Y samp num seed sw = (sw', t, Ok (np, gi)) ->
  ri_Yorig N T gi = Y /\
  (if ro_norm N o then normalize_min_max N Y = Ok (ri_Ynorm N T gi) else ri_Ynorm N T gi = Y) /\
  t = [("rf", X, ri_Ynorm N T gi)] /\
  inside N (ro_range N o) np /\ Forall (inside N (ro_range N o)) (mrows (ri_points N T gi)) /\
  mcols (ri_points N T gi) = List.length (ro_range N o) /\
  rmap (negacq N) (acq (ro_acq N o) X (ri_Ynorm N T gi) (ri_trees N T gi) (mrows (ri_points N T gi))) = Ok (ri_acqs N T gi) /\
  exists i, npargmin N (ri_acqs N T gi) = Ok i /\ nth_error (mrows (ri_points N T gi)) i = Some np.
Proof.
  unfold BOModel.rf_optimize. destruct sw as [s w]. intros H.
  apply massert_ok in H. destruct H as [[B1 H]|(_ & _ & _ & H)]; [|discriminate].
  apply massert_ok in H. destruct H as [[B2 H]|(_ & _ & _ & H)]; [|discriminate].
  apply massert_ok in H. destruct H as [[B3 H]|(_ & _ & _ & H)]; [|discriminate].
  apply massert_ok in H. destruct H as [[B4 H]|(_ & _ & _ & H)]; [|discriminate].
  apply bind_pres_inv in H; [|apply pres_tick]. destruct H as [(e & H & _)|([s1 w1] & t0 & _ & E & H)]; [discriminate|].
  apply bind_pres_inv in H; [|apply pres_lift]. destruct H as [(e & H & _)|([s2 w2] & Yn & HY & E2 & H)]; [discriminate|].
  apply lift_ok in HY. destruct HY as (HY & _ & _).
  apply bind_pres_inv in H; [|apply pres_tick]. destruct H as [(e & H & _)|([s3 w3] & ts0 & _ & E3 & H)]; [discriminate|].
  unfold bind at 1, note at 1 in H.
  match type of H with context [bind (onW N W unit (get_trees X Yn)) ?k] => set (kk := k) in H end.
  destruct (bind (onW N W unit (get_trees X Yn)) kk (s3, w3)) as [[sw4 t4] r4] eqn:R.
  inversion H; subst sw4 r4 t. clear H. subst kk.
  apply bind_pres_inv in R; [|apply pres_onW]. destruct R as [(e & H & _)|(sw5 & trees & HT & _ & H)]; [discriminate|].
  apply bind_pres_inv in H; [|apply pres_tick]. destruct H as [(e & H & _)|(sw6 & ts1 & _ & _ & H)]; [discriminate|].
  apply bind_pres_inv in H; [|apply pres_tick]. destruct H as [(e & H & _)|(sw7 & ta0 & _ & _ & H)]; [discriminate|].
  apply bind_pres_inv in H; [|apply pres_onW]. destruct H as [(e & H & _)|(sw8 & pts & _ & _ & H)]; [discriminate|].
  apply bind_pres_inv in H; [|apply pres_lift]. destruct H as [(e & H & _)|(sw9 & P & HP & _ & H)]; [discriminate|].
  apply bind_pres_inv in H; [|apply pres_lift]. destruct H as [(e & H & _)|(sw10 & P' & HC & _ & H)]; [discriminate|].
  apply bind_pres_inv in H; [|apply pres_lift]. destruct H as [(e & H & _)|(sw11 & a & HA & _ & H)]; [discriminate|].
  apply bind_pres_inv in H; [|apply pres_lift]. destruct H as [(e & H & _)|(sw12 & i & HI & _ & H)]; [discriminate|].
  apply bind_pres_inv in H; [|apply pres_lift]. destruct H as [(e & H & _)|(sw13 & p & HN & _ & H)]; [discriminate|].
  apply bind_pres_inv in H; [|apply pres_tick]. destruct H as [(e & H & _)|(sw14 & ta1 & _ & _ & H)]; [discriminate|].
  apply bind_pres_inv in H; [|apply pres_tick]. destruct H as [(e & H & _)|(sw15 & t1 & _ & _ & H)]; [discriminate|].
  apply ret_ok in H. destruct H as (H & _ & ->). inversion H; subst. cbn [ri_points ri_acqs ri_Yorig ri_Ynorm ri_trees].
  apply lift_ok in HP, HC, HA, HI, HN. destruct HP as (HP & _), HC as (HC & _), HA as (HA & _), HI as (HI & _), HN as (HN & _).
  apply np_array_rows_ok in HP. destruct HP as (<- & WF). apply check_points_ok in HC; [|exact WF]. destruct HC as (-> & C & F).
  assert (HN' : nth_error (mrows P) i = Some np) by (destruct (nth_error (mrows P) i); [congruence|discriminate]).
  split; [reflexivity|]. split. { destruct (ro_norm N o); [exact HY|symmetry; now apply Ok_inj in HY]. }
  split; [reflexivity|]. split. { rewrite Forall_forall in F. apply F. eapply nth_error_In; eauto. }
  split; [exact F|]. split; [exact C|]. split.
  - revert HA. destruct (acq _ _ _ _ (mrows P)); cbn; [|discriminate]. now rewrite neg_scaled.
  - exists i. auto.
Qed.
End Trees.
End Proofs.

(** ** Constructors *)
Section Construct.
Context (N : Num).

Ltac use_in := match goal with
  | H : In ?x _ |- context [str_in ?x ?l] =>
      replace (str_in x l) with true by (symmetry; rewrite str_in_In; cbn in H |- *; tauto)
  end.

Lemma base_init_ok da ca (range_X : list (N * N)) surrogate acq ob :
  range_ok N range_X = true -> str_in surrogate (ALLOWED_SURROGATE ++ ALLOWED_SURROGATE_TREES) = true -> str_in acq ALLOWED_BO_ACQ = true ->
  base_init N da ca range_X surrogate acq ob = check_optimizer_method_bo da ca ob (Z.of_nat (List.length range_X)).
Proof.
  intros H1 H2 H3. unfold base_init. rewrite H1, H2, H3. cbn [assert_ rbind].
  unfold check_optimizer_method_bo. destruct (str_in ob _); reflexivity.
Qed.

Theorem bo_init_spec da ca (a : bo_args N) : otherwise_valid N a ->
  match bo_init N da ca a with
  | Ok m => fits_surrogate (a_surrogate N a) (a_opt_bo N a) /\
      match m with
      | MGP _ o => a_surrogate N a = "gp" /\ In (go_opt_bo N o) ["L-BFGS-B"; "DIRECT"; "CMA-ES"] /\
          o = mkgpo N (a_range N a) (a_cov N a) (a_acq N a) (a_norm N a) (a_ard N a) (a_opt_gp N a) (go_opt_bo N o) (a_msel N a)
      | MTP _ o => a_surrogate N a = "tp" /\ In (to_opt_bo N o) ["L-BFGS-B"; "DIRECT"; "CMA-ES"] /\
          o = mktpo N (a_range N a) (a_cov N a) (a_acq N a) (a_norm N a) (a_ard N a) (a_opt_tp N a) (to_opt_bo N o)
      | MRF _ o => a_surrogate N a = "rf" /\ o = mkrfo N (a_range N a) (a_acq N a) (a_norm N a)
      end
  | Raise e => e = AssertionError /\ ~ fits_surrogate (a_surrogate N a) (a_opt_bo N a)
  end.
Proof.
  intros (V1 & V2 & V3 & V4 & V5 & V6 & V7 & V8 & V9 & V10 & V11 & V12 & V13).
  destruct a as [rg ni su cov acq nrm ard ini samp og ot ob mlm ms ns]. cbn [a_range a_num_iter a_surrogate a_cov a_acq a_norm a_ard a_init
    a_samp a_opt_gp a_opt_tp a_opt_bo a_mlm a_msel a_num_samples] in *.
  unfold bo_init. cbn [a_range a_num_iter a_surrogate a_cov a_acq a_norm a_ard a_init
    a_samp a_opt_gp a_opt_tp a_opt_bo a_mlm a_msel a_num_samples].
  assert (R : range_ok N rg = true) by (unfold range_ok; rewrite forallb_forall; rewrite Forall_forall in V1; exact V1).
  assert (A : str_in acq ALLOWED_BO_ACQ = true) by (rewrite str_in_In; exact V6).
  assert (C : str_in cov ALLOWED_COV = true) by (rewrite str_in_In; exact V5).
  assert (G : str_in og ALLOWED_OPTIMIZER_METHOD_GP = true) by (rewrite str_in_In; cbn in V9 |- *; tauto).
  assert (T : str_in ot ALLOWED_OPTIMIZER_METHOD_TP = true) by (rewrite str_in_In; cbn in V10 |- *; tauto).
  assert (B : str_in ms ALLOWED_MODELSELECTION_METHOD = true) by (rewrite str_in_In; exact V13).
  rewrite R, C, A, G, T, B.
  apply Z.ltb_lt in V2, V3. rewrite V2, V3.
  replace (str_in su (ALLOWED_SURROGATE ++ ALLOWED_SURROGATE_TREES)) with true by (symmetry; rewrite str_in_In; exact V4).
  replace (str_in ini ALLOWED_INITIALIZING_METHOD_BO) with true by (symmetry; rewrite str_in_In; cbn in V7 |- *; tauto).
  replace (str_in samp ALLOWED_SAMPLING_METHOD) with true by (symmetry; rewrite str_in_In; cbn in V8 |- *; tauto).
  replace (str_in mlm ALLOWED_MLM_METHOD) with true by (symmetry; rewrite str_in_In; exact V12).
  replace (str_in ob (ALLOWED_OPTIMIZER_METHOD_BO ++ ALLOWED_OPTIMIZER_METHOD_BO_TREES)) with true by (symmetry; rewrite str_in_In; exact V11).
  cbn [assert_ rbind].
  unfold rf_init, gp_init, tp_init. rewrite R, C, A, G, T, B. cbn [assert_ rbind].
  assert (HB : forall s o, In s ["gp"; "tp"; "rf"] -> base_init N da ca rg s acq o = check_optimizer_method_bo da ca o (Z.of_nat (List.length rg))).
  { intros s o Hs. apply base_init_ok; auto. rewrite str_in_In. exact Hs. }
  unfold fits_surrogate. unfold check_optimizer_method_bo at 1.
  destruct (Z.of_nat (List.length rg) =? 1)%Z eqn:D; cbn in V4, V11;
  destruct V4 as [<-|[<-|[<-|[]]]]; destruct V11 as [<-|[<-|[<-|[<-|[]]]]]; destruct da, ca; cbn -[base_init];
    (first [rewrite HB by (cbn; tauto); unfold check_optimizer_method_bo; rewrite ?D; cbn | idtac]);
    intuition (try discriminate; try reflexivity).
Qed.
End Construct.

(** ** Runs *)
Section Runs.
Context (N : Num) (W : Type) (O : NumOrd N).
Context (fun_target : list N -> W -> W * res N).
Context (time_ : W -> W * N).

Definition keeps_inside (bounds : list (N * N)) (single_iteration : mat N -> list N -> W -> W * res (list N * info N)) : Prop :=
  forall X Y w w' p, single_iteration X Y w = (w', Ok p) -> inside N bounds (fst p) /\ Forall (inside N bounds) (mrows (in_points (snd p))).

Theorem run_inside bounds si n X Y w w' t r :
  keeps_inside bounds si ->
  class_all_initial N W fun_target time_ si n X Y w = (w', t, r) ->
  Forall (inside N bounds) (mrows X) ->
  (forall x rt, In (EvTarget x rt) t -> inside N bounds x) /\
  (forall o, r = Ok o -> Forall (inside N bounds) (mrows (ro_X o))).
Proof.
  intros HK H HX. pose proof H as H0. apply class_all_trace in H. destruct H as [(_ & B & _)|(_ & -> & ->)].
  2:{ split; [intros ? ? []|discriminate]. }
  apply (trace_inside N O bounds) in B.
  - destruct B as [B1 B2]. split; [exact B1|]. intros o ->. cbn in B2. unfold XY in B2. eapply B2. reflexivity.
  - intros Xm Ym p Hin. apply all_class_all in H0. rewrite Forall_forall in H0. specialize (H0 _ Hin). cbn in H0.
    destruct H0 as (w1 & w2 & E). apply HK in E. exact E.
  - exact HX.
Qed.
End Runs.

Section RunsModels.
Context (N : Num) (W K : Type) (O : NumOrd N).
Context (get_samples : string -> Z -> option Z -> W -> W * res (list (list N))).
Context (lbfgsb : (list N -> res N) -> list N -> list (N * N) -> W -> W * res (list N)).
Context (direct : (list N -> res N) -> list (N * N) -> W -> W * res (list N)).
Context (cma : (list N -> res N) -> list N -> list (N * N) -> W -> W * res (list N)).
Context (time_ : W -> W * N).

Lemma gp_keeps_inside fit ki nl acq o samp num mlm seed :
  keeps_inside N (gp_state N * W) (go_range N o) (fun X Y => untraced N W (gp_to_info N K)
    (gp_optimize N W K get_samples lbfgsb direct cma time_ fit ki nl acq o X Y samp num mlm seed)).
Proof.
  intros X Y [s w] [s' w'] [np di] H. unfold untraced in H.
  destruct (gp_optimize _ _ _ _ _ _ _ _ _ _ _ _ o X Y samp num mlm seed (s, w)) as [[[s1 w1] t] [[np' gi]|e]] eqn:E; cbn in H; [|discriminate].
  inversion H; subst. apply gp_optimize_ok in E; [|exact O]. destruct E as (_ & _ & _ & _ & E1 & E2 & _). cbn. auto.
Qed.

Lemma tp_keeps_inside fit acq o samp num seed :
  keeps_inside N (list (dict N) * W) (to_range N o) (fun X Y => untraced N W (gp_to_info N K)
    (tp_optimize N W K get_samples lbfgsb direct cma time_ fit acq o X Y samp num seed)).
Proof.
  intros X Y [s w] [s' w'] [np di] H. unfold untraced in H.
  destruct (tp_optimize _ _ _ _ _ _ _ _ _ _ o X Y samp num seed (s, w)) as [[[s1 w1] t] [[np' gi]|e]] eqn:E; cbn in H; [|discriminate].
  inversion H; subst. apply tp_optimize_ok in E; [|exact O]. destruct E as (_ & _ & _ & _ & E1 & E2 & _). cbn. auto.
Qed.

Lemma rf_keeps_inside T gt acq o samp num seed :
  keeps_inside N (unit * W) (ro_range N o) (fun X Y => untraced N W (rf_to_info N)
    (rf_optimize N W get_samples time_ T gt acq o X Y samp num seed)).
Proof.
  intros X Y sw sw' [np di] H. unfold untraced in H.
  destruct (rf_optimize _ _ _ _ _ _ _ o X Y samp num seed sw) as [[sw1 t] [[np' gi]|e]] eqn:E; cbn in H; [|discriminate].
  inversion H; subst. apply rf_optimize_ok in E. destruct E as (_ & _ & _ & E1 & E2 & _). cbn. auto.
Qed.
End RunsModels.
