(** Properties C97-C102: the claims that hold, and those that fail, in binary64 arithmetic. *)
From Verif Require Import Base Lists Num NumLaws NumFin Monad UtilsModel HypsModel CovModel GPModel LikModel HypOptModel AcqModel TreesModel TreesSpec TreesProofs TreesTop WrapperModel BOModel
  BOAcqModel BOAcqSpec BOFullModel BOProgram TreesProps View SamplingFloat FloatSpec FloatOps FloatNorm FloatTrees FloatAcq FloatRun FloatGP.
From Coq Require Import List ZArith Bool String Reals Lra Lia Arith Permutation.
From Flocq Require Import Core IEEE754.BinarySingleNaN.
Import ListNotations.
Local Open Scope R_scope.
Ltac each := repeat (apply Forall_cons; [vm_compute; reflexivity|]); apply Forall_nil.

(** ** C97: normalisation of the responses *)
Theorem C97_normalised : forall (Y : list f64), Forall finite Y -> spread Y -> (forall y y', In y Y -> In y' Y -> finite (fsub y y')) ->
  exists Z, normalize_min_max NumF Y = Ok Z /\ List.length Z = List.length Y /\
    (forall i (y z : f64), nth_error Y i = Some y -> nth_error Z i = Some z ->
       finite z /\ 0 <= B2R z <= 10 /\
       ((forall v : f64, In v Y -> B2R y <= B2R v) -> B2R z = 0) /\ ((forall v : f64, In v Y -> B2R v <= B2R y) -> B2R z = 10)) /\
    (forall i j (y y' z z' : f64), nth_error Y i = Some y -> nth_error Y j = Some y' -> nth_error Z i = Some z -> nth_error Z j = Some z' ->
       B2R y <= B2R y' -> B2R z <= B2R z').
Proof. exact normalize_float. Qed.
Print Assumptions C97_normalised.
Theorem C97_unchanged : forall (Y : list f64), Y <> [] -> Forall finite Y -> ~ spread Y -> normalize_min_max NumF Y = Ok Y.
Proof. exact normalize_float_same. Qed.
Print Assumptions C97_unchanged.

Definition huge : f64 := fofZ (2 ^ 1023).
Definition tiny : f64 := Bldexp mode_NE (fofZ 1) (-1074).
(** finite responses whose range overflows: NaN *)
Theorem C97_overflow_refuted : exists Y Z : list f64, Forall finite Y /\ spread Y /\ normalize_min_max NumF Y = Ok Z /\ Exists (fun z => is_nan z = true) Z.
Proof.
  assert (F : finite huge /\ finite (Bopp huge)) by (vm_compute; auto).
  assert (L : nlt NumF (Bopp huge) huge = true) by (vm_compute; reflexivity).
  exists [huge; Bopp huge]. eexists. split; [now repeat constructor|]. split.
  { exists (Bopp huge), huge. split; [right; now left|]. split; [now left|]. intros E. rewrite flt_R in L by tauto. revert L. rewrite E.
    destruct (Rlt_bool_spec (B2R huge) (B2R huge)); [lra|discriminate]. }
  split; [reflexivity|]. constructor. vm_compute. reflexivity.
Qed.
Print Assumptions C97_overflow_refuted.
(** different responses can become equal *)
Theorem C97_distinct_refuted : exists Y Z : list f64, exists y y' z : f64, Forall finite Y /\ normalize_min_max NumF Y = Ok Z /\
  nth_error Y 0 = Some y /\ nth_error Y 1 = Some y' /\ nlt NumF y y' = true /\ nth_error Z 0 = Some z /\ nth_error Z 1 = Some z.
Proof.
  exists [fofZ 0; tiny; fofZ (2 ^ 52)]. eexists. exists (fofZ 0), tiny, (fofZ 0). split; [each|]. split; [reflexivity|].
  split; [reflexivity|]. split; [reflexivity|]. split; [vm_compute; reflexivity|]. cbn [map nth_error]. split; f_equal; vm_compute; reflexivity.
Qed.
Print Assumptions C97_distinct_refuted.
Example C97_example : exists Y : list f64, Forall finite Y /\ spread Y /\ (forall y y', In y Y -> In y' Y -> finite (fsub y y')) /\
  rmap (map fview) (normalize_min_max NumF Y) = Ok (map fview [fofZ 10; fofZ 0; fofZ 5]).
Proof.
  exists [fofZ 3; fofZ 1; fofZ 2]. destruct (fofZ_val 3 ltac:(reflexivity)) as (F3 & E3). destruct (fofZ_val 1 ltac:(reflexivity)) as (F1 & E1).
  split; [each|]. split.
  { exists (fofZ 3), (fofZ 1). split; [now left|]. split; [right; now left|]. rewrite E3, E1. lra. }
  split; [|vm_compute; reflexivity].
  intros y y' [<-|[<-|[<-|[]]]] [<-|[<-|[<-|[]]]]; vm_compute; reflexivity.
Qed.

(** ** C98: random forests *)
Theorem C98_forest : forall W (choice : nat -> nat -> bool -> W -> W * res (list nat)) uniform trunc (X : mat f64) Y nt dm m nf e Xq sched w,
  choice_contract choice -> choice_total choice -> int_of_floats trunc ->
  mat_wf X -> List.length (mrows X) = List.length Y -> (0 < nrows X)%nat -> few (nrows X) -> (0 < nf <= mcols X)%nat -> (forall x, In x (mrows X) -> Forall finite x) ->
  (0 <= e <= 480)%Z -> (forall y, In y Y -> within e y) -> (0 < nt)%Z -> few (Z.to_nat nt) ->
  (forall x, In x Xq -> List.length x = mcols X) -> Permutation sched (seq 0 ((List.length Xq + 99) / 100)) ->
  exists w' t ts out, get_random_forest NumF W choice uniform trunc X Y nt dm m nf w = (w', t, Ok ts) /\ List.length ts = Z.to_nat nt /\
    predict_by_trees NumF Xq (map snd ts) sched = Ok out /\ List.length out = List.length Xq /\ Forall (pred_ok e) out.
Proof. intros. eapply forest_predicts; eassumption. Qed.
Print Assumptions C98_forest.

Definition is_type_error {A} (r : res A) : bool := match r with Raise TypeError => true | _ => false end.
Definition three : mat f64 := mkmat [[fofZ 0]; [fofZ 1]; [fofZ 2]] 1.
(** without the bound on the responses: finite data, and growing the forest raises TypeError *)
Theorem C98_unbounded_refuted : exists (X : mat f64) (Y : list f64), mat_wf X /\ List.length (mrows X) = List.length Y /\ (forall x, In x (mrows X) -> Forall finite x) /\ Forall finite Y /\
  choice_contract ex_choice /\ choice_total ex_choice /\
  snd (get_random_forest NumF unit ex_choice (ex_uniform NumF) ex_truncF X Y 1 5 1 1 tt) = Raise TypeError.
Proof.
  exists three, [huge; Bopp huge; huge]. split; [intros x [<-|[<-|[<-|[]]]]; reflexivity|]. split; [reflexivity|].
  split; [intros x [<-|[<-|[<-|[]]]]; each|]. split; [each|].
  split; [exact ex_choice_contract|]. split; [exact ex_choice_total|].
  assert (E : is_type_error (snd (get_random_forest NumF unit ex_choice (ex_uniform NumF) ex_truncF three [huge; Bopp huge; huge] 1 5 1 1 tt)) = true) by (vm_compute; reflexivity).
  revert E. generalize (snd (get_random_forest NumF unit ex_choice (ex_uniform NumF) ex_truncF three [huge; Bopp huge; huge] 1 5 1 1 tt)).
  intros [ts|[]]; cbn; try discriminate. reflexivity.
Qed.
Print Assumptions C98_unbounded_refuted.
Definition tenth : f64 := fdiv (fofZ 1) (fofZ 10).
Definition exceeded (r : res (list (list (row NumF) * tree NumF))) : bool :=
  match r with
  | Ok ts => match predict_by_trees NumF [[fofZ 0]] (map snd ts) [0%nat] with Ok [p] => nlt NumF tenth (fst p) | _ => false end
  | Raise _ => false
  end.
(** C52 fails in binary64: the prediction exceeds every response *)
Theorem C98_range_refuted : exists (X : mat f64) (Y : list f64) ts p, Forall (within 0) Y /\
  snd (get_random_forest NumF unit ex_choice (ex_uniform NumF) ex_truncF X Y 1 5 3 1 tt) = Ok ts /\
  predict_by_trees NumF [[fofZ 0]] (map snd ts) [0%nat] = Ok [p] /\ Forall (fun y => nlt NumF y (fst p) = true) Y.
Proof.
  assert (B : within 0 tenth).
  { destruct (fofZ_val 1 ltac:(reflexivity)) as (F1 & E1). destruct (fofZ_val 10 ltac:(reflexivity)) as (F2 & E2).
    apply (fdiv_val (fofZ 1) (fofZ 10) (bpow radix2 0)); [exact F1|rewrite E2; lra|apply F64_bpow; lia|apply bpow_lt; reflexivity|].
    rewrite E1, E2. cbn. rewrite Rabs_pos_eq by lra. lra. }
  assert (E : exceeded (snd (get_random_forest NumF unit ex_choice (ex_uniform NumF) ex_truncF (mkmat [[fofZ 0]; [fofZ 0]; [fofZ 0]] 1) [tenth; tenth; tenth] 1 5 3 1 tt)) = true)
    by (vm_compute; reflexivity).
  exists (mkmat [[fofZ 0]; [fofZ 0]; [fofZ 0]] 1), [tenth; tenth; tenth]. revert E.
  destruct (snd (get_random_forest NumF unit ex_choice (ex_uniform NumF) ex_truncF (mkmat [[fofZ 0]; [fofZ 0]; [fofZ 0]] 1) [tenth; tenth; tenth] 1 5 3 1 tt)) as [ts|]; [|discriminate].
  unfold exceeded. destruct (predict_by_trees NumF [[fofZ 0]] (map snd ts) [0%nat]) as [[|p [|q l]]|] eqn:EP; try discriminate. intros E.
  exists ts, p. split; [repeat (apply Forall_cons; [exact B|]); apply Forall_nil|]. split; [reflexivity|]. split; [exact EP|]. repeat (apply Forall_cons; [exact E|]). apply Forall_nil.
Qed.
Print Assumptions C98_range_refuted.

Lemma ex_truncF_ok : int_of_floats ex_truncF.
Proof.
  intros n H. unfold ex_truncF, few in *. destruct (fofZ_val (Z.of_nat n) ltac:(lia)) as (F & E). rewrite F. f_equal.
  apply eq_IZR. transitivity (round radix2 (FIX_exp 0) Ztrunc (B2R (fofZ (Z.of_nat n)))); [exact (Btrunc_correct 53 1024 prec64_lt_emax (fofZ (Z.of_nat n)))|]. rewrite E. apply round_generic; [exact _|].
  apply generic_format_FIX. exists (Float radix2 (Z.of_nat n) 0); [unfold F2R; cbn; ring|reflexivity].
Qed.
Example C98_example : exists w' t ts out, get_random_forest NumF unit ex_choice (ex_uniform NumF) ex_truncF three [fofZ 1; fofZ 0; fofZ 2] 7 5 1 1 tt = (w', t, Ok ts) /\
  List.length ts = 7%nat /\ predict_by_trees NumF [[fofZ 0]; [fofZ 5]] (map snd ts) [0%nat] = Ok out /\ List.length out = 2%nat /\ Forall (pred_ok 1) out.
Proof.
  apply (C98_forest unit ex_choice (ex_uniform NumF) ex_truncF three [fofZ 1; fofZ 0; fofZ 2] 7 5 1 1 1 [[fofZ 0]; [fofZ 5]] [0%nat] tt).
  - exact ex_choice_contract.
  - exact ex_choice_total.
  - exact ex_truncF_ok.
  - intros x [<-|[<-|[<-|[]]]]; reflexivity.
  - reflexivity.
  - cbn. lia.
  - unfold few. cbn. lia.
  - cbn. lia.
  - intros x [<-|[<-|[<-|[]]]]; each.
  - lia.
  - assert (G : forall z, (0 <= z <= 2)%Z -> within 1 (fofZ z)).
    { intros z Hz. destruct (fofZ_val z ltac:(lia)) as (F & E). split; [exact F|]. rewrite E, Rabs_pos_eq by (apply IZR_le; lia).
      change (bpow radix2 1) with 2. apply IZR_le. lia. }
    intros y [<-|[<-|[<-|[]]]]; apply G; lia.
  - lia.
  - unfold few. cbn. lia.
  - intros x [<-|[<-|[]]]; reflexivity.
  - cbn. apply Permutation_refl.
Qed.

(** ** C99: acquisition values *)
Theorem C99_acquisitions : forall (cdf pdf lg : f64 -> f64) str_acq noise mu sd (Y : list f64), unit_valued cdf -> unit_valued pdf -> log_like lg ->
  In str_acq ["pi"; "ei"; "ucb"; "aei"; "pure_exploit"; "pure_explore"]%string -> noise_fine noise -> preds_ok mu sd ->
  Y <> [] -> few (List.length Y) -> Forall (within 480) Y ->
  exists f a, choose_fun_acquisition NumF cdf pdf lg str_acq (Some noise) = Ok f /\ f mu sd Y = Ok a /\ List.length a = List.length mu /\ Forall (within 540) a.
Proof. intros. eapply acquisitions_bnd; eassumption. Qed.
Print Assumptions C99_acquisitions.
Lemma zero_unit : unit_valued (fun _ => fofZ 0).
Proof. intros x _. destruct (fofZ_val 0 ltac:(reflexivity)) as (F & E). split; [exact F|]. rewrite E. lra. Qed.
Lemma half_unit : unit_valued (fun x => if nlt NumF x (fofZ 0) then fofZ 0 else fofZ 1).
Proof.
  intros x _. destruct (fofZ_val 0 ltac:(reflexivity)) as (F & E). destruct (fofZ_val 1 ltac:(reflexivity)) as (F1 & E1).
  destruct (nlt _ _ _); split; try assumption; lra.
Qed.
Lemma zero_log : log_like (fun _ => fofZ 0).
Proof. intros x _ H. destruct (fofZ_val 0 ltac:(reflexivity)) as (F & E). split; [exact F|]. rewrite E. lra. Qed.
Lemma within_Z e z : (Z.abs z < 2 ^ 53)%Z -> Rabs (IZR z) <= bpow radix2 e -> within e (fofZ z).
Proof. intros H1 H2. destruct (fofZ_val z H1) as (F & E). split; [exact F|]. now rewrite E. Qed.
Lemma small_le e : (2 <= e)%Z -> 3 <= bpow radix2 e.
Proof. intros H. apply Rle_trans with (bpow radix2 2); [cbn; lra|now apply bpow_le]. Qed.
Example C99_example : forall str_acq, In str_acq ["pi"; "ei"; "ucb"; "aei"; "pure_exploit"; "pure_explore"]%string ->
  exists f a, choose_fun_acquisition NumF (fun x => if nlt NumF x (fofZ 0) then fofZ 0 else fofZ 1) (fun _ => fofZ 0) (fun _ => fofZ 0) str_acq (Some (fofZ 1)) = Ok f /\
    f [fofZ 1; fofZ (-2)] [fofZ 0; fofZ 3] [fofZ 1; fofZ 2] = Ok a /\ List.length a = 2%nat /\ Forall (within 540) a.
Proof.
  intros s Hs. assert (P3 := small_le 480 ltac:(lia)). assert (Q3 := small_le 482 ltac:(lia)).
  destruct (fofZ_val 0 ltac:(reflexivity)) as (F0 & E0). destruct (fofZ_val 1 ltac:(reflexivity)) as (F1 & E1). destruct (fofZ_val 3 ltac:(reflexivity)) as (F3 & E3).
  apply (C99_acquisitions (fun x => if nlt NumF x (fofZ 0) then fofZ 0 else fofZ 1) (fun _ => fofZ 0) (fun _ => fofZ 0) s (fofZ 1) [fofZ 1; fofZ (-2)] [fofZ 0; fofZ 3] [fofZ 1; fofZ 2]).
  - exact half_unit.
  - exact zero_unit.
  - exact zero_log.
  - exact Hs.
  - split; [exact F1|]. rewrite E1. split; [|lra]. change 1 with (bpow radix2 0). apply bpow_le. lia.
  - split; [reflexivity|]. split.
    + constructor; [|constructor; [|constructor]]; apply within_Z; try reflexivity; [rewrite Rabs_pos_eq by lra|rewrite Rabs_left by lra]; lra.
    + constructor; [|constructor; [|constructor]]; (split; [apply within_Z; [reflexivity|rewrite Rabs_pos_eq by lra; lra]|]); rewrite ?E0, ?E3; lra.
  - discriminate.
  - unfold few. cbn. lia.
  - constructor; [|constructor; [|constructor]]; apply within_Z; try reflexivity; rewrite Rabs_pos_eq by lra; lra.
Qed.

(** ** C100: whole runs with the random forest *)
Theorem C100_runs : forall (nexp nlog cdf pdf : f64 -> f64) (npi : f64) inv chol cho_solve slogdet gamma digamma W
    (get_samples : string -> Z -> option Z -> W -> W * res (list (list NumF))) lbfgsb direct cma (time_ : W -> W * NumF) minimize after pm
    choice uniform trunc schedule (target : list NumF -> W -> W * res NumF) da ca a model num_init seed w,
  unit_valued cdf -> unit_valued pdf -> log_like nlog -> choice_contract choice -> choice_total choice -> int_of_floats trunc -> completes schedule ->
  bo_init NumF da ca a = Ok model -> a_surrogate NumF a = "rf"%string -> a_range NumF a <> [] -> finite_range (a_range NumF a) ->
  (0 < num_init)%Z -> few (Z.to_nat num_init + Z.to_nat (a_num_iter NumF a)) ->
  proper_samplesN (N := NumF) (a_range NumF a) get_samples -> returns_inN (N := NumF) (a_range NumF a) (within 480) target ->
  exists w' t r,
    bo_program NumF nexp nlog cdf pdf npi inv chol cho_solve slogdet gamma digamma W get_samples lbfgsb direct cma time_ minimize after pm choice uniform trunc schedule target
      da ca a num_init seed w = (w', t, Ok r) /\
    nrows (ro_X r) = (Z.to_nat num_init + Z.to_nat (a_num_iter NumF a))%nat /\ List.length (ro_Y r) = nrows (ro_X r) /\
    Forall (in_rangeN (N := NumF) (a_range NumF a)) (mrows (ro_X r)) /\ Forall (within 480) (ro_Y r).
Proof. intros. eapply program_returns_float; eassumption. Qed.
Print Assumptions C100_runs.

Definition fex_range : list (f64 * f64) := [(fofZ 0, fofZ 1); (fofZ (-2), fofZ 3)].
Definition fex_samples (m : string) (num : Z) (seed : option Z) (w : unit) : unit * res (list (list NumF)) := (w, Ok (repeat [fofZ 1; fofZ (-1)] (Z.to_nat num))).
Definition fex_target (x : list NumF) (w : unit) : unit * res NumF := (w, Ok (fdiv (fofZ 1) (fofZ 10))).
Definition fex_args : bo_args NumF := mkargs NumF fex_range 4 "rf" "se" "ei" true true "sobol" "halton" "BFGS" "SLSQP" "random_search" "regular" "ml" 10.
Definition nomx : list (list NumF) -> res (list (list NumF)) := fun _ => Raise LinAlgError.
Example C100_example : exists w' t r,
  bo_program NumF (fun x => x) (fun _ => fofZ 0) (fun x => if nlt NumF x (fofZ 0) then fofZ 0 else fofZ 1) (fun _ => fofZ 0) (fofZ 3) nomx nomx (fun _ => nomx) (fun _ => (fofZ 1, fofZ 0)) (fun x => x) (fun x => x)
    unit fex_samples (fun _ _ _ w => (w, Raise ValueError)) (fun _ _ w => (w, Raise ValueError)) (fun _ _ _ w => (w, Raise ValueError)) (fun w => (w, fofZ 0)) (fun _ _ _ _ _ _ => Raise ValueError) (fun _ _ _ w => w)
    None ex_choice (ex_uniform NumF) ex_truncF (fun k => seq 0 k) fex_target true true fex_args 5 None tt = (w', t, Ok r) /\
  nrows (ro_X r) = 9%nat /\ List.length (ro_Y r) = 9%nat.
Proof.
  assert (IR : in_rangeN (N := NumF) fex_range [fofZ 1; fofZ (-1)]) by (repeat (apply Forall2_cons; [vm_compute; split; reflexivity|]); apply Forall2_nil).
  edestruct (C100_runs (fun x => x) (fun _ => fofZ 0) (fun x => if nlt NumF x (fofZ 0) then fofZ 0 else fofZ 1) (fun _ => fofZ 0) (fofZ 3) nomx nomx (fun _ => nomx) (fun _ => (fofZ 1, fofZ 0)) (fun x => x) (fun x => x)
    unit fex_samples (fun _ _ _ w => (w, Raise ValueError)) (fun _ _ w => (w, Raise ValueError)) (fun _ _ _ w => (w, Raise ValueError)) (fun w => (w, fofZ 0)) (fun _ _ _ _ _ _ => Raise ValueError) (fun _ _ _ w => w)
    None ex_choice (ex_uniform NumF) ex_truncF (fun k => seq 0 k) fex_target true true fex_args) with (num_init := 5%Z) (seed := @None Z) (w := tt) as (w' & t & r & E & L1 & L2 & _).
  - exact half_unit.
  - exact zero_unit.
  - exact zero_log.
  - exact ex_choice_contract.
  - exact ex_choice_total.
  - exact ex_truncF_ok.
  - intros k. apply Permutation_refl.
  - reflexivity.
  - reflexivity.
  - discriminate.
  - repeat (apply Forall_cons; [vm_compute; split; reflexivity|]). apply Forall_nil.
  - lia.
  - unfold few. cbn. lia.
  - intros m num seed w _ Hn. exists w, (repeat [fofZ 1; fofZ (-1)] (Z.to_nat num)). split; [reflexivity|].
    split; [destruct (Z.to_nat num) eqn:Q; [lia|discriminate]|]. split; [|intros _; apply repeat_length].
    apply Forall_forall. intros x Hx. apply repeat_spec in Hx. subst x. exact IR.
  - intros x w _. exists w, (fdiv (fofZ 1) (fofZ 10)). split; [reflexivity|].
    destruct (fofZ_val 1 ltac:(reflexivity)) as (F1 & E1). destruct (fofZ_val 10 ltac:(reflexivity)) as (F2 & E2). assert (P3 := small_le 480 ltac:(lia)).
    apply (fdiv_val (fofZ 1) (fofZ 10) (bpow radix2 480)); [exact F1|rewrite E2; lra|apply F64_bpow; lia|apply bpow_lt; reflexivity|].
    rewrite E1, E2. rewrite Rabs_pos_eq by lra. lra.
  - exists w', t, r. split; [exact E|]. rewrite L2, L1. split; reflexivity.
Qed.

(** ** C101: kernel matrices are symmetric *)
Theorem C101_kernel : forall (nexp : NumF -> NumF) name (X : arr NumF) h jitter C, cov_main nexp name X X h true jitter = Ok C -> symmetricF (alen X) C.
Proof. intros. apply sym_symmetric. eapply cov_main_sym. eassumption. Qed.
Print Assumptions C101_kernel.
Theorem C101_inverse : forall (nexp : NumF -> NumF) inv (X : arr NumF) h name fix_noise use_gradient C I g,
  get_kernel_inverse nexp inv X h name fix_noise use_gradient = Ok (C, I, g) -> symmetricF (alen X) C.
Proof. intros. apply sym_symmetric. eapply kernel_inverse_sym. eassumption. Qed.
Print Assumptions C101_inverse.
Theorem C101_cholesky : forall (nexp : NumF -> NumF) chol (X : arr NumF) h name fix_noise use_gradient C L g,
  get_kernel_cholesky nexp chol X h name fix_noise use_gradient = Ok (C, L, g) -> symmetricF (alen X) C.
Proof. intros. apply sym_symmetric. eapply kernel_cholesky_sym. eassumption. Qed.
Print Assumptions C101_cholesky.
Definition is_ok {A} (r : res A) : bool := match r with Ok _ => true | Raise _ => false end.
Definition fex_hyps : dict NumF := [("noise", PFloat NumF (fdiv (fofZ 1) (fofZ 100))); ("signal", PFloat NumF (fofZ 3)); ("lengthscales", PArr NumF [fofZ 7])]%string.
Example C101_example : exists C : list (list NumF), cov_main (fun x : NumF => x) "matern32" (A2 NumF three) (A2 NumF three) fex_hyps true (fofZ 0) = Ok C /\ symmetricF 3 C.
Proof.
  destruct (cov_main (fun x : NumF => x) "matern32" (A2 NumF three) (A2 NumF three) fex_hyps true (fofZ 0)) as [C|] eqn:E.
  - exists C. split; [reflexivity|]. exact (C101_kernel _ _ _ _ _ _ E).
  - exfalso. assert (K : is_ok (cov_main (fun x : NumF => x) "matern32" (A2 NumF three) (A2 NumF three) fex_hyps true (fofZ 0)) = true) by (vm_compute; reflexivity).
    rewrite E in K. discriminate.
Qed.

(** ** C102: predictive deviations *)
Theorem C102_gp : forall (nexp : NumF -> NumF) X Y Xs cov inv h name pm mu sd (S : list (list NumF)), predict_with_cov nexp X Y Xs cov inv h name pm = Ok (mu, sd, S) ->
  forall i, (i < alen Xs)%nat -> deviation_of (mget NumF S i i) (mget NumF sd i 0).
Proof. intros nexp X Y Xs cov inv h name pm mu sd S. apply gp_dev. Qed.
Print Assumptions C102_gp.
Theorem C102_tp : forall (nexp : NumF -> NumF) X Y Xs cov inv h name pm nu mu sd (S : list (list NumF)), tp_predict_with_cov nexp X Y Xs cov inv h name pm = Ok (nu, mu, sd, S) ->
  forall i, (i < alen Xs)%nat -> deviation_of (mget NumF S i i) (mget NumF sd i 0).
Proof. intros nexp X Y Xs cov inv h name pm nu mu sd S. apply tp_dev. Qed.
Print Assumptions C102_tp.
(** a variance that rounding made negative: the deviation is 0 *)
Definition one1 : arr NumF := A2 NumF (mkmat [[fofZ 0]] 1).
Definition negative_var (r : res (list (list NumF) * list (list NumF) * list (list NumF))) : bool :=
  match r with Ok (_, sd, Sg) => nlt NumF (mget NumF Sg 0 0) (fofZ 0) && neqb NumF (mget NumF sd 0 0) (fofZ 0) | Raise _ => false end.
Example C102_example : exists mu sd Sg : list (list NumF),
  predict_with_cov (fun _ : NumF => fofZ 1 : NumF) one1 (mkmat [[fofZ 1]] 1) one1 [[fofZ 1]] [[fofZ 1]] fex_hyps "se" None = Ok (mu, sd, Sg) /\
  nlt NumF (mget NumF Sg 0 0) (fofZ 0) = true /\ neqb NumF (mget NumF sd 0 0) (fofZ 0) = true /\ deviation_of (mget NumF Sg 0 0) (mget NumF sd 0 0).
Proof.
  assert (K : negative_var (predict_with_cov (fun _ : NumF => fofZ 1 : NumF) one1 (mkmat [[fofZ 1]] 1) one1 [[fofZ 1]] [[fofZ 1]] fex_hyps "se" None) = true) by (vm_compute; reflexivity).
  destruct (predict_with_cov (fun _ : NumF => fofZ 1 : NumF) one1 (mkmat [[fofZ 1]] 1) one1 [[fofZ 1]] [[fofZ 1]] fex_hyps "se" None) as [[[mu sd] Sg]|] eqn:E; [|discriminate].
  exists mu, sd, Sg. split; [reflexivity|]. cbn [negative_var] in K. apply andb_true_iff in K. destruct K as (K1 & K2). split; [exact K1|]. split; [exact K2|].
  exact (C102_gp _ _ _ _ _ _ _ _ _ _ _ _ E 0%nat ltac:(cbn; lia)).
Qed.
