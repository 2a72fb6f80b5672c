(** Side-by-side executions of the methods of BayesianOptimization; stopping, resuming and using an object again. *)
From Verif Require Import Base Lists Num Monad UtilsModel HypsModel CovModel GPModel HypOptModel TreesModel WrapperModel WrapperSpec WrapperProofs
  BOModel BOAcqModel BOFullModel BOProgram BOObject ResumeSpec RelProofs ResumeProofs.
From Coq Require Import List ZArith Bool String Lia Arith.
Import ListNotations.
Set Implicit Arguments.
Unset Strict Implicit.
Local Open Scope string_scope.

Arguments cp_refl {N W same get_samples lbfgsb direct cma time_ minimize after choice uniform fun_target}.
Arguments cp_sym {N W same get_samples lbfgsb direct cma time_ minimize after choice uniform fun_target}.
Arguments cp_trans {N W same get_samples lbfgsb direct cma time_ minimize after choice uniform fun_target}.
Arguments cp_time {N W same get_samples lbfgsb direct cma time_ minimize after choice uniform fun_target}.
Arguments cp_samples {N W same get_samples lbfgsb direct cma time_ minimize after choice uniform fun_target}.
Arguments cp_lbfgsb {N W same get_samples lbfgsb direct cma time_ minimize after choice uniform fun_target}.
Arguments cp_direct {N W same get_samples lbfgsb direct cma time_ minimize after choice uniform fun_target}.
Arguments cp_cma {N W same get_samples lbfgsb direct cma time_ minimize after choice uniform fun_target}.
Arguments cp_minimize {N W same get_samples lbfgsb direct cma time_ minimize after choice uniform fun_target}.
Arguments cp_after {N W same get_samples lbfgsb direct cma time_ minimize after choice uniform fun_target}.
Arguments cp_choice {N W same get_samples lbfgsb direct cma time_ minimize after choice uniform fun_target}.
Arguments cp_uniform {N W same get_samples lbfgsb direct cma time_ minimize after choice uniform fun_target}.
Arguments cp_target {N W same get_samples lbfgsb direct cma time_ minimize after choice uniform fun_target}.

Section Settings.
Context (N : Num).
(** same settings up to num_iter; with [b] the same stored hyperparameters too, otherwise they do not matter *)
Definition RO (b : bool) (ob1 ob2 : bo_object N) : Prop :=
  same_settings (set_num_iter N 0 ob1) (set_num_iter N 0 ob2) /\ (if b then set_num_iter N 0 ob1 = set_num_iter N 0 ob2 else memoryless ob1).
Lemma settings_refl (ob : bo_object N) : same_settings ob ob. Proof. destruct ob; cbn; auto. Qed.
Lemma settings_sym (ob ob' : bo_object N) : same_settings ob ob' -> same_settings ob' ob. Proof. destruct ob, ob'; cbn; intuition congruence. Qed.
Lemma settings_trans (a b c : bo_object N) : same_settings a b -> same_settings b c -> same_settings a c. Proof. destruct a, b, c; cbn; intuition congruence. Qed.
Lemma settings_memoryless (ob ob' : bo_object N) : same_settings (set_num_iter N 0 ob) (set_num_iter N 0 ob') -> memoryless ob -> memoryless ob'.
Proof. destruct ob, ob'; cbn; try tauto. intros (E & _) H. apply (f_equal (a_mlm N)) in E. cbn in E. congruence. Qed.
Lemma RO_sym b ob ob' : RO b ob ob' -> RO b ob' ob.
Proof. intros (H1 & H2). split; [now apply settings_sym|]. destruct b; [congruence|]. now apply settings_memoryless with ob. Qed.
Lemma RO_trans b x y z : RO b x y -> RO b y z -> RO b x z.
Proof. intros (H1 & H2) (H3 & H4). split; [now apply settings_trans with (set_num_iter N 0 y)|]. destruct b; [congruence|exact H2]. Qed.
Lemma RO_left b x y : RO b x y -> RO b x x. Proof. intros H. apply RO_trans with y; [exact H|now apply RO_sym]. Qed.
Lemma set_set j k (ob : bo_object N) : set_num_iter N j (set_num_iter N k ob) = set_num_iter N j ob. Proof. destruct ob; reflexivity. Qed.
Lemma set_settings k ob ob' : same_settings ob ob' -> same_settings (set_num_iter N k ob) (set_num_iter N k ob').
Proof. destruct ob, ob'; cbn; intuition congruence. Qed.
Lemma set_memoryless k (ob : bo_object N) : memoryless (set_num_iter N k ob) <-> memoryless ob. Proof. destruct ob; cbn; tauto. Qed.
End Settings.

Section Objects.
Context (N : Num) (nexp nlog cdf pdf : N -> N) (npi : N).
Notation mx := (list (list N)).
Context (inv chol : mx -> res mx) (cho_solve : mx -> mx -> res mx) (slogdet : mx -> N * N) (ngamma ndigamma : N -> N).
Context (W : Type) (RW : W -> W -> Prop) (RT : N -> N -> Prop).
Hypothesis HRT : forall a b c d, RT a b -> RT c d -> RT (nsub N a c) (nsub N b d).
Context (get_samples : string -> Z -> option Z -> W -> W * res (list (list N))).
Context (lbfgsb : (list N -> res N) -> list N -> list (N * N) -> W -> W * res (list N)).
Context (direct : (list N -> res N) -> list (N * N) -> W -> W * res (list N)).
Context (cma : (list N -> res N) -> list N -> list (N * N) -> W -> W * res (list N)).
Context (time_ : W -> W * N).
Context (minimize : W -> minimizer N) (after : mat N -> list N -> string -> W -> W).
Context (prior_mu : prior N).
Context (choice : nat -> nat -> bool -> W -> W * res (list nat)) (uniform : N -> N -> W -> W * res N) (trunc : N -> option Z)
  (schedule : nat -> list nat).
Context (target : list N -> W -> W * res N).
Hypotheses (HG : forall m n s, alike RW (get_samples m n s)) (HL : forall f x r, alike RW (lbfgsb f x r)) (HD : forall f r, alike RW (direct f r))
  (HM : forall f x r, alike RW (cma f x r)) (HMI : forall w1 w2, RW w1 w2 -> minimize w1 = minimize w2)
  (HA : forall X Y m w1 w2, RW w1 w2 -> RW (after X Y m w1) (after X Y m w2)) (HC : forall n k b, alike RW (choice n k b)) (HU : forall a b, alike RW (uniform a b))
  (HTG : forall x, alike RW (target x)).
Hypothesis HT : forall w1 w2, RW w1 w2 -> RW (fst (time_ w1)) (fst (time_ w2)) /\ RT (snd (time_ w1)) (snd (time_ w2)).

Notation osingle := (object_single N nexp nlog cdf pdf npi inv chol cho_solve slogdet ngamma ndigamma W get_samples lbfgsb direct cma time_ minimize after prior_mu choice uniform trunc schedule).

Lemma untraced_rel {St A} (RS : St -> St -> Prop) (R : A -> A -> Prop) (f : A -> info N) m :
  rel (RSW RW RS) (@eq (fitev N)) (pair_rel R) m m -> (forall g h, R g h -> info_rel RT (f g) (f h)) -> forall s s' w w', RS s s' -> RW w w' ->
  match untraced N W f m (s, w), untraced N W f m (s', w') with (s1, w1, r1), (s2, w2, r2) => RS s1 s2 /\ RW w1 w2 /\ rres (pair_rel (info_rel RT)) r1 r2 end.
Proof.
  intros H K s s' w w' HS HW. specialize (H (s, w) (s', w') (conj HS HW)). unfold untraced.
  destruct (m (s, w)) as [[[s1 w1] t1] r1], (m (s', w')) as [[[s2 w2] t2] r2]. destruct H as ((H1 & H2) & _ & H3). split; [exact H1|]. split; [exact H2|].
  destruct r1 as [[p g]|e], r2 as [[p' g']|e']; cbn in *; try contradiction; [|exact H3]. destruct H3 as (H3 & H4). cbn in H3, H4. subst p'. split; [reflexivity|]. now apply K.
Qed.
Lemma gp_fit_alike X Y c m s b : alike RW (@gp_fit_full N nexp nlog npi inv chol cho_solve slogdet W minimize after prior_mu X Y c m s b).
Proof. intros w1 w2 HW. unfold gp_fit_full. cbn [fst snd]. rewrite (HMI HW). split; [now apply HA|reflexivity]. Qed.
Lemma tp_fit_alike X Y c m b : alike RW (@tp_fit_full N nexp nlog npi inv slogdet ngamma ndigamma W minimize after prior_mu X Y c m b).
Proof. intros w1 w2 HW. unfold tp_fit_full. cbn [fst snd]. rewrite (HMI HW). split; [now apply HA|reflexivity]. Qed.

Lemma object_single_rel b X Y ob ob' w w' : RO b ob ob' -> RW w w' ->
  match osingle X Y (ob, w), osingle X Y (ob', w') with (ob1, w1, r1), (ob2, w2, r2) =>
    RO b ob1 ob2 /\ RW w1 w2 /\ rres (pair_rel (info_rel RT)) r1 r2 /\ ob_args N ob1 = ob_args N ob /\ ob_args N ob2 = ob_args N ob' end.
Proof.
  intros (HO & HB) HW. destruct ob as [a o s|a o s|a o], ob' as [a' o' s'|a' o' s'|a' o']; cbn [set_num_iter same_settings] in HO; try contradiction; destruct HO as (EA & <-);
    pose proof (f_equal (a_samp N) EA) as E1; pose proof (f_equal (a_num_samples N) EA) as E2; pose proof (f_equal (a_mlm N) EA) as E3; cbn in E1, E2, E3; cbn [object_single]; rewrite <- E1, <- E2, <- ?E3.
  - assert (Q : forall RS : gp_state N -> gp_state N -> Prop, (a_mlm N a = "converged" -> forall s s', RS s s' -> s = s') -> (a_mlm N a = "converged" -> forall s, RS s s) ->
      (forall s s' h, RS s s' -> RS (mkgps N (gs_hist N s ++ [h]) (gs_opt N s)) (mkgps N (gs_hist N s' ++ [h]) (gs_opt N s'))) -> RS s s' ->
      match gp_single N nexp nlog cdf pdf npi inv chol cho_solve slogdet W get_samples lbfgsb direct cma time_ minimize after prior_mu o (a_samp N a) (a_num_samples N a) (a_mlm N a) X Y (s, w),
        gp_single N nexp nlog cdf pdf npi inv chol cho_solve slogdet W get_samples lbfgsb direct cma time_ minimize after prior_mu o (a_samp N a) (a_num_samples N a) (a_mlm N a) X Y (s', w') with
        (s1, w1, r1), (s2, w2, r2) => RS s1 s2 /\ RW w1 w2 /\ rres (pair_rel (info_rel RT)) r1 r2 end).
    { intros RS A1 A2 A3 HS. unfold gp_single. apply (untraced_rel (RS := RS) (R := gi_rel RT)); [|intros g h H; exact H|exact HS|exact HW].
      unfold gp_optimize_full. apply gp_optimize_rel; try assumption. intros. apply gp_fit_alike. }
    destruct b.
    + assert (HS : s = s') by (cbn in HB; congruence). specialize (Q eq ltac:(auto) ltac:(auto) ltac:(intros; congruence) HS). revert Q.
      match goal with |- context [gp_single ?a1 ?a2 ?a3 ?a4 ?a5 ?a6 ?a7 ?a8 ?a9 ?a10 ?a11 ?a12 ?a13 ?a14 ?a15 ?a16 ?a17 ?a18 ?a19 ?a20 ?a21 ?a22 ?a23 ?a24 ?a25 (s, w)] =>
        destruct (gp_single a1 a2 a3 a4 a5 a6 a7 a8 a9 a10 a11 a12 a13 a14 a15 a16 a17 a18 a19 a20 a21 a22 a23 a24 a25 (s, w)) as [[s1 w1] r1],
          (gp_single a1 a2 a3 a4 a5 a6 a7 a8 a9 a10 a11 a12 a13 a14 a15 a16 a17 a18 a19 a20 a21 a22 a23 a24 a25 (s', w')) as [[s2 w2] r2] end.
      intros (H1 & H2 & H3). subst s2. split; [|auto]. split; cbn; [auto|congruence].
    + cbn in HB. specialize (Q (fun _ _ => True) (fun E => False_ind _ (HB E)) (fun _ _ => I) (fun _ _ _ _ => I) I). revert Q.
      match goal with |- context [gp_single ?a1 ?a2 ?a3 ?a4 ?a5 ?a6 ?a7 ?a8 ?a9 ?a10 ?a11 ?a12 ?a13 ?a14 ?a15 ?a16 ?a17 ?a18 ?a19 ?a20 ?a21 ?a22 ?a23 ?a24 ?a25 (s, w)] =>
        destruct (gp_single a1 a2 a3 a4 a5 a6 a7 a8 a9 a10 a11 a12 a13 a14 a15 a16 a17 a18 a19 a20 a21 a22 a23 a24 a25 (s, w)) as [[s1 w1] r1],
          (gp_single a1 a2 a3 a4 a5 a6 a7 a8 a9 a10 a11 a12 a13 a14 a15 a16 a17 a18 a19 a20 a21 a22 a23 a24 a25 (s', w')) as [[s2 w2] r2] end.
      intros (H1 & H2 & H3). split; [|auto]. split; cbn; auto.
  - assert (Q : forall RS : list (dict N) -> list (dict N) -> Prop, (forall s s' h, RS s s' -> RS (s ++ [h])%list (s' ++ [h])%list) -> RS s s' ->
      match tp_single N nexp nlog cdf pdf npi inv slogdet ngamma ndigamma W get_samples lbfgsb direct cma time_ minimize after prior_mu o (a_samp N a) (a_num_samples N a) X Y (s, w),
        tp_single N nexp nlog cdf pdf npi inv slogdet ngamma ndigamma W get_samples lbfgsb direct cma time_ minimize after prior_mu o (a_samp N a) (a_num_samples N a) X Y (s', w') with
        (s1, w1, r1), (s2, w2, r2) => RS s1 s2 /\ RW w1 w2 /\ rres (pair_rel (info_rel RT)) r1 r2 end).
    { intros RS A3 HS. unfold tp_single. apply (untraced_rel (RS := RS) (R := gi_rel RT)); [|intros g h H; exact H|exact HS|exact HW].
      unfold tp_optimize_full. apply tp_optimize_rel; try assumption. intros. apply tp_fit_alike. }
    assert (Q2 := Q (if b then eq else fun _ _ => True)).
    assert (Q3 : match tp_single N nexp nlog cdf pdf npi inv slogdet ngamma ndigamma W get_samples lbfgsb direct cma time_ minimize after prior_mu o (a_samp N a) (a_num_samples N a) X Y (s, w),
        tp_single N nexp nlog cdf pdf npi inv slogdet ngamma ndigamma W get_samples lbfgsb direct cma time_ minimize after prior_mu o (a_samp N a) (a_num_samples N a) X Y (s', w') with
        (s1, w1, r1), (s2, w2, r2) => (if b then eq else fun _ _ => True) s1 s2 /\ RW w1 w2 /\ rres (pair_rel (info_rel RT)) r1 r2 end).
    { apply Q2; destruct b; cbn; auto; [intros; congruence|]. cbn in HB; congruence. }
    clear Q Q2. revert Q3.
      match goal with |- context [tp_single ?a1 ?a2 ?a3 ?a4 ?a5 ?a6 ?a7 ?a8 ?a9 ?a10 ?a11 ?a12 ?a13 ?a14 ?a15 ?a16 ?a17 ?a18 ?a19 ?a20 ?a21 ?a22 ?a23 ?a24 (s, w)] =>
        destruct (tp_single a1 a2 a3 a4 a5 a6 a7 a8 a9 a10 a11 a12 a13 a14 a15 a16 a17 a18 a19 a20 a21 a22 a23 a24 (s, w)) as [[s1 w1] r1],
          (tp_single a1 a2 a3 a4 a5 a6 a7 a8 a9 a10 a11 a12 a13 a14 a15 a16 a17 a18 a19 a20 a21 a22 a23 a24 (s', w')) as [[s2 w2] r2] end.
    intros (H1 & H2 & H3). split; [|auto]. split; cbn; [auto|]. destruct b; [congruence|exact I].
  - assert (Q : match rf_single N nlog cdf pdf W get_samples time_ choice uniform trunc schedule o (a_samp N a) (a_num_samples N a) X Y (tt, w),
        rf_single N nlog cdf pdf W get_samples time_ choice uniform trunc schedule o (a_samp N a) (a_num_samples N a) X Y (tt, w') with
        (s1, w1, r1), (s2, w2, r2) => s1 = s2 /\ RW w1 w2 /\ rres (pair_rel (info_rel RT)) r1 r2 end).
    { unfold rf_single. apply (untraced_rel (RS := eq) (R := ri_rel RT)); [|intros g h H; exact H|reflexivity|exact HW].
      unfold rf_optimize_full. apply rf_optimize_rel; try assumption. intros. now apply trees_alike. }
    revert Q.
      match goal with |- context [rf_single ?a1 ?a2 ?a3 ?a4 ?a5 ?a6 ?a7 ?a8 ?a9 ?a10 ?a11 ?a12 ?a13 ?a14 ?a15 ?a16 (tt, w)] =>
        destruct (rf_single a1 a2 a3 a4 a5 a6 a7 a8 a9 a10 a11 a12 a13 a14 a15 a16 (tt, w)) as [[s1 w1] r1],
          (rf_single a1 a2 a3 a4 a5 a6 a7 a8 a9 a10 a11 a12 a13 a14 a15 a16 (tt, w')) as [[s2 w2] r2] end.
    intros (H1 & H2 & H3). split; [|auto]. split; cbn; [auto|exact HB].
Qed.

(** worlds with an object in it *)
Definition ROW (b : bool) (x y : bo_object N * W) : Prop := RO b (fst x) (fst y) /\ RW (snd x) (snd y).
Lemma single_rel b X Y x y : ROW b x y -> ROW b (fst (osingle X Y x)) (fst (osingle X Y y)) /\ rres (pair_rel (info_rel RT)) (snd (osingle X Y x)) (snd (osingle X Y y)).
Proof.
  destruct x as [ob w], y as [ob' w']. intros (H1 & H2). cbn [fst snd] in H1, H2. pose proof (object_single_rel X Y H1 H2) as Q.
  destruct (osingle X Y (ob, w)) as [[ob1 w1] r1], (osingle X Y (ob', w')) as [[ob2 w2] r2]. destruct Q as (Q1 & Q2 & Q3 & _). split; [split; assumption|exact Q3].
Qed.
Lemma target_row b x v w : ROW b v w -> ROW b (fst (onsnd W (target x) v)) (fst (onsnd W (target x) w)) /\ snd (onsnd W (target x) v) = snd (onsnd W (target x) w).
Proof.
  destruct v as [o v], w as [p w]. intros (H1 & H2). cbn [fst snd] in *. destruct (HTG x H2) as (H3 & H4). unfold onsnd. cbn [fst snd].
  destruct (target x v), (target x w). cbn in *. split; [now split|exact H4].
Qed.
Lemma time_row b v w : ROW b v w -> ROW b (fst (onsnd W time_ v)) (fst (onsnd W time_ w)) /\ RT (snd (onsnd W time_ v)) (snd (onsnd W time_ w)).
Proof.
  destruct v as [o v], w as [p w]. intros (H1 & H2). cbn [fst snd] in *. destruct (HT H2) as (H3 & H4). unfold onsnd. cbn [fst snd].
  destruct (time_ v), (time_ w). cbn in *. split; [now split|exact H4].
Qed.
Lemma initials_row b m n s v w : ROW b v w -> ROW b (fst (onsnd W (get_initials N W get_samples m n s) v)) (fst (onsnd W (get_initials N W get_samples m n s) w)) /\
  snd (onsnd W (get_initials N W get_samples m n s) v) = snd (onsnd W (get_initials N W get_samples m n s) w).
Proof.
  destruct v as [o v], w as [p w]. intros (H1 & H2). cbn [fst snd] in *. destruct (HG m n s H2) as (H3 & H4). unfold onsnd, get_initials. cbn [fst snd].
  destruct (get_samples m n s v), (get_samples m n s w). cbn in *. split; [now split|now rewrite H4].
Qed.
End Objects.

Lemma args_of_settings N (a b : bo_object N) : same_settings a b -> ob_args N a = ob_args N b.
Proof. destruct a, b; cbn; tauto. Qed.
Lemma num_iter_set N k (ob : bo_object N) : a_num_iter N (ob_args N (set_num_iter N k ob)) = k.
Proof. destruct ob; reflexivity. Qed.
Lemma init_set N k (ob : bo_object N) : a_init N (ob_args N (set_num_iter N k ob)) = a_init N (ob_args N ob).
Proof. destruct ob; reflexivity. Qed.

Section Statements.
Context (N : Num) (nexp nlog cdf pdf : N -> N) (npi : N).
Notation mx := (list (list N)).
Context (inv chol : mx -> res mx) (cho_solve : mx -> mx -> res mx) (slogdet : mx -> N * N) (ngamma ndigamma : N -> N).
Context (W : Type).
Context (get_samples : string -> Z -> option Z -> W -> W * res (list (list N))).
Context (lbfgsb : (list N -> res N) -> list N -> list (N * N) -> W -> W * res (list N)).
Context (direct : (list N -> res N) -> list (N * N) -> W -> W * res (list N)).
Context (cma : (list N -> res N) -> list N -> list (N * N) -> W -> W * res (list N)).
Context (time_ : W -> W * N).
Context (minimize : W -> minimizer N) (after : mat N -> list N -> string -> W -> W).
Context (prior_mu : prior N).
Context (choice : nat -> nat -> bool -> W -> W * res (list nat)) (uniform : N -> N -> W -> W * res N) (trunc : N -> option Z)
  (schedule : nat -> list nat).
Context (target : list N -> W -> W * res N).
Notation osingle := (object_single N nexp nlog cdf pdf npi inv chol cho_solve slogdet ngamma ndigamma W get_samples lbfgsb direct cma time_ minimize after prior_mu choice uniform trunc schedule).
Notation oall := (object_all_initial N nexp nlog cdf pdf npi inv chol cho_solve slogdet ngamma ndigamma W get_samples lbfgsb direct cma time_ minimize after prior_mu choice uniform trunc schedule target).
Notation oinputs := (object_initial_inputs N nexp nlog cdf pdf npi inv chol cho_solve slogdet ngamma ndigamma W get_samples lbfgsb direct cma time_ minimize after prior_mu choice uniform trunc schedule target).
Notation ooptimize := (object_optimize N nexp nlog cdf pdf npi inv chol cho_solve slogdet ngamma ndigamma W get_samples lbfgsb direct cma time_ minimize after prior_mu choice uniform trunc schedule target).

(** *** resuming *)
Section Private.
Context (same : W -> W -> Prop).
Hypothesis CP : clock_is_private N W same get_samples lbfgsb direct cma time_ minimize after choice uniform target.
Notation any := (fun _ _ : N => True).
Lemma time_same w1 w2 : same w1 w2 -> same (fst (time_ w1)) (fst (time_ w2)) /\ any (snd (time_ w1)) (snd (time_ w2)).
Proof. intros H. split; [|exact I]. apply (cp_trans CP) with w2; [|apply (cp_time CP)]. apply (cp_trans CP) with w1; [apply (cp_sym CP), (cp_time CP)|exact H]. Qed.

Section B.
Context (b : bool).
Notation RW := (@ROW N W same b).
Lemma row_sym v w : RW v w -> RW w v.
Proof. intros (H1 & H2). split; [now apply RO_sym|now apply (cp_sym CP)]. Qed.
Lemma row_trans u v w : RW u v -> RW v w -> RW u w.
Proof. intros (H1 & H2) (H3 & H4). split; [now apply RO_trans with (fst v)|now apply (cp_trans CP) with (snd v)]. Qed.
Lemma single_same X Y x y : RW x y -> RW (fst (osingle X Y x)) (fst (osingle X Y y)) /\ rres (pair_rel (info_rel any)) (snd (osingle X Y x)) (snd (osingle X Y y)).
Proof.
  apply single_rel; try (intros; exact I); try apply CP. apply time_same.
Qed.
Lemma row_time x : RW x x -> RW x (fst (onsnd W time_ x)).
Proof. destruct x as [ob w]. unfold onsnd. cbn [fst snd]. intros (H0 & _). pose proof (cp_time CP w) as H. destruct (time_ w). split; [exact H0|exact H]. Qed.

Lemma RO_set_left k ob ob' : RO b ob ob' -> RO b (set_num_iter N k ob) ob'.
Proof. intros (H1 & H2). split; [now rewrite set_set|]. destruct b; [now rewrite set_set|now apply set_memoryless]. Qed.
Lemma RO_set_right k ob ob' : RO b ob ob' -> RO b ob (set_num_iter N k ob').
Proof. intros H. now apply RO_sym, RO_set_left, RO_sym. Qed.
(** continue with num_iter = m *)
Definition continue (m : nat) (X : mat N) (Y : list N) (x : bo_object N * W) := oall X Y (set_num_iter N (Z.of_nat m) (fst x), snd x).

Lemma continue_class m first whole :
  resumes RW first (class_all_initial N _ (fun x => onsnd W (target x)) (onsnd W time_) osingle (Z.of_nat m)) whole -> resumes RW first (continue m) whole.
Proof.
  destruct first as [[w1 t1] [r1|e]], whole as [[w3 t3] r3]; cbn [resumes]; [|tauto]. intros H v HV.
  unfold continue, object_all_initial. cbn [fst]. rewrite num_iter_set. apply (H (set_num_iter N (Z.of_nat m) (fst v), snd v)).
  destruct HV as (H1 & H2). split; [now apply RO_set_right|exact H2].
Qed.
Lemma resume_object ob w : RO b ob ob ->
  (forall n m X Y, resumes RW (oall X Y (set_num_iter N (Z.of_nat n) ob, w)) (continue m) (oall X Y (set_num_iter N (Z.of_nat (n + m)) ob, w))) /\
  (forall n m X, resumes RW (oinputs X (set_num_iter N (Z.of_nat n) ob, w)) (continue m) (oinputs X (set_num_iter N (Z.of_nat (n + m)) ob, w))) /\
  (forall n m num_init seed, resumes RW (ooptimize num_init seed (set_num_iter N (Z.of_nat n) ob, w)) (continue m) (ooptimize num_init seed (set_num_iter N (Z.of_nat (n + m)) ob, w))).
Proof.
  intros HO. assert (HR : forall j k, RW (set_num_iter N j ob, w) (set_num_iter N k ob, w)).
  { intros j k. split; [now apply RO_set_left, RO_set_right|apply (cp_refl CP)]. }
  assert (HTGR := @target_row N W same target (cp_target CP) b). assert (HGIR := @initials_row N W same get_samples (cp_samples CP) b).
  split; [|split]; intros n m.
  - intros X Y. apply continue_class. unfold object_all_initial. cbn [fst]. rewrite !num_iter_set.
    exact (@resume_all N _ RW _ _ _ row_sym row_trans row_time HTGR single_same n m X Y _ _ (HR _ _)).
  - intros X. apply continue_class. unfold object_initial_inputs. cbn [fst]. rewrite !num_iter_set.
    exact (@resume_inputs N _ RW _ _ _ row_sym row_trans row_time HTGR single_same n m X _ _ (HR _ _)).
  - intros num_init seed. apply continue_class. unfold object_optimize, run_class. cbn [fst]. rewrite !num_iter_set, !init_set.
    exact (@resume_optimize N _ RW _ _ _ _ row_sym row_trans row_time HTGR single_same HGIR _ n m num_init seed _ _ (HR _ _)).
Qed.
End B.

Lemma resumes_iff {V : Type} (R R' : V -> V -> Prop) first second whole :
  (forall v w, R v w <-> R' v w) -> resumes (N := N) R first second whole -> resumes R' first second whole.
Proof.
  intros H. destruct first as [[w1 t1] [r1|e]], whole as [[w3 t3] r3]; cbn [resumes]; [|now rewrite H].
  intros K v HV. apply H in HV. specialize (K v HV). destruct (second (ro_X r1) (ro_Y r1) v) as [[w2 t2] r2]. now rewrite <- H.
Qed.
Lemma row_same x y : ROW same true x y <-> same_object (N := N) same x y.
Proof. unfold ROW, RO, same_object. split; [tauto|]. intros (H1 & H2). repeat split; auto. rewrite H1. apply settings_refl. Qed.
Lemma row_equal x y : ROW same false x y <-> equal_object (N := N) same x y.
Proof. unfold ROW, RO, equal_object. tauto. Qed.

Theorem resume_same_object ob w :
  (forall n m X Y, resumes (same_object same) (oall X Y (set_num_iter N (Z.of_nat n) ob, w)) (continue m) (oall X Y (set_num_iter N (Z.of_nat (n + m)) ob, w))) /\
  (forall n m X, resumes (same_object same) (oinputs X (set_num_iter N (Z.of_nat n) ob, w)) (continue m) (oinputs X (set_num_iter N (Z.of_nat (n + m)) ob, w))) /\
  (forall n m num_init seed, resumes (same_object same) (ooptimize num_init seed (set_num_iter N (Z.of_nat n) ob, w)) (continue m) (ooptimize num_init seed (set_num_iter N (Z.of_nat (n + m)) ob, w))).
Proof.
  destruct (@resume_object true ob w) as (H1 & H2 & H3); [split; [apply settings_refl|reflexivity]|].
  split; [|split]; intros; apply (resumes_iff row_same); auto.
Qed.
Theorem resume_equal_object ob w : memoryless ob ->
  (forall n m X Y, resumes (equal_object same) (oall X Y (set_num_iter N (Z.of_nat n) ob, w)) (continue m) (oall X Y (set_num_iter N (Z.of_nat (n + m)) ob, w))) /\
  (forall n m X, resumes (equal_object same) (oinputs X (set_num_iter N (Z.of_nat n) ob, w)) (continue m) (oinputs X (set_num_iter N (Z.of_nat (n + m)) ob, w))) /\
  (forall n m num_init seed, resumes (equal_object same) (ooptimize num_init seed (set_num_iter N (Z.of_nat n) ob, w)) (continue m) (ooptimize num_init seed (set_num_iter N (Z.of_nat (n + m)) ob, w))).
Proof.
  intros HM. destruct (@resume_object false ob w) as (H1 & H2 & H3); [split; [apply settings_refl|exact HM]|].
  split; [|split]; intros; apply (resumes_iff row_equal); auto.
Qed.
End Private.

(** *** using an object again *)
Lemma eq_alike {A} (f : W -> W * res A) : alike eq f. Proof. intros w ? <-. auto. Qed.
Lemma event_eq t u : Forall2 (event_rel (N := N) eq) t u -> t = u.
Proof.
  induction 1 as [|e f t u H F IH]; [reflexivity|]. f_equal; [|exact IH]. destruct e as [X Y r|x r], f as [X' Y' r'|x' r']; cbn in H; try contradiction.
  - destruct H as (-> & -> & H). f_equal. destruct r as [[p [a b c d]]|e], r' as [[p' [a' b' c' d']]|e']; cbn in H; try contradiction; [|congruence].
    destruct H as (H1 & H2 & H3 & H4 & H5). cbn in *. congruence.
  - destruct H. congruence.
Qed.
Lemma run_eq r s : rres (run_rel (N := N) eq) r s -> r = s.
Proof.
  destruct r as [[a b c d e]|e], s as [[a' b' c' d' e']|e']; cbn; try contradiction; [|congruence]. intros (H1 & H2 & H3 & H4 & H5). cbn in *.
  apply Forall2_eq_list in H3, H4, H5. congruence.
Qed.
Section Reuse.
Context (ob ob' : bo_object N).
Hypotheses (HS : same_settings ob ob') (HM : memoryless ob).
Notation RW := (@ROW N W eq false).
Lemma start_row w : RW (ob, w) (ob', w).
Proof. split; [split; [now apply set_settings|exact HM]|reflexivity]. Qed.
Lemma time_eq w1 w2 : w1 = w2 -> fst (time_ w1) = fst (time_ w2) /\ snd (time_ w1) = snd (time_ w2). Proof. intros <-. auto. Qed.
Lemma HRTe (a b c d : N) : a = b -> c = d -> nsub N a c = nsub N b d. Proof. congruence. Qed.
Lemma single_e X Y x y : RW x y -> RW (fst (osingle X Y x)) (fst (osingle X Y y)) /\ rres (pair_rel (info_rel eq)) (snd (osingle X Y x)) (snd (osingle X Y y)).
Proof. apply single_rel; try (intros; apply eq_alike); try congruence. apply time_eq. Qed.
Lemma use_of (m m' : M (bo_object N * W) (event N) (run_out N)) w : rel RW (event_rel eq) (run_rel eq) m m' -> same_use (m (ob, w)) (m' (ob', w)).
Proof.
  intros H. specialize (H _ _ (start_row w)). unfold same_use. destruct (m (ob, w)) as [[[ob1 w1] t1] r1], (m' (ob', w)) as [[[ob2 w2] t2] r2].
  destruct H as (((H1 & _) & H2) & H3 & H4). cbn in H1, H2. apply event_eq in H3. apply run_eq in H4. auto.
Qed.
Theorem reuse_all X Y w : same_use (oall X Y (ob, w)) (oall X Y (ob', w)).
Proof.
  unfold object_all_initial. cbn [fst]. rewrite <- (args_of_settings HS). apply use_of.
  apply class_all_rel; [apply HRTe|apply target_row; intros; apply eq_alike|apply time_row, time_eq|apply single_e].
Qed.
Theorem reuse_inputs X w : same_use (oinputs X (ob, w)) (oinputs X (ob', w)).
Proof.
  unfold object_initial_inputs. cbn [fst]. rewrite <- (args_of_settings HS). apply use_of.
  apply class_inputs_rel; [apply HRTe|apply target_row; intros; apply eq_alike|apply time_row, time_eq|apply single_e].
Qed.
Theorem reuse_optimize num_init seed w : same_use (ooptimize num_init seed (ob, w)) (ooptimize num_init seed (ob', w)).
Proof.
  unfold object_optimize, run_class. cbn [fst]. rewrite <- (args_of_settings HS). apply use_of.
  apply class_optimize_rel; [apply HRTe|apply target_row; intros; apply eq_alike|apply time_row, time_eq|apply single_e|apply initials_row; intros; apply eq_alike].
Qed.
End Reuse.

(** *** the settings of an object never change *)
Section Kept.
Context (ob : bo_object N).
Definition RK (x y : bo_object N * W) : Prop := x = y /\ same_settings ob (fst x).
Lemma onsnd_kept {A} (f : W -> W * A) x y : RK x y -> RK (fst (onsnd W f x)) (fst (onsnd W f y)) /\ snd (onsnd W f x) = snd (onsnd W f y).
Proof. intros (<- & H). destruct x as [o w]. unfold onsnd. cbn [fst snd] in *. destruct (f w). repeat split. exact H. Qed.
Lemma single_settings X Y x : same_settings (fst x) (fst (fst (osingle X Y x))).
Proof.
  destruct x as [[a o s|a o s|a o] w]; cbn [fst object_single].
  - match goal with |- context [gp_single ?a1 ?a2 ?a3 ?a4 ?a5 ?a6 ?a7 ?a8 ?a9 ?a10 ?a11 ?a12 ?a13 ?a14 ?a15 ?a16 ?a17 ?a18 ?a19 ?a20 ?a21 ?a22 ?a23 ?a24 ?a25 (s, w)] =>
      destruct (gp_single a1 a2 a3 a4 a5 a6 a7 a8 a9 a10 a11 a12 a13 a14 a15 a16 a17 a18 a19 a20 a21 a22 a23 a24 a25 (s, w)) as [[s1 w1] r1] end. cbn. auto.
  - match goal with |- context [tp_single ?a1 ?a2 ?a3 ?a4 ?a5 ?a6 ?a7 ?a8 ?a9 ?a10 ?a11 ?a12 ?a13 ?a14 ?a15 ?a16 ?a17 ?a18 ?a19 ?a20 ?a21 ?a22 ?a23 ?a24 (s, w)] =>
      destruct (tp_single a1 a2 a3 a4 a5 a6 a7 a8 a9 a10 a11 a12 a13 a14 a15 a16 a17 a18 a19 a20 a21 a22 a23 a24 (s, w)) as [[s1 w1] r1] end. cbn. auto.
  - match goal with |- context [rf_single ?a1 ?a2 ?a3 ?a4 ?a5 ?a6 ?a7 ?a8 ?a9 ?a10 ?a11 ?a12 ?a13 ?a14 ?a15 ?a16 (tt, w)] =>
      destruct (rf_single a1 a2 a3 a4 a5 a6 a7 a8 a9 a10 a11 a12 a13 a14 a15 a16 (tt, w)) as [[s1 w1] r1] end. cbn. auto.
Qed.
Lemma info_refl (r : res (list N * info N)) : rres (pair_rel (info_rel eq)) r r.
Proof. destruct r as [[p g]|e]; cbn; [|reflexivity]. split; [reflexivity|]. repeat split. Qed.
Lemma single_kept X Y x y : RK x y -> RK (fst (osingle X Y x)) (fst (osingle X Y y)) /\ rres (pair_rel (info_rel eq)) (snd (osingle X Y x)) (snd (osingle X Y y)).
Proof.
  intros (<- & H). split; [|apply info_refl]. split; [reflexivity|]. apply settings_trans with (fst x); [exact H|apply single_settings].
Qed.
Lemma kept_of (m : M (bo_object N * W) (event N) (run_out N)) w : rel RK (event_rel eq) (run_rel eq) m m -> same_settings ob (fst (fst (fst (m (ob, w))))).
Proof.
  intros H. specialize (H (ob, w) (ob, w) (conj eq_refl (settings_refl _))). destruct (m (ob, w)) as [[x t] r]. now destruct H as ((_ & H) & _).
Qed.
Theorem settings_kept w :
  (forall X Y, same_settings ob (fst (fst (fst (oall X Y (ob, w)))))) /\
  (forall X, same_settings ob (fst (fst (fst (oinputs X (ob, w)))))) /\
  (forall num_init seed, same_settings ob (fst (fst (fst (ooptimize num_init seed (ob, w)))))).
Proof.
  unfold object_all_initial, object_initial_inputs, object_optimize, run_class. cbn [fst]. split; [|split]; intros; apply kept_of.
  - apply class_all_rel; [apply HRTe|intros x v u; apply onsnd_kept|apply onsnd_kept|apply single_kept].
  - apply class_inputs_rel; [apply HRTe|intros x v u; apply onsnd_kept|apply onsnd_kept|apply single_kept].
  - apply class_optimize_rel; [apply HRTe|intros x v u; apply onsnd_kept|apply onsnd_kept|apply single_kept|intros m n s v u; apply onsnd_kept].
Qed.
End Kept.
End Statements.
