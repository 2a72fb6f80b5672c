(** The constructor accepts the kernels over sets, but no run with them gets past its first proposal. *)
From Verif Require Import Base Lists Num NumLaws NumFin Monad UtilsModel UtilsSpec HypsModel CovModel GPModel LikModel HypOptModel
  TreesModel WrapperModel WrapperSpec BOModel BOAcqModel BOFullModel BOProgram BOTotalSpec BOTotalRun BOTotalClass BOTotalOpt BOTotalFull.
From Coq Require Import List ZArith Bool String Reals Lra Lia Arith.
Import ListNotations.
Set Implicit Arguments.
Unset Strict Implicit.
Unset Asymmetric Patterns.
Set Bullet Behavior "Strict Subproofs".
Local Open Scope string_scope.
Local Notation N := NumR.

(** the program raises [e] and its trace satisfies Q; or it returns, and the trace, the result and the world do *)
Definition fails {W Ev A} (m : M W Ev A) (w : W) (e : exn) (Q : list Ev -> Prop) : Prop := exists w' t, m w = (w', t, Raise e) /\ Q t.
Definition traces {W Ev A} (m : M W Ev A) (w : W) (Q : list Ev -> A -> W -> Prop) : Prop := exists w' t a, m w = (w', t, Ok a) /\ Q t a w'.
Lemma fails_bind {W Ev A B} (m : M W Ev A) (k : A -> M W Ev B) w e (P : list Ev -> A -> W -> Prop) (Q : list Ev -> Prop) :
  traces m w P -> (forall t a w', P t a w' -> fails (k a) w' e (fun t' => Q (t ++ t')%list)) -> fails (bind m k) w e Q.
Proof.
  intros (w1 & t1 & a & E & H) K. destruct (K t1 a w1 H) as (w2 & t2 & E2 & H2). exists w2, (t1 ++ t2)%list. split; [|exact H2]. unfold bind. now rewrite E, E2.
Qed.
Lemma fails_first {W Ev A B} (m : M W Ev A) (k : A -> M W Ev B) w e Q : fails m w e Q -> fails (bind m k) w e Q.
Proof. intros (w1 & t1 & E & H). exists w1, t1. split; [|exact H]. unfold bind. now rewrite E. Qed.
Lemma traces_bind {W Ev A B} (m : M W Ev A) (k : A -> M W Ev B) w (P : list Ev -> A -> W -> Prop) Q :
  traces m w P -> (forall t a w', P t a w' -> traces (k a) w' (fun t' => Q (t ++ t')%list)) -> traces (bind m k) w Q.
Proof.
  intros (w1 & t1 & a & E & H) K. destruct (K t1 a w1 H) as (w2 & t2 & b & E2 & H2). exists w2, (t1 ++ t2)%list, b. split; [|exact H2]. unfold bind. now rewrite E, E2.
Qed.
Lemma traces_silent {W Ev A} (m : M W Ev A) w (P : A -> W -> Prop) : (exists w' a, m w = (w', [], Ok a) /\ P a w') -> traces m w (fun t a w' => t = [] /\ P a w').
Proof. intros (w' & a & E & H). exists w', [], a. auto. Qed.
Lemma fails_assert {W Ev B} b (k : M W Ev B) w e Q : b = true -> fails k w e Q -> fails (massert b; k) w e Q.
Proof. intros -> (w' & t & E & H). exists w', t. split; [|exact H]. unfold bind, lift. cbn [assert_]. rewrite E. reflexivity. Qed.

Section Class.
Context (St W : Type) (range : list (R * R)).
Notation d := (List.length range).
Context (target : list N -> W -> W * res N) (time_ : W -> W * N).
Hypothesis HT : returns_in range target.
Context (single : mat N -> list N -> St * W -> (St * W) * res (list N * info N)) (Iv : St -> Prop) (e : exn).
Hypothesis HS : forall X Y s w, data d X Y -> Iv s -> exists sw', single X Y (s, w) = (sw', Raise e).
Notation tg := (fun x => onsnd W (target x)).
Notation tm := (onsnd W time_).
Context (get_samples : string -> Z -> option Z -> W -> W * res (list (list N))).
Hypothesis HG : proper_samples range get_samples.

Lemma clock_silent (sw : St * W) : traces (clock N (St * W) tm) sw (fun t _ sw' => t = [] /\ fst sw' = fst sw).
Proof. apply traces_silent. destruct sw as [s w]. unfold clock, ext, onsnd. cbn [fst snd]. destruct (time_ w) as [w' t]. eauto. Qed.
Lemma initials_traced (l : list (list N)) : forall sw, Forall (in_range range) l -> traces (mmapM (class_initial N (St * W) tg tm) l) sw
  (fun t ys sw' => List.length ys = List.length l /\ map fst (calls_of N t) = l /\ fst sw' = fst sw).
Proof.
  induction l as [|x l IH]; intros sw F; cbn [mmapM]; [exists sw, [], []; cbn; auto|]. inversion F as [|? ? Hx F']; subst.
  eapply traces_bind with (P := fun t _ sw' => map fst (calls_of N t) = [x] /\ fst sw' = fst sw).
  - unfold class_initial. eapply traces_bind; [apply clock_silent|]. intros ? t0 [s1 w1] (-> & E1).
    destruct (@HT x w1 Hx) as (w2 & y & E).
    eapply traces_bind with (P := fun t _ sw' => map fst (calls_of N t) = [x] /\ fst sw' = fst sw).
    { exists (s1, w2), [@EvTarget N x (Ok y)], y. unfold call_target, ext_ev, onsnd. cbn [fst snd]. rewrite E. auto. }
    intros t1 y1 sw2 (T1 & E2). eapply traces_bind; [apply clock_silent|]. intros ? t2 sw3 (-> & E3).
    exists sw3, [], (y1, nsub N t2 t0). split; [reflexivity|]. rewrite !app_nil_r. cbn [app]. split; [exact T1|congruence].
  - intros t1 y sw1 (T1 & E1). eapply traces_bind; [apply (IH sw1 F')|]. intros t2 ys sw2 (LY & T2 & E2).
    exists sw2, [], (y :: ys). split; [reflexivity|]. rewrite app_nil_r. unfold calls_of in *. rewrite flat_map_app, map_app, T1, T2. cbn.
    split; [now f_equal|]. split; [reflexivity|congruence].
Qed.
Lemma run_fails meth num_iter num_init seed s w : In meth ["grid"; "sobol"; "halton"; "uniform"; "gaussian"] -> meth <> "grid" -> (0 < num_init)%Z -> (0 < num_iter)%Z -> Iv s ->
  fails (run_class N W get_samples time_ target single meth num_iter num_init seed) (s, w) e (fun t => List.length (calls_of N t) = Z.to_nat num_init).
Proof.
  intros HM NG HN HNI HI. unfold run_class, class_optimize. apply fails_assert; [now apply Z.ltb_lt|].
  eapply fails_bind; [apply clock_silent|]. intros ? ? [s1 w1] (-> & E1). cbn in E1. subst s1.
  destruct (@HG meth num_init seed w1 HM HN) as (w2 & l & E & NE & FL & LL).
  eapply fails_bind with (P := fun t X sw => t = [] /\ X = mkmat l d /\ fst sw = s).
  { apply traces_silent. unfold ext, onsnd, get_initials. cbn [fst snd]. rewrite E. cbn [rbind]. exists (s, w2), (mkmat l d). split; [|auto].
    rewrite (np_array_ok NE (d := d)); [reflexivity|]. eapply Forall_impl; [|exact FL]. intros p; apply range_len. }
  intros ? ? sw2 (-> & -> & E2). apply fails_first. unfold class_initial_inputs. cbn [mrows].
  eapply fails_bind; [apply (initials_traced sw2 FL)|]. intros t ys sw3 (LY & T & E3). apply fails_first. unfold class_all_initial.
  apply fails_assert; [apply Nat.eqb_eq; rewrite map_length; symmetry; exact LY|].
  eapply fails_bind; [apply clock_silent|]. intros ? ? [s4 w4] (-> & E4). apply fails_first.
  destruct (Z.to_nat num_iter) as [|k] eqn:EK; [lia|]. cbn [class_loop]. apply fails_first. unfold class_step.
  eapply fails_bind; [apply clock_silent|]. intros ? ? [s5 w5] (-> & E5). apply fails_first.
  assert (s5 = s) as -> by (cbn in *; congruence).
  assert (D : data d (mkmat l d) (map fst ys)).
  { split; [intros x Hx; rewrite Forall_forall in FL; exact (range_len (FL x Hx))|]. split; [reflexivity|]. rewrite map_length. split; [symmetry; exact LY|].
    intros Q. apply map_eq_nil in Q. subst ys. destruct l; [congruence|discriminate]. }
  destruct (HS w5 D HI) as (sw' & ES). exists sw', [@EvModel N (mkmat l d) (map fst ys) (Raise e)]. split; [unfold ext_ev; rewrite ES; reflexivity|].
  cbn [app]. unfold calls_of in *. rewrite flat_map_app. cbn [flat_map]. rewrite !app_nil_r. transitivity (List.length l); [rewrite <- T; now rewrite map_length|exact (LL NG)].
Qed.
End Class.

Lemma set_not_base cov : In cov ALLOWED_COV_SET -> str_in cov ALLOWED_COV_BASE = false /\ str_in cov ALLOWED_COV_SET = true.
Proof. intros H. cbn in H. destruct H as [<-|[<-|[<-|[<-|[]]]]]; split; reflexivity. Qed.
Lemma set_check cov (X : mat N) : In cov ALLOWED_COV_SET -> check_str_cov cov (shape (A2 N X)) None = Raise AssertionError.
Proof. intros H. destruct (set_not_base H) as (A & B). unfold check_str_cov. rewrite A, B. reflexivity. Qed.

Section Program.
Context (cdf pdf : R -> R).
Notation mx := (list (list R)).
Context (inv chol : mx -> res mx) (cho_solve : mx -> mx -> res mx) (slogdet : mx -> R * R) (gamma digamma : R -> R).
Context (W : Type).
Context (get_samples : string -> Z -> option Z -> W -> W * res (list (list N))).
Context (lbfgsb : (list N -> res N) -> list N -> list (N * N) -> W -> W * res (list N)).
Context (direct : (list N -> res N) -> list (N * N) -> W -> W * res (list N)).
Context (cma : (list N -> res N) -> list N -> list (N * N) -> W -> W * res (list N)).
Context (time_ : W -> W * N).
Context (minimize : W -> minimizer N) (after : mat N -> list N -> string -> W -> W).
Context (pm : prior N).
Context (choice : nat -> nat -> bool -> W -> W * res (list nat)) (uniform : N -> N -> W -> W * res N) (trunc : N -> option Z)
  (schedule : nat -> list nat).
Context (target : list N -> W -> W * res N).
Notation gp_fit_ := (@gp_fit_full N exp ln PI inv chol cho_solve slogdet W minimize after pm).
Notation tp_fit_ := (@tp_fit_full N exp ln PI inv slogdet gamma digamma W minimize after pm).
Notation program := (@bo_program N exp ln cdf pdf PI inv chol cho_solve slogdet gamma digamma W get_samples lbfgsb direct cma time_ minimize after pm choice uniform trunc schedule target).

Lemma gp_set_fit d X Y cov meth ms ard w : data d X Y -> In cov ALLOWED_COV_SET -> gp_fit_ X Y cov meth ms ard w = (after X Y meth w, Raise AssertionError).
Proof.
  intros (_ & _ & L & _) H. unfold gp_fit_full, get_optimized_kernel, validate_common_args. cbn [alen].
  assert (E : Nat.eqb (nrows X) (nrows (column_of N Y)) = true) by (apply Nat.eqb_eq; unfold column_of, nrows at 2; cbn [mrows]; rewrite map_length; exact L).
  setoid_rewrite E. cbn [assert_ rbind]. now rewrite set_check.
Qed.
Lemma tp_set_fit d X Y cov meth ard w : data d X Y -> In cov ALLOWED_COV_SET -> tp_fit_ X Y cov meth ard w = (after X Y meth w, Raise AssertionError).
Proof.
  intros (_ & _ & L & _) H. unfold tp_fit_full, tp_get_optimized_kernel, validate_common_args. cbn [alen].
  assert (E : Nat.eqb (nrows X) (nrows (column_of N Y)) = true) by (apply Nat.eqb_eq; unfold column_of, nrows at 2; cbn [mrows]; rewrite map_length; exact L).
  setoid_rewrite E. cbn [assert_ rbind]. now rewrite set_check.
Qed.
Definition tick_silent St (s : St) (w : W) : traces (tick N W time_ St) (s, w) (fun t _ sw => t = [] /\ fst sw = s).
Proof. apply traces_silent. unfold tick, onW, ext. cbn [fst snd]. destruct (time_ w) as [w' t] eqn:E. exists (s, w'), t. cbn. rewrite ?E. auto. Qed.
Lemma untraced_fails {St A B} (f : A -> B) (p : M (St * W) (fitev N) (list N * A)) sw e : fails p sw e (fun _ => True) -> exists sw', untraced N W f p sw = (sw', Raise e).
Proof. intros (sw' & t & E & _). exists sw'. unfold untraced. now rewrite E. Qed.
Lemma lift_traces {St A} (r : res A) a (sw : St * W) : r = Ok a -> traces (Ev := fitev N) (lift r) sw (fun t b sw' => b = a /\ sw' = sw).
Proof. intros ->. exists sw, [], a. auto. Qed.

Lemma gp_set_optimize o X Y samp num mlm seed s w : In (go_cov N o) ALLOWED_COV_SET -> data (List.length (go_range N o)) X Y ->
  In samp ["grid"; "sobol"; "halton"; "uniform"; "gaussian"] -> (0 < num)%Z -> In mlm ["regular"; "combined"; "converged"] -> gs_opt N s = true ->
  fails (@gp_optimize_full N exp ln cdf pdf PI inv chol cho_solve slogdet W get_samples lbfgsb direct cma time_ minimize after pm o X Y samp num mlm seed) (s, w) AssertionError (fun _ => True).
Proof.
  intros HC D HSM HNUM HM HO. pose proof D as (RX & CX & LX & NY). unfold gp_optimize_full, gp_optimize.
  apply fails_assert; [now apply Nat.eqb_eq|]. apply fails_assert; [now apply Nat.eqb_eq|]. apply fails_assert; [now apply Z.ltb_lt|].
  apply fails_assert; [now apply samplings|]. apply fails_assert; [destruct HM as [<-|[<-|[<-|[]]]]; reflexivity|].
  eapply fails_bind; [apply tick_silent|]. intros ? ? [? w1] (_ & ES); cbn in ES; subst.
  destruct (normal_or_not (go_norm N o && negb (mlm =? "converged")) NY) as (Yn & EN & LN).
  eapply fails_bind; [apply (lift_traces _ EN)|]. intros ? ? ? (-> & ->).
  eapply fails_bind; [apply tick_silent|]. intros ? ? [? w2] (_ & ES); cbn in ES; subst. pose proof (data_resp D LN) as DN.
  apply fails_first.
  assert (FIT : forall meth, fails (gp_fit N W mx gp_fit_ o meth X Yn) (s, w2) AssertionError (fun _ => True)).
  { intros meth. unfold gp_fit. eapply fails_bind with (P := fun _ _ sw => sw = (s, w2)); [exists (s, w2), [(meth, X, Yn)], tt; auto|]. intros ? ? ? ->.
    eexists _, _. split; [|exact Logic.I]. unfold onW, ext. cbn [fst snd]. rewrite (gp_set_fit _ _ _ _ DN HC). reflexivity. }
  unfold gp_surrogate. destruct HM as [<-|[<-|[<-|[]]]]; cbn [String.eqb Ascii.eqb Bool.eqb].
  - apply fails_first, FIT.
  - apply fails_first. unfold combined_step. apply fails_first, FIT.
  - eapply fails_bind with (P := fun _ a sw => a = s /\ sw = (s, w2)); [exists (s, w2), [], s; auto|]. intros ? ? ? (-> & ->). rewrite HO. apply fails_first, FIT.
Qed.
Lemma tp_set_optimize o X Y samp num seed s w : In (to_cov N o) ALLOWED_COV_SET -> data (List.length (to_range N o)) X Y ->
  In samp ["grid"; "sobol"; "halton"; "uniform"; "gaussian"] -> (0 < num)%Z ->
  fails (@tp_optimize_full N exp ln cdf pdf PI inv slogdet gamma digamma W get_samples lbfgsb direct cma time_ minimize after pm o X Y samp num seed) (s, w) AssertionError (fun _ => True).
Proof.
  intros HC D HSM HNUM. pose proof D as (RX & CX & LX & NY). unfold tp_optimize_full, tp_optimize.
  apply fails_assert; [now apply Nat.eqb_eq|]. apply fails_assert; [now apply Nat.eqb_eq|]. apply fails_assert; [now apply Z.ltb_lt|].
  apply fails_assert; [now apply samplings|].
  eapply fails_bind; [apply tick_silent|]. intros ? ? [? w1] (_ & ES); cbn in ES; subst.
  destruct (normal_or_not (to_norm N o) NY) as (Yn & EN & LN).
  eapply fails_bind; [apply (lift_traces _ EN)|]. intros ? ? ? (-> & ->).
  eapply fails_bind; [apply tick_silent|]. intros ? ? [? w2] (_ & ES); cbn in ES; subst. pose proof (data_resp D LN) as DN.
  eapply fails_bind with (P := fun _ _ sw => sw = (s, w2)); [eexists _, _, tt; split; [reflexivity|reflexivity]|]. intros ? ? ? ->.
  apply fails_first. eexists _, _. split; [|exact Logic.I]. unfold onW, ext. cbn [fst snd]. rewrite (tp_set_fit _ _ _ DN HC). reflexivity.
Qed.

Theorem set_program_fails da ca a mdl num_init seed w : bo_init N da ca a = Ok mdl -> a_surrogate N a <> "rf" -> In (a_cov N a) ALLOWED_COV_SET -> (0 < num_init)%Z ->
  proper_samples (a_range N a) get_samples -> returns_in (a_range N a) target ->
  exists w' t, program da ca a num_init seed w = (w', t, Raise AssertionError) /\ List.length (calls_of N t) = Z.to_nat num_init.
Proof.
  intros EI NRF HC HNI HG HT. unfold bo_program. rewrite EI.
  assert (FG : forall (St : Type) (p : M (St * W) (event N) (run_out N)) s Q, fails p (s, w) AssertionError Q -> exists w' t, forget W p s w = (w', t, Raise AssertionError) /\ Q t).
  { intros St p s Q (sw & t & E & H). exists (snd sw), t. split; [|exact H]. unfold forget. now rewrite E. }
  unfold bo_init in EI. apply assert_ok in EI as (R0 & EI). apply assert_ok in EI as (NI & EI). apply Z.ltb_lt in NI. apply assert_ok in EI as (NS & EI). apply Z.ltb_lt in NS.
  apply assert_ok in EI as (_ & EI). apply assert_ok in EI as (_ & EI). apply assert_ok in EI as (_ & EI). apply assert_ok in EI as (IM & EI).
  apply assert_ok in EI as (SM & EI). apply samplers_known in SM. apply assert_ok in EI as (_ & EI). apply assert_ok in EI as (_ & EI). apply assert_ok in EI as (_ & EI).
  apply assert_ok in EI as (ML & EI). apply assert_ok in EI as (_ & EI). destruct (initials_known IM) as (IM1 & IM2).
  destruct (check_optimizer_method_bo _ _ _ _) as [ob|]; [|discriminate]. cbn [rbind] in EI.
  destruct (str_in (a_surrogate N a) ALLOWED_SURROGATE_TREES) eqn:ES.
  { exfalso. apply str_in_In in ES as [ES|[]]. congruence. }
  destruct (a_surrogate N a =? "gp") eqn:EG.
  - destruct (gp_init _ _ _ _ _ _ _ _ _ _ _) as [o|] eqn:EO; [|discriminate]. cbn in EI. injection EI as <-.
    assert (EQ : go_range N o = a_range N a /\ go_cov N o = a_cov N a).
    { unfold gp_init in EO. do 6 (apply assert_ok in EO as (_ & EO)). destruct (base_init _ _ _ _ _ _ _); [|discriminate]. cbn [rbind] in EO. injection EO as <-. auto. }
    destruct EQ as (ER & EC). apply FG. apply (@run_fails (gp_state N) W (a_range N a) target time_ HT _ (fun s => gs_opt N s = true)); try assumption; [|reflexivity].
    intros X Y s w0 D IV. apply untraced_fails. apply gp_set_optimize; rewrite ?EC, ?ER; try assumption. now apply str_in_In.
  - destruct (a_surrogate N a =? "tp"); [|discriminate]. destruct (tp_init _ _ _ _ _ _ _ _ _ _) as [o|] eqn:EO; [|discriminate]. cbn in EI. injection EI as <-.
    assert (EQ : to_range N o = a_range N a /\ to_cov N o = a_cov N a).
    { unfold tp_init in EO. do 5 (apply assert_ok in EO as (_ & EO)). destruct (base_init _ _ _ _ _ _ _); [|discriminate]. cbn [rbind] in EO. injection EO as <-. auto. }
    destruct EQ as (ER & EC). apply FG. apply (@run_fails (list (dict N)) W (a_range N a) target time_ HT _ (fun s => True)); try assumption; [|exact Logic.I].
    intros X Y s w0 D IV. apply untraced_fails. apply tp_set_optimize; rewrite ?EC, ?ER; assumption.
Qed.
End Program.
