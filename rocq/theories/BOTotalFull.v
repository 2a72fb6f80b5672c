(** The whole program returns for every combination of options that the constructor accepts, set kernels and one case of leave-one-out
    selection aside. *)
From Verif Require Import Base Lists Num NumLaws NumFin Monad UtilsModel UtilsSpec UtilsProofs HypsModel HypsSpec HypsProofs CovModel KernelSpec CovSpec CovProofs CovProofs2
  GPProofs2 GPModel GPSpec GPProofs GPProofs3 LikModel LikSpec HypOptModel HypOptSpec HypOptProofs
  AcqModel TreesModel TreesSpec TreesTotal TreesTop WrapperModel BOModel BOProofs BOAcqModel BOAcqSpec BOAcqProofs BOFullModel BOProgram
  BOTotalSpec BOTotalProofs BOTotalRun BOTotalClass BOTotalOpt.
From Coq Require Import List ZArith Bool String Reals Lra Lia Arith Permutation.
Import ListNotations.
Set Implicit Arguments.
Unset Strict Implicit.
Unset Asymmetric Patterns.
Set Bullet Behavior "Strict Subproofs".
Local Open Scope string_scope.
Local Notation N := NumR.

Lemma str_in_In x l : str_in x l = true -> In x l.
Proof. unfold str_in. rewrite existsb_exists. intros (y & Hy & E). apply String.eqb_eq in E. now subst. Qed.
Lemma range_ok_sound r : range_ok N r = true -> sound_range r.
Proof.
  unfold range_ok, sound_range. intros H. rewrite forallb_forall in H. apply List.Forall_forall. intros b Hb. specialize (H b Hb).
  cbn in H. revert H. destruct (Flocq.Core.Raux.Rle_bool_spec (fst b) (snd b)); [auto|discriminate].
Qed.
Lemma assert_ok b {A} (k : res A) v : (assert b; k) = Ok v -> b = true /\ k = Ok v.
Proof. destruct b; [auto|discriminate]. Qed.
Lemma kept_optimizer da ca o dim o' : check_optimizer_method_bo da ca o dim = Ok o' -> In o ["L-BFGS-B"; "DIRECT"; "CMA-ES"] -> In o' ["L-BFGS-B"; "DIRECT"; "CMA-ES"].
Proof.
  intros H [<-|[<-|[<-|[]]]]; unfold check_optimizer_method_bo in H; apply assert_ok in H as (_ & H);
    repeat match type of H with (if ?b then _ else _) = _ => destruct b end; injection H as <-; cbn; tauto.
Qed.
Lemma base_init_inv da ca r s q o o' : base_init N da ca r s q o = Ok o' -> check_optimizer_method_bo da ca o (Z.of_nat (List.length r)) = Ok o'.
Proof. unfold base_init. intros H. do 4 (apply assert_ok in H as (_ & H)). exact H. Qed.
Lemma acq_same q : str_in q ALLOWED_BO_ACQ = true -> In q acquisitions_.
Proof. intros H. apply str_in_In in H. exact H. Qed.

Lemma gp_init_valid da ca r cov q nrm ard og ob ms o : gp_init N da ca r cov q nrm ard og ob ms = Ok o -> In cov base_kernels ->
  (ms = "loocv" -> ard = true \/ List.length r = 1%nat) -> gp_valid o /\ go_range N o = r.
Proof.
  unfold gp_init. intros H HC0 HM0. apply assert_ok in H as (R0 & H). apply assert_ok in H as (_ & H). apply assert_ok in H as (A0 & H).
  apply assert_ok in H as (G0 & H). apply assert_ok in H as (B0 & H). apply assert_ok in H as (M0 & H).
  destruct (base_init _ _ _ _ _ _ _) as [ob'|] eqn:EB; [|discriminate]. cbn [rbind] in H. injection H as <-. apply base_init_inv in EB.
  split; [|reflexivity]. unfold gp_valid. cbn. split; [now apply range_ok_sound|]. split; [exact HC0|]. split; [now apply acq_same|].
  split; [apply str_in_In in G0; cbn in G0; tauto|]. split; [exact (kept_optimizer EB (str_in_In B0))|].
  apply str_in_In in M0 as [<-|[<-|[]]]; [now left|right; auto].
Qed.
Lemma tp_init_valid da ca r cov q nrm ard og ob o : tp_init N da ca r cov q nrm ard og ob = Ok o -> In cov base_kernels -> tp_valid o /\ to_range N o = r.
Proof.
  unfold tp_init. intros H HC0. apply assert_ok in H as (R0 & H). apply assert_ok in H as (_ & H). apply assert_ok in H as (A0 & H).
  apply assert_ok in H as (G0 & H). apply assert_ok in H as (B0 & H).
  destruct (base_init _ _ _ _ _ _ _) as [ob'|] eqn:EB; [|discriminate]. cbn [rbind] in H. injection H as <-. apply base_init_inv in EB.
  split; [|reflexivity]. unfold tp_valid. cbn. split; [now apply range_ok_sound|]. split; [exact HC0|]. split; [now apply acq_same|].
  split; [apply str_in_In in G0; cbn in G0; tauto|]. exact (kept_optimizer EB (str_in_In B0)).
Qed.
Lemma rf_init_valid da ca r s q nrm ob o : rf_init N da ca r s q nrm ob = Ok o -> r <> [] -> rf_valid o /\ ro_range N o = r.
Proof.
  unfold rf_init. intros H NR. apply assert_ok in H as (R0 & H). apply assert_ok in H as (_ & H). apply assert_ok in H as (A0 & H). apply assert_ok in H as (_ & H).
  destruct (base_init _ _ _ _ _ _ _) as [ob'|] eqn:EB; [|discriminate]. cbn [rbind] in H. injection H as <-.
  split; [|reflexivity]. unfold rf_valid. cbn. split; [now apply acq_same|]. split; [exact NR|now apply range_ok_sound].
Qed.

Lemma samplers_known m0 : str_in m0 ALLOWED_SAMPLING_METHOD = true -> In m0 ["grid"; "sobol"; "halton"; "uniform"; "gaussian"].
Proof. intros H. apply str_in_In in H. cbn in H |- *. tauto. Qed.
Lemma initials_known m0 : str_in m0 ALLOWED_INITIALIZING_METHOD_BO = true -> In m0 ["grid"; "sobol"; "halton"; "uniform"; "gaussian"] /\ m0 <> "grid".
Proof. intros H. apply str_in_In in H. cbn in H |- *. split; [tauto|]. intros ->. intuition discriminate. Qed.


Section Program.
Context (cdf pdf lg : R -> R).
Notation mx := (list (list R)).
Context (inv chol : mx -> res mx) (cho_solve : mx -> mx -> res mx) (slogdet : mx -> R * R) (gamma digamma : R -> R).
Context (W : Type).
Context (get_samples : string -> Z -> option Z -> W -> W * res (list (list N))).
Context (lbfgsb : (list N -> res N) -> list N -> list (N * N) -> W -> W * res (list N)).
Context (direct : (list N -> res N) -> list (N * N) -> W -> W * res (list N)).
Context (cma : (list N -> res N) -> list N -> list (N * N) -> W -> W * res (list N)).
Context (time_ : W -> W * N).
Context (minimize : W -> minimizer N) (after : mat N -> list N -> string -> W -> W).
Context (pm : prior N) (m : elem -> R).
Context (choice : nat -> nat -> bool -> W -> W * res (list nat)) (uniform : N -> N -> W -> W * res N) (trunc : N -> option Z)
  (schedule : nat -> list nat).
Context (target : list N -> W -> W * res N).
Hypotheses (HI : inv_contract inv) (HC : chol_contract chol) (HS : cho_solve_contract cho_solve) (HD : slogdet_contract slogdet)
  (HM : forall w, proper_minimizer (minimize w)) (HP : prior_is pm m).
Hypotheses (HL : proper_from lbfgsb) (HDI : proper_direct direct) (HCM : proper_from cma).
Hypotheses (CC : choice_contract choice) (CT : choice_total choice) (UT : uniform_total NumR uniform) (UC : uniform_contract NumR uniform)
  (TI : int_of_integers trunc) (CS : completes schedule).

Lemma kernel_full X h name c i : @gp_kernel_full N exp inv X h name = Ok (c, i) -> exists q, @get_kernel_inverse N exp inv (A2 N X) h name true false = Ok (c, i, q).
Proof.
  unfold gp_kernel_full. destruct (get_kernel_inverse _ _ _ _ _ _) as [[[c' i'] q]|]; [|discriminate]. cbn [rbind fst snd]. intros E.
  injection E as -> ->. eauto.
Qed.
Lemma good_kernel name d X Y ard h : In name base_kernels -> data d X Y -> good_hyps name d ard h ->
  exists C B, @get_kernel_inverse N exp inv (A2 N X) h name true false = Ok (C, B, None).
Proof.
  intros HN D (ls & s & nz & x & HH & _). pose proof (data_fits HN D) as F. destruct (fits_facts F) as (_ & _ & HK). destruct (HK ls s) as [K EC].
  destruct (inverse_ok F HH EC HI) as (C & B & E & _). eauto.
Qed.

Theorem gp_full_runs o X Y samp num mlm seed s w : gp_valid o -> proper_samples (go_range N o) get_samples -> data (List.length (go_range N o)) X Y ->
  In samp ["grid"; "sobol"; "halton"; "uniform"; "gaussian"] -> (0 < num)%Z -> In mlm ["regular"; "combined"; "converged"] ->
  gp_inv (good_hyps (go_cov N o) (List.length (go_range N o)) (go_ard N o)) s ->
  runs (@gp_optimize_full N exp ln cdf pdf PI inv chol cho_solve slogdet W get_samples lbfgsb direct cma time_ minimize after pm o X Y samp num mlm seed) (s, w)
    (fun r sw => gp_inv (good_hyps (go_cov N o) (List.length (go_range N o)) (go_ard N o)) (fst sw) /\
       proposal_ok (go_range N o) (fst r) (gi_points N mx (snd r)) /\ List.length (gi_acqs N mx (snd r)) = nrows (gi_points N mx (snd r))).
Proof.
  intros (V0 & V1 & V2 & V3 & V4 & V5) HG D HSM HNUM HMLM HIN. unfold gp_optimize_full.
  apply gp_optimize_runs with (len := num_hyps true (go_ard N o) true (List.length (go_range N o))); try assumption.
  - clear X Y D. intros X Y meth w1 D HO. destruct (@gp_fit_total inv chol cho_solve slogdet gamma digamma (minimize w1) pm m HI HC HS HD (HM w1) HP (go_cov N o) _ X Y V1 D meth (go_msel N o) (go_ard N o) HO V5) as (C & B & h & E & G & EK).
    exists (after X Y meth w1), C, B, h. unfold gp_fit_full. setoid_rewrite E. split; [reflexivity|]. split; [exact G|]. unfold gp_kernel_full. setoid_rewrite EK. reflexivity.
  - clear X Y D. intros X Y h D G. destruct (good_kernel V1 D G) as (C & B & EK). exists C, B. unfold gp_kernel_full. setoid_rewrite EK. reflexivity.
  - intros h (ls & s' & nz & x & _ & EC & LX & _). eauto.
  - clear X Y D. intros X Y v D LV. destruct (prior_ok (A2 N X) HP) as (p & EPM & HPC & _). unfold gp_nlml_full. setoid_rewrite EPM. cbn [rbind].
    destruct (gp_value_total inv slogdet HC HS V1 D HPC LV) as (y & E). setoid_rewrite E. cbn. eauto.
  - clear X Y D. intros X Y h c i pts D G EK NE FP. destruct (good_kernel V1 D G) as (C & B & EI). destruct (kernel_full EK) as (q & EQ).
    rewrite EI in EQ. injection EQ as <- <- <-. destruct G as (ls & s' & nz & x & HH & _).
    exact (gp_acq_total cdf pdf ln HI HP V1 D V2 HH EI NE FP).
Qed.
Theorem tp_full_runs o X Y samp num seed s w : tp_valid o -> proper_samples (to_range N o) get_samples -> data (List.length (to_range N o)) X Y ->
  In samp ["grid"; "sobol"; "halton"; "uniform"; "gaussian"] -> (0 < num)%Z ->
  runs (@tp_optimize_full N exp ln cdf pdf PI inv slogdet gamma digamma W get_samples lbfgsb direct cma time_ minimize after pm o X Y samp num seed) (s, w)
    (fun r _ => proposal_ok (to_range N o) (fst r) (gi_points N mx (snd r)) /\ List.length (gi_acqs N mx (snd r)) = nrows (gi_points N mx (snd r))).
Proof.
  intros (V0 & V1 & V2 & V3 & V4) HG D HSM HNUM. unfold tp_optimize_full.
  apply tp_optimize_runs with (usable := fun X c i h => good_tp (List.length (to_range N o)) h /\ @get_kernel_inverse N exp inv (A2 N X) h (to_cov N o) true false = Ok (c, i, None)); try assumption.
  - clear X Y D. intros X Y w1 D. destruct (@tp_fit_total inv slogdet gamma digamma (minimize w1) pm m HI HD (HM w1) HP (to_cov N o) _ X Y V1 D (to_opt_tp N o) (to_ard N o) V3) as (C & B & h & E & G & EK).
    exists (after X Y (to_opt_tp N o) w1), C, B, h. unfold tp_fit_full. setoid_rewrite E. auto.
  - clear X Y D. intros X Y h c i pts D ((ls & s' & nz & nu & HH & DF) & EK) NE FP. exact (tp_acq_total cdf pdf ln HI HP V1 D V2 HH DF EK NE FP).
Qed.

Definition forest_usable (d : nat) (ts : list (tree N)) : Prop := forall Xq, (forall x, In x Xq -> List.length x = d) ->
  exists out, predict_by_trees N Xq ts (schedule ((List.length Xq + 99) / 100)%nat) = Ok out /\ List.length out = List.length Xq.
Lemma forest_total d X Y w : (0 < d)%nat -> data d X Y -> exists w' ts, @rf_trees_full N W choice uniform trunc d X Y w = (w', Ok ts) /\ forest_usable d ts.
Proof.
  intros DP D. pose proof D as (RX & CX & LX & NY).
  assert (DK : data_ok trunc X Y 1%R true (Nat.sqrt d)).
  { split; [intros x Hx; exact (eq_trans (RX x Hx) (eq_sym CX))|]. split; [exact LX|]. assert (0 < nrows X)%nat by (rewrite LX; destruct Y; [congruence|cbn; lia]). split; [assumption|].
    split. { assert (CX' : @mcols R X = d) by exact CX. rewrite CX'. split; [|apply Nat.sqrt_le_lin]. apply (Nat.sqrt_le_mono 1 d). lia. }
    split; [split; [lra|discriminate]|]. exists (Z.of_nat (nrows X)). split; [|split; [lia|discriminate]]. transitivity (trunc (IZR (Z.of_nat (nrows X)))); [|apply TI]. f_equal. change (INR (nrows X) * 1 = IZR (Z.of_nat (nrows X)))%R. rewrite INR_IZR_INZ. lra. }
  destruct (forest_suc CC CT UT UC 100 5 1 DK w) as (w' & t & ts & E & L).
  exists w', (map snd ts). split.
  { unfold rf_trees_full, bo_get_trees. replace (Nat.eqb (nrows X) (List.length Y)) with true by (symmetry; now apply Nat.eqb_eq). 
    revert E. generalize (@get_random_forest N W choice uniform trunc X Y 100 5 1 (Nat.sqrt d)). intros g E. unfold bind, lift. cbn [assert_]. rewrite E. reflexivity. }
  intros Xq HQ. assert (F : Forall (tree_ok X Y 5 1) ts).
  { refine (proj2 (@random_forest_ok NumR NumR_ord NumR_fin W choice uniform trunc UC X Y _ _ _ _ _ _ _ _ _ E)). intros x _. apply Forall_forall. intros; exact Logic.I. }
  destruct (@predict_succeeds X Y 5 1 ts Xq (schedule ((List.length Xq + 99) / 100)%nat)) as (out & EO).
  - exact F.
  - intros ->. discriminate L.
  - intros x Hx. exact (eq_trans (RX x Hx) (eq_sym CX)).
  - intros x Hx. exact (eq_trans (HQ x Hx) (eq_sym CX)).
  - apply CS.
  - exists out. split; [exact EO|]. apply (predict_iff (map snd ts) Xq out CS) in EO. symmetry. exact (Forall2_len EO).
Qed.
Theorem rf_full_runs o X Y samp num seed sw : rf_valid o -> proper_samples (ro_range N o) get_samples -> data (List.length (ro_range N o)) X Y ->
  In samp ["grid"; "sobol"; "halton"; "uniform"; "gaussian"] -> (0 < num)%Z ->
  runs (@rf_optimize_full N ln cdf pdf W get_samples time_ choice uniform trunc schedule o X Y samp num seed) sw
    (fun r _ => proposal_ok (ro_range N o) (fst r) (ri_points N _ (snd r)) /\ List.length (ri_acqs N _ (snd r)) = nrows (ri_points N _ (snd r))).
Proof.
  intros (V1 & V2 & V3) HG D HSM HNUM. unfold rf_optimize_full.
  apply rf_optimize_runs with (usable := forest_usable (List.length (ro_range N o))); try assumption.
  - clear X Y D. intros X Y w D. apply (forest_total w (Y := Y)); [|exact D]. destruct (ro_range N o); [congruence|cbn; lia].
  - clear X Y D. intros X Y ts pts (RX & CX & LX & NY) US NE FP. destruct (US pts) as (out & EO & LO); [now rewrite Forall_forall in FP|].
    destruct (chosen_returns cdf pdf ln (GP_NOISE NumR) V1) as (f & Ef & Rf).
    destruct (Rf (map fst out) (map snd out) Y) as (a & Ea & La); [now rewrite !map_length|exact NY|].
    exists a. split; [|rewrite La, map_length; exact LO].
    unfold rf_acquisitions. rewrite (BOAcqProofs.batch_ok NE FP). cbn [rbind mcols]. replace (Nat.eqb (nrows X) (List.length Y)) with true by (symmetry; now apply Nat.eqb_eq).
    rewrite CX, Nat.eqb_refl. cbn [assert_ rbind andb]. setoid_rewrite Ef. cbn [rbind]. unfold rf_posteriors. cbn [mcols mrows]. rewrite Nat.eqb_refl. cbn [assert_ rbind].
    change (nrows (mkmat pts (List.length (ro_range N o)))) with (List.length pts). rewrite EO. cbn [rbind]. exact Ea.
Qed.

Notation program := (@bo_program N exp ln cdf pdf PI inv chol cho_solve slogdet gamma digamma W get_samples lbfgsb direct cma time_ minimize after pm choice uniform trunc schedule target).
Lemma forget_runs {St E A} (p : M (St * W) E A) s w Q : runs p (s, w) Q -> exists w' t a, forget W p s w = (w', t, Ok a) /\ exists sw, Q a sw.
Proof. intros (sw & t & a & E0 & H). unfold forget. rewrite E0. eauto 6. Qed.
Theorem program_returns da ca a M num_init seed w : bo_init N da ca a = Ok M -> usable_options a -> (0 < num_init)%Z ->
  proper_samples (a_range N a) get_samples -> returns_in (a_range N a) target ->
  exists w' t r, program da ca a num_init seed w = (w', t, Ok r) /\
    complete_run (a_range N a) (Z.to_nat num_init + Z.to_nat (a_num_iter N a)) (ro_X r) (ro_Y r).
Proof.
  intros EI (U1 & U2 & U3) HNI HG HT. unfold bo_program. rewrite EI.
  assert (FIN : forall (St : Type) (Iv : St -> Prop) single s, @single_returns St W (a_range N a) single Iv -> Iv s -> str_in (a_init N a) ALLOWED_INITIALIZING_METHOD_BO = true ->
    exists w' t r, forget W (run_class N W get_samples time_ target single (a_init N a) (a_num_iter N a) num_init seed) s w = (w', t, Ok r) /\
      complete_run (a_range N a) (Z.to_nat num_init + Z.to_nat (a_num_iter N a)) (ro_X r) (ro_Y r)).
  { intros St Iv single s SR IS IM. destruct (initials_known IM) as (IM1 & IM2).
    destruct (forget_runs (@optimize_total St W (a_range N a) target time_ HT single Iv SR get_samples HG (a_init N a) (a_num_iter N a) num_init seed (s, w) IM1 HNI IS)) as (w' & t & r & E & sw & ((D & FX) & LN & _)).
    exists w', t, r. split; [exact E|]. split; [now apply LN|]. split; [|exact FX]. destruct D as (_ & _ & LX & _). rewrite <- LX. now apply LN. }
  unfold bo_init in EI. apply assert_ok in EI as (R0 & EI). apply assert_ok in EI as (_ & EI). apply assert_ok in EI as (NS & EI). apply Z.ltb_lt in NS.
  apply assert_ok in EI as (_ & EI). apply assert_ok in EI as (_ & EI). apply assert_ok in EI as (_ & EI). apply assert_ok in EI as (IM & EI).
  apply assert_ok in EI as (SM & EI). apply samplers_known in SM. apply assert_ok in EI as (_ & EI). apply assert_ok in EI as (_ & EI). apply assert_ok in EI as (_ & EI).
  apply assert_ok in EI as (ML & EI). apply assert_ok in EI as (_ & EI).
  destruct (check_optimizer_method_bo _ _ _ _) as [ob|]; [|discriminate]. cbn [rbind] in EI.
  destruct (str_in (a_surrogate N a) ALLOWED_SURROGATE_TREES) eqn:ES.
  - destruct (rf_init _ _ _ _ _ _ _ _) as [o|] eqn:EO; [|discriminate]. cbn in EI. injection EI as <-. destruct (rf_init_valid EO U1) as (V & ER).
    apply (FIN unit (fun _ => True)); [|exact Logic.I|exact IM]. intros X Y s w0 D _. rewrite <- ER in D, HG.
    destruct (untraced_total (@rf_to_info N (list (tree N))) (@rf_full_runs o X Y (a_samp N a) (a_num_samples N a) None (s, w0) V HG D SM NS)) as (s' & w' & p & g & E & PO & LA).
    exists s', w', p, (rf_to_info N g). split; [exact E|]. split; [exact Logic.I|]. rewrite <- ER. split; [exact PO|exact LA].
  - assert (NRF : a_surrogate N a <> "rf") by (intros Q; rewrite Q in ES; discriminate).
    assert (BK : In (a_cov N a) base_kernels) by (destruct U2; [contradiction|assumption]).
    destruct (a_surrogate N a =? "gp") eqn:EG.
    + apply String.eqb_eq in EG. destruct (gp_init _ _ _ _ _ _ _ _ _ _ _) as [o|] eqn:EO; [|discriminate]. cbn in EI. injection EI as <-.
      destruct (gp_init_valid EO BK (U3 EG)) as (V & ER).
      apply (FIN (gp_state N) (gp_inv (good_hyps (go_cov N o) (List.length (go_range N o)) (go_ard N o)))); [|split; [constructor|discriminate]|exact IM].
      intros X Y s w0 D IV. rewrite <- ER in D, HG.
      destruct (untraced_total (gp_to_info N mx) (@gp_full_runs o X Y (a_samp N a) (a_num_samples N a) (a_mlm N a) None s w0 V HG D SM NS (str_in_In ML) IV)) as (s' & w' & p & g & E & IV' & PO & LA).
      exists s', w', p, (gp_to_info N mx g). split; [exact E|]. split; [exact IV'|]. rewrite <- ER. split; [exact PO|exact LA].
    + destruct (a_surrogate N a =? "tp"); [|discriminate]. destruct (tp_init _ _ _ _ _ _ _ _ _ _) as [o|] eqn:EO; [|discriminate]. cbn in EI. injection EI as <-.
      destruct (tp_init_valid EO BK) as (V & ER).
      apply (FIN (list (dict N)) (fun _ => True)); [|exact Logic.I|exact IM]. intros X Y s w0 D _. rewrite <- ER in D, HG.
      destruct (untraced_total (gp_to_info N mx) (@tp_full_runs o X Y (a_samp N a) (a_num_samples N a) None s w0 V HG D SM NS)) as (s' & w' & p & g & E & PO & LA).
      exists s', w', p, (gp_to_info N mx g). split; [exact E|]. split; [exact Logic.I|]. rewrite <- ER. split; [exact PO|exact LA].
Qed.
End Program.
