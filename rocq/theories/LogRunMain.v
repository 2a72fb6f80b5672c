(** Proofs about the log of whole runs. *)
From Verif Require Import Base Num UtilsModel HypsModel CovModel GPModel LikModel HypOptModel AcqModel TreesModel SamplingModel
  Monad WrapperModel BOModel BOAcqModel BOFullModel BOProgram LoggerModel LogRunModel LogRunSpec LogRunProofs.
From Coq Require Import List ZArith Bool Ascii String Lia.
Import ListNotations.
Local Open Scope string_scope.

(** ** Construction *)
Section Init.
Context (N : Num).
Lemma check_runs {S} da ca m dim (s : S) :
  l_check_optimizer da ca m dim s =
    (s, if str_in m (ALLOWED_OPTIMIZER_METHOD_BO ++ ALLOWED_OPTIMIZER_METHOD_BO_TREES)%list then warnings da ca m dim else [],
     check_optimizer_method_bo da ca m dim).
Proof.
  unfold l_check_optimizer, check_optimizer_method_bo, warnings, bind, lift, assert_, rbind, say, ret.
  destruct (str_in m _); [|reflexivity].
  destruct ((m =? "DIRECT") && negb da); [reflexivity|]. destruct ((m =? "CMA-ES") && negb ca); [reflexivity|].
  destruct ((m =? "CMA-ES") && (dim =? 1)%Z); reflexivity.
Qed.
Lemma check_used da ca m dim ob : check_optimizer_method_bo da ca m dim = Ok ob ->
  ob = used da ca m dim /\ warnings da ca ob dim = [] /\ check_optimizer_method_bo da ca ob dim = Ok ob.
Proof.
  unfold check_optimizer_method_bo, used, warnings, assert_, rbind.
  destruct (str_in m _) eqn:I; [|discriminate].
  destruct ((m =? "DIRECT") && negb da) eqn:A; [intros [= <-]; now repeat split|].
  destruct ((m =? "CMA-ES") && negb ca) eqn:B; [intros [= <-]; now repeat split|].
  destruct ((m =? "CMA-ES") && (dim =? 1)%Z) eqn:C; intros [= <-]; [now repeat split|]. now rewrite A, B, C, I.
Qed.
Definition opt_of (m : bo_model N) : option string :=
  match m with MGP _ o => Some (go_opt_bo N o) | MTP _ o => Some (to_opt_bo N o) | MRF _ _ => None end.
Definition surrogate_of (m : bo_model N) : string := match m with MGP _ _ => "gp" | MTP _ _ => "tp" | MRF _ _ => "rf" end.
Lemma base_runs {S} da ca r sur acq ob (s : S) : warnings da ca ob (Z.of_nat (List.length r)) = [] ->
  l_base_init N da ca r sur acq ob s = (s, [], base_init N da ca r sur acq ob).
Proof.
  intros H. unfold l_base_init, base_init, bind, lift, assert_, rbind.
  repeat match goal with |- context [if ?b then Ok tt else _] => destruct b; [|reflexivity] end.
  rewrite check_runs, H. destruct (str_in ob _); reflexivity.
Qed.
Lemma init_runs {S} da ca a : exists t r, (forall s : S, l_bo_init N da ca a s = (s, t, r)) /\
  bo_init N da ca a = rmap snd r /\
  match r with
  | Ok (ob, m) => t = warnings da ca (a_opt_bo N a) (Z.of_nat (List.length (a_range N a))) /\
      ob = used da ca (a_opt_bo N a) (Z.of_nat (List.length (a_range N a))) /\
      a_surrogate N a = surrogate_of m /\ match opt_of m with Some o => o = ob | None => str_in ob ALLOWED_OPTIMIZER_METHOD_BO_TREES = true end
  | Raise _ => exists rest, warnings da ca (a_opt_bo N a) (Z.of_nat (List.length (a_range N a))) = (t ++ rest)%list
  end.
Proof.
  set (w := warnings da ca (a_opt_bo N a) (Z.of_nat (List.length (a_range N a)))).
  unfold l_bo_init, bo_init, bind, lift, assert_, rbind.
  repeat match goal with |- context [if ?b then Ok tt else _] => let E := fresh "E" in destruct b eqn:E;
    [|exists [], (Raise AssertionError); repeat split; now exists w] end.
  match goal with H : str_in (a_opt_bo N a) _ = true |- _ => rename H into Eo end.
  destruct (check_optimizer_method_bo da ca (a_opt_bo N a) (Z.of_nat (List.length (a_range N a)))) as [ob|e] eqn:Ck.
  2:{ exists w, (Raise e). split; [intros s; rewrite check_runs, Ck, Eo; reflexivity|]. split; [reflexivity|]. exists []. now rewrite app_nil_r. }
  destruct (check_used _ _ _ _ _ Ck) as (Eu & Wn & Cn).
  destruct (str_in (a_surrogate N a) ALLOWED_SURROGATE_TREES) eqn:T; [|destruct (a_surrogate N a =? "gp") eqn:G; [|destruct (a_surrogate N a =? "tp") eqn:P]].
  - exists w, (rmap (fun o => (ob, MRF N o)) (rf_init N da ca (a_range N a) (a_surrogate N a) (a_acq N a) (a_norm N a) ob)).
    split; [|split].
    + intros s. rewrite check_runs, Ck, Eo. fold w. unfold l_rf_init, rf_init, bind, lift, assert_, rbind.
      repeat match goal with |- context [if ?b then Ok tt else _] => destruct b; [|cbn; now rewrite app_nil_r] end.
      rewrite (base_runs _ _ _ _ _ _ _ Wn). destruct (base_init _ _ _ _ _ _ _); cbn; now rewrite app_nil_r.
    + now destruct (rf_init _ _ _ _ _ _ _ _).
    + destruct (rf_init _ _ _ _ _ _ _ _) as [o|e] eqn:R; cbn; [|exists []; now rewrite app_nil_r]. repeat split; [exact Eu| |].
      * unfold str_in, ALLOWED_SURROGATE_TREES in T. cbn in T. rewrite orb_false_r in T. now apply String.eqb_eq in T.
      * unfold rf_init, assert_, rbind in R.
        repeat match type of R with context [if ?b then Ok tt else _] => let E := fresh "E" in destruct b eqn:E; [|discriminate] end. assumption.
  - exists w, (rmap (fun o => (ob, MGP N o)) (gp_init N da ca (a_range N a) (a_cov N a) (a_acq N a) (a_norm N a) (a_ard N a) (a_opt_gp N a) ob (a_msel N a))).
    split; [|split].
    + intros s. rewrite check_runs, Ck, Eo. fold w. unfold l_gp_init, gp_init, bind, lift, assert_, rbind.
      repeat match goal with |- context [if ?b then Ok tt else _] => destruct b; [|cbn; now rewrite app_nil_r] end.
      rewrite (base_runs _ _ _ _ _ _ _ Wn). destruct (base_init _ _ _ _ _ _ _); cbn; now rewrite app_nil_r.
    + now destruct (gp_init _ _ _ _ _ _ _ _ _ _ _).
    + destruct (gp_init _ _ _ _ _ _ _ _ _ _ _) as [o|e] eqn:R; cbn; [|exists []; now rewrite app_nil_r]. repeat split; [exact Eu|now apply String.eqb_eq|].
      unfold gp_init, base_init, assert_, rbind in R.
      repeat match type of R with context [if ?b then Ok tt else _] => let E := fresh "E" in destruct b eqn:E; [|discriminate] end.
      rewrite Cn in R. now injection R as <-.
  - exists w, (rmap (fun o => (ob, MTP N o)) (tp_init N da ca (a_range N a) (a_cov N a) (a_acq N a) (a_norm N a) (a_ard N a) (a_opt_tp N a) ob)).
    split; [|split].
    + intros s. rewrite check_runs, Ck, Eo. fold w. unfold l_tp_init, tp_init, bind, lift, assert_, rbind.
      repeat match goal with |- context [if ?b then Ok tt else _] => destruct b; [|cbn; now rewrite app_nil_r] end.
      rewrite (base_runs _ _ _ _ _ _ _ Wn). destruct (base_init _ _ _ _ _ _ _); cbn; now rewrite app_nil_r.
    + now destruct (tp_init _ _ _ _ _ _ _ _ _ _).
    + destruct (tp_init _ _ _ _ _ _ _ _ _ _) as [o|e] eqn:R; cbn; [|exists []; now rewrite app_nil_r]. repeat split; [exact Eu|now apply String.eqb_eq|].
      unfold tp_init, base_init, assert_, rbind in R.
      repeat match type of R with context [if ?b then Ok tt else _] => let E := fresh "E" in destruct b eqn:E; [|discriminate] end.
      rewrite Cn in R. now injection R as <-.
  - exists w, (Raise NotImplementedError). split; [intros s; rewrite check_runs, Ck, Eo; fold w; cbn; now rewrite app_nil_r|]. split; [reflexivity|]. exists []. now rewrite app_nil_r.
Qed.
End Init.

(** ** The class *)
Section Class.
Context (N : Num) (num f4 : N -> string) (dec : Z -> string) (W : Type).
Context (get_samples : string -> Z -> option Z -> W -> W * res (list (list N))) (time_ : W -> W * N) (fun_target : list N -> W -> W * res N).
Context (St : Type) (lg : string).
Notation NB d := (l_get_next_best_sample N num W d St lg).
Notation CST d := (l_class_step N num f4 dec W d time_ fun_target St lg).
Notation LOOP d := (l_class_loop N num f4 dec W d time_ fun_target St lg).
Notation ALL d := (l_class_all_initial N num f4 dec W d time_ fun_target St lg).
Notation INP d := (l_class_initial_inputs N num f4 dec W d time_ fun_target St lg).
Notation OPT d := (l_class_optimize N num f4 dec W d get_samples time_ fun_target St lg).
Notation clk := (clock N (St * W) (@onsnd W St N time_)).

(** no message of the repeated sample fails *)
Definition never_none : Prop := forall p q e, get_next_best_acquisition N p q e <> Ok None.

Lemma next_sim {A} d lax ns X pts acqs (k1 k2 : mat N * list N -> M (St * W) msg A) :
  (d = false \/ lax = true \/ never_none) -> (forall a, sim Fv Fv lax (k1 a) (k2 a)) ->
  sim Fv Fv lax (bind (NB d ns X pts acqs) (fun nb => bind (lift (vstack_row N X nb)) k1))
                (bind (NB false ns X pts acqs) (fun nb => bind (lift (vstack_row N X nb)) k2)).
Proof.
  intros H Hk. unfold l_get_next_best_sample. destruct (negb _); [apply sim_bind; [apply sim_self|intros o; apply sim_bind; [apply sim_self|exact Hk]]|].
  destruct (existsb _ _); [|apply sim_bind; [apply sim_self|intros o; apply sim_bind; [apply sim_self|exact Hk]]].
  destruct (get_next_best_acquisition N pts acqs X) as [[p|]|e] eqn:G.
  - apply sim_bind; [|intros o; apply sim_bind; [apply sim_self|exact Hk]].
    intros s. destruct d; cbn; repeat split; now left.
  - destruct d.
    + destruct H as [H|[->|H]]; [discriminate| |now apply H in G].
      intros s. unfold vstack_row. cbn. destruct (Nat.eqb (mcols X) 1); cbn; repeat split; right; auto.
    + apply sim_bind; [apply sim_self|intros o; apply sim_bind; [apply sim_self|exact Hk]].
  - apply sim_bind; [|intros o; apply sim_bind; [apply sim_self|exact Hk]]. apply sim_self.
Qed.
Lemma next_silent lax ns X pts acqs :
  sim F0 F0 lax (NB false ns X pts acqs) (@lift (St * W) (event N) _ (get_next_best_sample N ns X pts acqs)).
Proof.
  unfold l_get_next_best_sample, get_next_best_sample. destruct (negb _); [intros s; repeat split; now left|].
  destruct (existsb _ _); [|intros s; repeat split; now left].
  intros s. destruct (get_next_best_acquisition _ _ _ _); cbn; repeat split; now left.
Qed.
Lemma next_says ns X pts acqs : says (NB false ns X pts acqs) [].
Proof. unfold l_get_next_best_sample. destruct (negb _); [apply says_raise|]. destruct (existsb _ _); repeat sayw. Qed.

Lemma clk_silent lax : sim F0 F0 lax (ltick N W time_ St) clk.
Proof. apply sim_ext. intros [s w]. unfold onsnd. cbn. now destruct (time_ w). Qed.
Lemma target_silent lax x : sim F0 F0 lax (lon W St (fun_target x)) (call_target N (St * W) (fun x => @onsnd W St _ (fun_target x)) x).
Proof. apply sim_ext_ev; [|reflexivity]. intros [s w]. unfold onsnd. cbn. now destruct (fun_target x w). Qed.

Lemma step_sim d lax ind X Y single1 single2 :
  (d = false \/ lax = true \/ never_none) -> (forall X Y, sim Fv Fv lax (single1 X Y) (single2 X Y)) ->
  sim Fv Fv lax (CST d single1 ind X Y) (CST false single2 ind X Y).
Proof.
  intros H Hs. unfold l_class_step. do 2 simb. apply sim_bind; [apply Hs|intros [p di]].
  do 2 simb. apply next_sim; [exact H|intros [X' p']]. repeat simb.
Qed.
Lemma step_silent lax ind X Y single1 single2 :
  (forall X Y, sim F0 F0 lax (single1 X Y) (ext_ev (EvModel X Y) (single2 X Y))) ->
  sim F0 F0 lax (CST false single1 ind X Y) (class_step N (St * W) (fun x => @onsnd W St _ (fun_target x)) (@onsnd W St N time_) single2 X Y).
Proof.
  intros Hs. unfold l_class_step, class_step. sima. apply sim_bind; [apply clk_silent|intros t0].
  apply sim_bind; [apply Hs|intros [p di]]. sima. apply sim_bind; [apply next_silent|intros nb]. sima. destruct a as [X' p'].
  apply sim_bind; [apply clk_silent|intros t1]. apply sim_bind; [apply target_silent|intros y]. apply sim_bind; [apply clk_silent|intros t2].
  sima. apply sim_bind; [apply clk_silent|intros t3]. apply sim_ret.
Qed.
Lemma step_says ind X Y single l : (forall X Y, says (single X Y) l) ->
  says (CST false single ind X Y) (mkmsg lg INFO ("Iteration " ++ dec (ind + 1)) :: l).
Proof.
  intros H. unfold l_class_step. apply (says_bind _ _ [_] l); [apply says_say|intros _]. sayw.
  apply says_last; [apply H|intros [p di]]. sayw. apply says_first; [apply next_says|intros nb]. sayw. destruct a0 as [X' p'].
  repeat sayw.
Qed.

Lemma loop_sim d lax single1 single2 n : (d = false \/ lax = true \/ never_none) -> (forall X Y, sim Fv Fv lax (single1 X Y) (single2 X Y)) ->
  forall ind X Y ta ts tq, sim Fv Fv lax (LOOP d single1 n ind X Y ta ts tq) (LOOP false single2 n ind X Y ta ts tq).
Proof.
  intros H Hs. induction n as [|n IH]; intros; cbn [l_class_loop]; [apply sim_self|].
  apply sim_bind; [now apply step_sim|intros [[[[X' Y'] a] s] c]]. apply IH.
Qed.
Lemma loop_silent lax single1 single2 n : (forall X Y, sim F0 F0 lax (single1 X Y) (ext_ev (EvModel X Y) (single2 X Y))) ->
  forall ind X Y ta ts tq, sim F0 F0 lax (LOOP false single1 n ind X Y ta ts tq)
    (class_loop N (St * W) (fun x => @onsnd W St _ (fun_target x)) (@onsnd W St N time_) single2 n X Y ta ts tq).
Proof.
  intros Hs. induction n as [|n IH]; intros; cbn [l_class_loop class_loop]; [apply sim_ret|].
  apply sim_bind; [now apply step_silent|intros [[[[X' Y'] a] s] c]]. apply IH.
Qed.
Definition lines (l : list msg) (k n : nat) : list msg := flat_map (fun i => mkmsg lg INFO ("Iteration " ++ dec (Z.of_nat i)) :: l) (seq k n).
Lemma loop_says single l n : (forall X Y, says (single X Y) l) ->
  forall k X Y ta ts tq, says (LOOP false single n (Z.of_nat k) X Y ta ts tq) (lines l (S k) n).
Proof.
  intros H. induction n as [|n IH]; intros; cbn [l_class_loop]; [apply says_ret|]. unfold lines. cbn [seq flat_map].
  apply says_bind.
  - replace (Z.of_nat (S k)) with (Z.of_nat k + 1)%Z by lia. now apply step_says.
  - intros [[[[X' Y'] a] s] c]. replace (Z.of_nat k + 1)%Z with (Z.of_nat (S k)) by lia. apply IH.
Qed.

Lemma inputs_sim d lax single1 single2 num_iter X : (d = false \/ lax = true \/ never_none) -> (forall X Y, sim Fv Fv lax (single1 X Y) (single2 X Y)) ->
  sim Fv Fv lax (INP d single1 num_iter X) (INP false single2 num_iter X).
Proof.
  intros H Hs. unfold l_class_initial_inputs. simb. apply sim_bind; [|intros r; apply sim_self].
  unfold l_class_all_initial. do 2 simb. apply sim_bind; [now apply loop_sim|intros r]. repeat simb.
Qed.
Lemma inputs_silent lax single1 single2 num_iter X : (forall X Y, sim F0 F0 lax (single1 X Y) (ext_ev (EvModel X Y) (single2 X Y))) ->
  sim F0 F0 lax (INP false single1 num_iter X)
    (class_initial_inputs N (St * W) (fun x => @onsnd W St _ (fun_target x)) (@onsnd W St N time_) single2 num_iter X).
Proof.
  intros Hs. unfold l_class_initial_inputs, class_initial_inputs. apply sim_bind; [apply sim_mmapM; intros x|intros l].
  - unfold l_class_initial, class_initial. apply sim_bind; [apply clk_silent|intros t0]. apply sim_bind; [apply target_silent|intros y].
    apply sim_bind; [apply clk_silent|intros t1]. apply sim_ret.
  - apply sim_bind; [|intros r; apply sim_ret]. unfold l_class_all_initial, class_all_initial. sima.
    apply sim_bind; [apply clk_silent|intros t0]. apply sim_bind; [now apply loop_silent|intros r]. apply sim_bind; [apply clk_silent|intros t1].
    sima. apply sim_ret.
Qed.
Lemma inputs_says single l num_iter X : (forall X Y, says (single X Y) l) -> says (INP false single num_iter X) (lines l 1 (Z.to_nat num_iter)).
Proof.
  intros H. unfold l_class_initial_inputs. apply says_first; [sayw; unfold l_class_initial; repeat sayw|intros q].
  apply says_last; [|intros r; apply says_ret]. unfold l_class_all_initial. do 2 sayw.
  apply says_last; [apply (loop_says _ _ _ H 0)|intros r]. repeat sayw.
Qed.

(** print_info *)
Lemma info_runs d a ob num_init seed s : In (a_surrogate N a) ["gp"; "tp"; "rf"] ->
  l_print_info N num dec W d St lg a ob num_init seed s = (s, map (mkmsg lg INFO) (head_lines N num dec d a ob num_init seed), Ok tt).
Proof.
  intros I. destruct a as [range ni sur cov acq norm ard init samp og ot ob0 mlm msel ns]. cbn [a_surrogate] in I.
  destruct I as [<-|[<-|[<-|[]]]]; reflexivity.
Qed.
Lemma info_sim d d' lax a ob num_init seed : In (a_surrogate N a) ["gp"; "tp"; "rf"] ->
  sim Fv Fv lax (l_print_info N num dec W d St lg a ob num_init seed) (l_print_info N num dec W d' St lg a ob num_init seed).
Proof.
  intros I s. rewrite !info_runs by assumption. split; [reflexivity|]. split; [|now left].
  rewrite !visible_flat. unfold head_lines, header. destruct (a_surrogate N a =? "gp"), (a_surrogate N a =? "tp"); destruct d, d'; reflexivity.
Qed.

Lemma optimize_sim d lax single1 single2 a ob num_init seed : In (a_surrogate N a) ["gp"; "tp"; "rf"] ->
  (d = false \/ lax = true \/ never_none) -> (forall X Y, sim Fv Fv lax (single1 X Y) (single2 X Y)) ->
  sim Fv Fv lax (OPT d single1 a ob num_init seed) (OPT false single2 a ob num_init seed).
Proof.
  intros I H Hs. unfold l_class_optimize. simb. apply sim_bind; [now apply info_sim|intros _]. simb.
  apply sim_bind; [unfold l_get_initials; apply sim_bind; [apply samples_sim|intros l; apply sim_self]|intros X]. do 2 simb.
  apply sim_bind; [now apply inputs_sim|intros r]. repeat simb.
Qed.
Lemma optimize_silent lax single1 single2 a ob num_init seed : In (a_surrogate N a) ["gp"; "tp"; "rf"] ->
  (forall X Y, sim F0 F0 lax (single1 X Y) (ext_ev (EvModel X Y) (single2 X Y))) ->
  sim F0 F0 lax (OPT false single1 a ob num_init seed)
    (run_class N W get_samples time_ fun_target single2 (a_init N a) (a_num_iter N a) num_init seed).
Proof.
  intros I Hs. unfold l_class_optimize, run_class, class_optimize. sima.
  apply sim_left with (a := tt); [intros s; rewrite info_runs by assumption; eexists; split; [reflexivity|apply F0_nil]|].
  apply sim_bind; [apply clk_silent|intros t0]. apply sim_bind.
  - intros [s w]. unfold l_get_initials, get_initials, l_get_samples. unfold bind, when, lon, ext, onsnd, lift, ret. cbn [andb fst snd].
    destruct (get_samples (a_init N a) num_init seed w) as [w' [l|e]]; cbn; repeat split; now left.
  - intros X. sima. apply sim_bind; [now apply inputs_silent|intros r]. apply sim_bind; [apply clk_silent|intros t1]. sima. apply sim_ret.
Qed.
Lemma optimize_says single l a ob num_init seed : In (a_surrogate N a) ["gp"; "tp"; "rf"] -> (forall X Y, says (single X Y) l) ->
  says (OPT false single a ob num_init seed) (map (mkmsg lg INFO) (head_lines N num dec false a ob num_init seed) ++ lines l 1 (Z.to_nat (a_num_iter N a)))%list.
Proof.
  intros I H. unfold l_class_optimize. sayw. apply says_bind; [intros s; rewrite info_runs by assumption; reflexivity|intros _].
  sayw. apply says_first; [unfold l_get_initials; apply says_first; [apply samples_says|intros q; apply says_lift]|intros X]. sayw.
  apply says_last; [now apply inputs_says|intros r]. repeat sayw.
Qed.
End Class.

(** ** The whole program *)
Section Program.
Context (N : Num) (num f4 : N -> string) (dec : Z -> string).
Context (W : Type) (fun_text message_text time_text : W -> string).
Context (str_exp : option string).
Context (nexp nlog cdf pdf : N -> N) (npi : N).
Notation mx := (list (list N)).
Context (inv chol : mx -> res mx) (cho_solve : mx -> mx -> res mx) (slogdet : mx -> N * N) (ngamma ndigamma : N -> N).
Context (get_samples : string -> Z -> option Z -> W -> W * res (list (list N))).
Context (lbfgsb : (list N -> res N) -> list N -> list (N * N) -> W -> W * res (list N)).
Context (direct : (list N -> res N) -> list (N * N) -> W -> W * res (list N)).
Context (cma : (list N -> res N) -> list N -> list (N * N) -> W -> W * res (list N)).
Context (time_ : W -> W * N).
Context (minimize : W -> minimizer N) (after : mat N -> list N -> string -> W -> W).
Context (prior_mu : prior N).
Context (choice : nat -> nat -> bool -> W -> W * res (list nat)) (uniform : N -> N -> W -> W * res N) (trunc : N -> option Z)
  (schedule : nat -> list nat).
Context (fun_target : list N -> W -> W * res N).
Notation PR d := (l_program N num f4 dec W fun_text message_text time_text d str_exp nexp nlog cdf pdf npi inv chol cho_solve slogdet ngamma ndigamma
  get_samples lbfgsb direct cma time_ minimize after prior_mu choice uniform trunc schedule fun_target).
Notation BP := (bo_program N nexp nlog cdf pdf npi inv chol cho_solve slogdet ngamma ndigamma W
  get_samples lbfgsb direct cma time_ minimize after prior_mu choice uniform trunc schedule fun_target).

Lemma on_info_sim {S A B} lax (f : A -> B) (m1 m2 : M S msg (list N * A)) :
  sim Fv Fv lax m1 m2 -> sim Fv Fv lax (on_info N f m1) (on_info N f m2).
Proof. intros H. unfold on_info. apply sim_bind; [exact H|intros p; apply sim_self]. Qed.
Lemma on_info_silent {St A} lax (f : A -> info N) (m1 : M (St * W) msg (list N * A)) (m2 : M (St * W) (fitev N) (list N * A)) X Y :
  sim F0 F0 lax m1 m2 -> sim F0 F0 lax (on_info N f m1) (ext_ev (@EvModel N X Y) (untraced N W f m2)).
Proof.
  intros H s. unfold on_info, bind, ret, ext_ev, untraced. specialize (H s).
  destruct (m1 s) as [[s1 t1] r1], (m2 s) as [[s2 t2] r2]. destruct H as (<- & _ & [<-|(L & -> & [->| ->])]).
  - destruct r1; cbn; rewrite F0_nil; repeat split; now left.
  - cbn. rewrite F0_nil. repeat split. right. auto.
  - cbn. rewrite F0_nil. repeat split. right. auto.
Qed.
Lemma on_info_says {S A B} (f : A -> B) (m : M S msg (list N * A)) l : says m l -> says (on_info N f m) l.
Proof. intros H. unfold on_info. apply says_last; [exact H|intros p; apply says_ret]. Qed.
Lemma sur_in m : In (surrogate_of N m) ["gp"; "tp"; "rf"].
Proof. destruct m; cbn; auto. Qed.

Lemma starting_sim {St A E2 K} (F1 : msg -> list K) (F2 : E2 -> list K) lax (s : St) (m1 : M (St * W) msg A) (m2 : M (St * W) E2 A) w :
  sim F1 F2 lax m1 m2 -> match starting W s m1 w, forget W m2 s w with
  (w1, t1, r1), (w2, t2, r2) => w1 = w2 /\ flat_map F1 t1 = flat_map F2 t2 /\ strict_eq lax r1 r2 end.
Proof.
  intros H. unfold starting, forget. specialize (H (s, w)). destruct (m1 (s, w)) as [[[? ?] ?] ?], (m2 (s, w)) as [[[? ?] ?] ?].
  destruct H as ([= <- <-] & ? & ?). now repeat split.
Qed.
Lemma starting_both {St A} lax (s : St) (m1 m2 : M (St * W) msg A) w t : sim Fv Fv lax m1 m2 ->
  match (match starting W s m1 w with (w', t', r) => (w', (t ++ t')%list, r) end), (match starting W s m2 w with (w', t', r) => (w', (t ++ t')%list, r) end) with
  (w1, t1, r1), (w2, t2, r2) => w1 = w2 /\ visible t1 = visible t2 /\ strict_eq lax r1 r2 end.
Proof.
  intros H. generalize (starting_sim Fv Fv lax s m1 m2 w H). change (forget W m2 s w) with (starting W s m2 w).
  destruct (starting W s m1 w) as [[w1 t1] r1], (starting W s m2 w) as [[w2 t2] r2]. intros (<- & V & R).
  rewrite <- !visible_flat, !flat_map_app, V. repeat split. exact R.
Qed.
Lemma starting_none {St A E} (s : St) (m1 : M (St * W) msg A) (m2 : M (St * W) E A) w t : sim F0 F0 false m1 m2 ->
  match (match starting W s m1 w with (w', t', r) => (w', (t ++ t')%list, r) end), forget W m2 s w with
  (w1, _, r1), (w2, _, r2) => w1 = w2 /\ r1 = r2 end.
Proof.
  intros H. generalize (starting_sim F0 F0 false s m1 m2 w H).
  destruct (starting W s m1 w) as [[w1 t1] r1], (forget W m2 s w) as [[w2 t2] r2]. intros (<- & V & [R|[D _]]); [now split|discriminate].
Qed.
Lemma program_sim d lax da ca a num_init seed w :
  (d = false \/ lax = true \/ never_none N) ->
  match PR d da ca a num_init seed w, PR false da ca a num_init seed w with
  | (w1, t1, r1), (w2, t2, r2) => w1 = w2 /\ visible t1 = visible t2 /\ strict_eq lax r1 r2
  end.
Proof.
  intros H. destruct (@init_runs N W da ca a) as (t & r & Hr & _ & Hm). unfold l_program, bind. rewrite Hr.
  destruct r as [[ob m]|e]; [|repeat split; now left]. destruct Hm as (_ & _ & Hs & _).
  assert (I : In (a_surrogate N a) ["gp"; "tp"; "rf"]) by (rewrite Hs; apply sur_in). clear Hr.
  destruct m as [o|o|o]; apply starting_both, optimize_sim; try exact I; try exact H; intros X Y; apply on_info_sim.
  - apply gp_sim.
  - apply tp_sim.
  - apply rf_sim.
Qed.
Lemma program_silent da ca a num_init seed w :
  match PR false da ca a num_init seed w, BP da ca a num_init seed w with (w1, _, r1), (w2, _, r2) => w1 = w2 /\ r1 = r2 end.
Proof.
  destruct (@init_runs N W da ca a) as (t & r & Hr & Hb & Hm). unfold l_program, bo_program, bind. rewrite Hr, Hb.
  destruct r as [[ob m]|e]; [|now split]. destruct Hm as (_ & _ & Hs & _).
  assert (I : In (a_surrogate N a) ["gp"; "tp"; "rf"]) by (rewrite Hs; apply sur_in). clear Hr Hb.
  destruct m as [o|o|o]; cbn [rmap snd]; apply starting_none, optimize_silent; try exact I; intros X Y; apply on_info_silent.
  - apply gp_silent.
  - apply tp_silent.
  - apply rf_silent.
Qed.

(** the log without the flag *)
Lemma logger_name sur : bo_logger_name sur str_exp = logger_of sur str_exp.
Proof. unfold bo_logger_name, logger_of. destruct str_exp; [reflexivity|]. f_equal. induction sur; [reflexivity|]. cbn. now f_equal. Qed.
Lemma starting_says {St A} (s : St) (m : M (St * W) msg A) l : says m l -> says (starting W s m) l.
Proof. intros H w. unfold starting. specialize (H (s, w)). destruct (m (s, w)) as [[? ?] ?]. exact H. Qed.
Lemma program_says da ca a num_init seed : says (PR false da ca a num_init seed) (run_log N num dec str_exp da ca a num_init seed).
Proof.
  destruct (@init_runs N W da ca a) as (t & r & Hr & _ & Hm). unfold l_program. intros w. unfold bind. rewrite Hr.
  destruct r as [[ob m]|e]; [|destruct Hm as [rest Hm]; cbn; unfold run_log; rewrite Hm; exists (rest ++ (map (mkmsg (logger_of (a_surrogate N a) str_exp) INFO) (head_lines N num dec false a (used da ca (a_opt_bo N a) (Z.of_nat (List.length (a_range N a)))) num_init seed) ++
   iterations (logger_of (a_surrogate N a) str_exp) dec (used da ca (a_opt_bo N a) (Z.of_nat (List.length (a_range N a)))) (Z.to_nat (a_num_iter N a))))%list; now rewrite <- app_assoc].
  destruct Hm as (-> & Eo & Hs & Ho).
  assert (I : In (a_surrogate N a) ["gp"; "tp"; "rf"]) by (rewrite Hs; apply sur_in). clear Hr.
  unfold run_log. rewrite Hs, <- Eo. clear Eo.
  set (wn := warnings _ _ _ _). clearbody wn.
  assert (J : forall k : M W msg (run_out N), says k (map (mkmsg (logger_of (surrogate_of N m) str_exp) INFO) (head_lines N num dec false a ob num_init seed) ++
     iterations (logger_of (surrogate_of N m) str_exp) dec ob (Z.to_nat (a_num_iter N a)))%list ->
     match (match k w with (w2, t2, r) => (w2, (wn ++ t2)%list, r) end) with (_, t, r) => complete_or_beginning t (wn ++ map (mkmsg (logger_of (surrogate_of N m) str_exp) INFO) (head_lines N num dec false a ob num_init seed) ++
     iterations (logger_of (surrogate_of N m) str_exp) dec ob (Z.to_nat (a_num_iter N a)))%list r end).
  { intros k Hk. specialize (Hk w). destruct (k w) as [[w2 t2] [b|e]]; cbn in *; [now rewrite Hk|]. destruct Hk as [rest ->]. exists rest. now rewrite app_assoc. }
  destruct m as [o|o|o]; apply J; clear J; cbn [surrogate_of opt_of] in *; apply starting_says.
  - rewrite <- (logger_name "gp"). unfold iterations. rewrite <- Ho.
    apply (optimize_says N num f4 dec W get_samples time_ fun_target _ _ _ _ _ _ _ _ I). intros X Y. apply on_info_says, gp_says.
  - rewrite <- (logger_name "tp"). unfold iterations. rewrite <- Ho.
    apply (optimize_says N num f4 dec W get_samples time_ fun_target _ _ _ _ _ _ _ _ I). intros X Y. apply on_info_says, tp_says.
  - rewrite <- (logger_name "rf"). unfold iterations.
    assert (E : (ob =? "DIRECT") || (ob =? "CMA-ES") = false).
    { unfold str_in, ALLOWED_OPTIMIZER_METHOD_BO_TREES in Ho. cbn [existsb] in Ho. rewrite orb_false_r in Ho. apply String.eqb_eq in Ho. now subst ob. }
    rewrite E.
    apply (optimize_says N num f4 dec W get_samples time_ fun_target _ _ _ _ _ _ _ _ I). intros X Y. apply on_info_says, rf_says.
Qed.
End Program.

(** over the real numbers a candidate always remains *)
Lemma real_never_none : never_none NumR.
Proof.
  intros p q e. unfold get_next_best_acquisition, assert_, rbind. destruct (Nat.eqb _ _); [|discriminate]. destruct (Nat.eqb _ _); [|discriminate].
  destruct (drop_dups _ _ _) as [|c l]; [destruct (rev _); discriminate|]. unfold pick_best.
  assert (G : forall l b, exists b', fold_left (fun (b : option (list NumR * NumR)) pa => if better NumR (snd pa) (option_map snd b) then Some pa else b) l (Some b) = Some b').
  { clear. induction l as [|x l IH]; intros b; cbn [fold_left]; [now eexists|]. destruct (better _ _ _); apply IH. }
  destruct (G l c) as [b' Eb]. intros Hn.
  assert (Ok (option_map fst (Some b')) = Ok None) as Hb by (rewrite <- Eb; exact Hn). discriminate Hb.
Qed.

(** ** As stated *)
Section Stated.
Context (N : Num) (num f4 : N -> string) (dec : Z -> string).
Context (W : Type) (fun_text message_text time_text : W -> string).
Context (str_exp : option string).
Context (nexp nlog cdf pdf : N -> N) (npi : N).
Notation mx := (list (list N)).
Context (inv chol : mx -> res mx) (cho_solve : mx -> mx -> res mx) (slogdet : mx -> N * N) (ngamma ndigamma : N -> N).
Context (get_samples : string -> Z -> option Z -> W -> W * res (list (list N))).
Context (lbfgsb : (list N -> res N) -> list N -> list (N * N) -> W -> W * res (list N)).
Context (direct : (list N -> res N) -> list (N * N) -> W -> W * res (list N)).
Context (cma : (list N -> res N) -> list N -> list (N * N) -> W -> W * res (list N)).
Context (time_ : W -> W * N).
Context (minimize : W -> minimizer N) (after : mat N -> list N -> string -> W -> W).
Context (prior_mu : prior N).
Context (choice : nat -> nat -> bool -> W -> W * res (list nat)) (uniform : N -> N -> W -> W * res N) (trunc : N -> option Z)
  (schedule : nat -> list nat).
Context (fun_target : list N -> W -> W * res N).
Context (da ca : bool) (a : bo_args N) (num_init : Z) (seed : option Z) (w : W).
Notation PR d := (l_program N num f4 dec W fun_text message_text time_text d str_exp nexp nlog cdf pdf npi inv chol cho_solve slogdet ngamma ndigamma
  get_samples lbfgsb direct cma time_ minimize after prior_mu choice uniform trunc schedule fun_target da ca a num_init seed w).
Notation BP := (bo_program N nexp nlog cdf pdf npi inv chol cho_solve slogdet ngamma ndigamma W
  get_samples lbfgsb direct cma time_ minimize after prior_mu choice uniform trunc schedule fun_target da ca a num_init seed w).
Lemma flag_same : let run debug := PR debug in
  fst (fst (run true)) = fst (fst (run false)) /\ visible (snd (fst (run true))) = visible (snd (fst (run false))) /\
  same_or_assertion (snd (run true)) (snd (run false)).
Proof.
  cbv zeta beta.
  generalize (program_sim N num f4 dec W fun_text message_text time_text str_exp nexp nlog cdf pdf npi inv chol cho_solve slogdet ngamma ndigamma
    get_samples lbfgsb direct cma time_ minimize after prior_mu choice uniform trunc schedule fun_target true true da ca a num_init seed w (or_intror (or_introl eq_refl))).
  destruct (PR true) as [[? ?] ?], (PR false) as [[? ?] ?]. cbn [fst snd]. intros (E & V & [R|(_ & R)]); repeat split; try assumption; [now left|now right].
Qed.
Lemma flag_none : never_none N -> let run debug := PR debug in
  fst (fst (run true)) = fst (fst (run false)) /\ visible (snd (fst (run true))) = visible (snd (fst (run false))) /\ snd (run true) = snd (run false).
Proof.
  cbv zeta beta. intros H.
  generalize (program_sim N num f4 dec W fun_text message_text time_text str_exp nexp nlog cdf pdf npi inv chol cho_solve slogdet ngamma ndigamma
    get_samples lbfgsb direct cma time_ minimize after prior_mu choice uniform trunc schedule fun_target true false da ca a num_init seed w (or_intror (or_intror H))).
  destruct (PR true) as [[? ?] ?], (PR false) as [[? ?] ?]. cbn [fst snd]. intros (E & V & [R|(D & _)]); [now repeat split|discriminate].
Qed.
Lemma logged_plain : let logged := PR false in let plain := BP in fst (fst logged) = fst (fst plain) /\ snd logged = snd plain.
Proof.
  cbv zeta.
  generalize (program_silent N num f4 dec W fun_text message_text time_text str_exp nexp nlog cdf pdf npi inv chol cho_solve slogdet ngamma ndigamma
    get_samples lbfgsb direct cma time_ minimize after prior_mu choice uniform trunc schedule fun_target da ca a num_init seed w).
  now destruct (PR false) as [[? ?] ?], BP as [[? ?] ?].
Qed.
Lemma run_logs : let run := PR false in complete_or_beginning (snd (fst run)) (run_log N num dec str_exp da ca a num_init seed) (snd run).
Proof.
  cbv zeta.
  generalize (program_says N num f4 dec W fun_text message_text time_text str_exp nexp nlog cdf pdf npi inv chol cho_solve slogdet ngamma ndigamma
    get_samples lbfgsb direct cma time_ minimize after prior_mu choice uniform trunc schedule fun_target da ca a num_init seed w).
  now destruct (PR false) as [[? ?] ?].
Qed.
End Stated.
Definition flag_exact := fun num f4 dec W fun_text message_text time_text str_exp nexp nlog cdf pdf npi inv chol cho_solve slogdet gamma digamma
    get_samples lbfgsb direct cma time_ minimize after prior_mu choice uniform trunc schedule target da ca a num_init seed w =>
  flag_none NumR num f4 dec W fun_text message_text time_text str_exp nexp nlog cdf pdf npi inv chol cho_solve slogdet gamma digamma
    get_samples lbfgsb direct cma time_ minimize after prior_mu choice uniform trunc schedule target da ca a num_init seed w real_never_none.
