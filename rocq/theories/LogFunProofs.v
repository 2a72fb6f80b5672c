(** Proofs about the log of the function wrapper. *)
From Verif Require Import Base Num UtilsModel HypsModel CovModel GPModel LikModel HypOptModel AcqModel TreesModel SamplingModel
  Monad WrapperModel BOModel BOAcqModel BOFullModel BOProgram LoggerModel LogRunModel LogRunSpec LogRunProofs LogRunMain FunSpec LogFunModel LogFunSpec.
From Coq Require Import List ZArith Bool Ascii String Lia.
Import ListNotations.
Local Open Scope string_scope.

Lemma sim_assoc {S E1 E2 K A B C} (F1 : E1 -> list K) (F2 : E2 -> list K) lax (m : M S E1 A) (f : A -> M S E1 B) (k : B -> M S E1 C) m2 :
  sim F1 F2 lax (bind m (fun a => bind (f a) k)) m2 -> sim F1 F2 lax (bind (bind m f) k) m2.
Proof.
  intros H s. specialize (H s). replace (bind (bind m f) k s) with (bind m (fun a => bind (f a) k) s); [exact H|].
  unfold bind. destruct (m s) as [[w1 t1] [a|e]]; [|reflexivity]. destruct (f a w1) as [[w2 t2] [b|e]]; [|reflexivity].
  destruct (k b w2) as [[w3 t3] r]. now rewrite app_assoc.
Qed.
Lemma sim_ret_bind {S E1 E2 K A C} (F1 : E1 -> list K) (F2 : E2 -> list K) lax (a : A) (k : A -> M S E1 C) m2 :
  sim F1 F2 lax (k a) m2 -> sim F1 F2 lax (bind (ret a) k) m2.
Proof. intros H s. specialize (H s). unfold bind, ret. now destruct (k a s) as [[? ?] ?]. Qed.

Section Function.
Context (N : Num) (num f4 : N -> string) (dec : Z -> string) (W : Type).
Context (get_samples : string -> Z -> option Z -> W -> W * res (list (list N))) (time_ : W -> W * N) (fun_target : list N -> W -> W * res N).
Context (St : Type) (lg : string).
Notation FST d := (l_fun_step N num f4 dec W d time_ fun_target St lg).
Notation LOOP d := (l_fun_loop N num f4 dec W d time_ fun_target St lg).
Notation ALL d := (l_fun_all_initial N num f4 dec W d time_ fun_target St lg).
Notation INP d := (l_fun_initial_inputs N num f4 dec W d time_ fun_target St lg).
Notation RSR d := (l_run_single_round N num f4 dec W d get_samples time_ fun_target St lg).
Notation tg := (fun x => @onsnd W St _ (fun_target x)).
Notation tm := (@onsnd W St N time_).

(** the choice of the next point *)
Notation NX d ns X pts acqs :=
  (if negb (Nat.eqb (List.length ns) (mcols X)) then raise OutsideModel
   else if existsb (fun x => nlt N (nnorm N (vsub N ns x)) (tol_dup N)) (mrows X) then
     mlet nb <- lift (get_next_best_acquisition N pts acqs X);
     mlet _ <- when d (say_res lg DEBUG "next_point is repeated, so next best is selected.                        next_point: "
       (match nb with Some p => Ok (arr1 N num p) | None => Raise AssertionError end));
     ret nb
   else ret (Some ns)).
Lemma point_sim {A} d lax ns X pts acqs (k1 k2 : mat N * list N -> M (St * W) msg A) :
  (d = false \/ lax = true \/ never_none N) -> (forall a, sim Fv Fv lax (k1 a) (k2 a)) ->
  sim Fv Fv lax (bind (NX d ns X pts acqs) (fun nb => bind (lift (vstack_row N X nb)) k1))
                (bind (NX false ns X pts acqs) (fun nb => bind (lift (vstack_row N X nb)) k2)).
Proof.
  intros H Hk. destruct (negb _); [apply sim_bind; [apply sim_self|intros o; apply sim_bind; [apply sim_self|exact Hk]]|].
  destruct (existsb _ _); [|apply sim_bind; [apply sim_self|intros o; apply sim_bind; [apply sim_self|exact Hk]]].
  destruct (get_next_best_acquisition N pts acqs X) as [[p|]|e] eqn:G.
  - apply sim_bind; [|intros o; apply sim_bind; [apply sim_self|exact Hk]].
    intros s. destruct d; cbn; repeat split; now left.
  - destruct d.
    + destruct H as [H|[->|H]]; [discriminate| |now apply H in G].
      intros s. unfold vstack_row. cbn. destruct (Nat.eqb (mcols X) 1); cbn; repeat split; right; auto.
    + apply sim_bind; [apply sim_self|intros o; apply sim_bind; [apply sim_self|exact Hk]].
  - apply sim_bind; [|intros o; apply sim_bind; [apply sim_self|exact Hk]]. apply sim_self.
Qed.
Lemma fun_step_sim d lax samp n mlm ind X Y single1 single2 :
  (d = false \/ lax = true \/ never_none N) -> (forall X Y, sim Fv Fv lax (single1 samp n mlm X Y) (single2 samp n mlm X Y)) ->
  sim Fv Fv lax (FST d single1 samp n mlm ind X Y) (FST false single2 samp n mlm ind X Y).
Proof.
  intros H Hs. unfold l_fun_step. do 2 simb. apply sim_bind; [apply Hs|intros [p di]].
  do 2 simb. apply point_sim; [exact H|intros [X' p']]. repeat simb.
Qed.
Lemma fun_loop_sim d lax samp n mlm single1 single2 k : (d = false \/ lax = true \/ never_none N) ->
  (forall X Y, sim Fv Fv lax (single1 samp n mlm X Y) (single2 samp n mlm X Y)) ->
  forall ind X Y ta ts tq, sim Fv Fv lax (LOOP d single1 samp n mlm k ind X Y ta ts tq) (LOOP false single2 samp n mlm k ind X Y ta ts tq).
Proof.
  intros H Hs. induction k as [|k IH]; intros; cbn [l_fun_loop]; [apply sim_self|].
  apply sim_bind; [now apply fun_step_sim|intros [[[[X' Y'] a] s] c]]. apply IH.
Qed.
Lemma fun_all_sim d lax samp n mlm single1 single2 num_iter X Y : (d = false \/ lax = true \/ never_none N) ->
  (forall X Y, sim Fv Fv lax (single1 samp n mlm X Y) (single2 samp n mlm X Y)) ->
  sim Fv Fv lax (ALL d single1 samp n mlm num_iter X Y) (ALL false single2 samp n mlm num_iter X Y).
Proof.
  intros H Hs. unfold l_fun_all_initial. do 3 simb. apply sim_bind; [now apply fun_loop_sim|intros r]. repeat simb.
Qed.
Lemma fun_inputs_sim d lax samp n mlm single1 single2 num_iter X : (d = false \/ lax = true \/ never_none N) ->
  (forall X Y, sim Fv Fv lax (single1 samp n mlm X Y) (single2 samp n mlm X Y)) ->
  sim Fv Fv lax (INP d single1 samp n mlm num_iter X) (INP false single2 samp n mlm num_iter X).
Proof.
  intros H Hs. unfold l_fun_initial_inputs. do 2 simb. apply sim_bind; [now apply fun_all_sim|intros r; apply sim_self].
Qed.
Lemma round_sim d lax o init samp n mlm single1 single2 num_init num_iter seed : (d = false \/ lax = true \/ never_none N) ->
  (forall X Y, sim Fv Fv lax (single1 samp n mlm X Y) (single2 samp n mlm X Y)) ->
  sim Fv Fv lax (RSR d single1 o init samp n mlm num_init num_iter seed) (RSR false single2 o init samp n mlm num_init num_iter seed).
Proof.
  intros H Hs. unfold l_run_single_round. do 16 simb.
  apply sim_bind; [unfold l_get_initials; apply sim_bind; [apply samples_sim|intros l; apply sim_self]|intros X]. do 2 simb.
  apply sim_bind; [now apply fun_inputs_sim|intros r]. repeat simb.
Qed.

(** the functions without messages *)
Lemma fun_step_silent {B} lax samp n mlm ind X Y single1 single2 (k1 : mat N * list N * N * N * N -> M (St * W) msg B) k2 :
  (forall X Y, sim F0 F0 lax (single1 samp n mlm X Y) (ext_ev (EvModel X Y) (single2 samp n mlm X Y))) ->
  (forall q, sim F0 F0 lax (k1 q) (k2 q)) ->
  sim F0 F0 lax (bind (FST false single1 samp n mlm ind X Y) k1)
   (mlet t0 <- clock N (St * W) tm;
    mlet p <- ext_ev (EvModel X Y) (single2 samp n mlm X Y);
    let (next_point, di) := p in
    mlet nb <- lift
      (if negb (Nat.eqb (List.length next_point) (mcols X)) then Raise OutsideModel
       else if existsb (fun x => nlt N (nnorm N (vsub N next_point x)) (tol_dup N)) (mrows X)
       then get_next_best_acquisition N (in_points di) (in_acqs di) X
       else Ok (Some next_point));
    mlet Xp <- lift (vstack_row N X nb);
    let (X', p) := Xp in
    mlet te0 <- clock N (St * W) tm;
    mlet y <- call_target N (St * W) tg p;
    mlet te1 <- clock N (St * W) tm;
    mlet t1 <- clock N (St * W) tm;
    k2 (X', (Y ++ [y])%list, nsub N t1 t0, in_tsur di, in_tacq di)).
Proof.
  intros Hs Hk. unfold l_fun_step. apply sim_assoc. sima. apply sim_assoc. apply sim_bind; [apply clk_silent|intros t0].
  apply sim_assoc. apply sim_bind; [apply Hs|intros [p di]]. apply sim_assoc. sima. apply sim_assoc. apply sim_bind.
  { destruct (negb _); [intros s; repeat split; now left|]. destruct (existsb _ _); [|intros s; repeat split; now left].
    intros s. destruct (get_next_best_acquisition _ _ _ _); cbn; repeat split; now left. }
  intros nb. apply sim_assoc. sima. destruct a as [X' p'].
  apply sim_assoc. apply sim_bind; [apply clk_silent|intros t1]. apply sim_assoc. apply sim_bind; [apply target_silent|intros y].
  apply sim_assoc. apply sim_bind; [apply clk_silent|intros t2]. apply sim_assoc. sima.
  apply sim_assoc. apply sim_bind; [apply clk_silent|intros t3]. apply sim_ret_bind, Hk.
Qed.
Lemma fun_loop_silent lax samp n mlm single1 single2 k :
  (forall X Y, sim F0 F0 lax (single1 samp n mlm X Y) (ext_ev (EvModel X Y) (single2 samp n mlm X Y))) ->
  forall ind X Y ta ts tq, sim F0 F0 lax (LOOP false single1 samp n mlm k ind X Y ta ts tq)
    (fun_loop N (St * W) tg tm single2 samp n mlm k X Y ta ts tq).
Proof.
  intros Hs. induction k as [|k IH]; intros; cbn [l_fun_loop fun_loop]; [apply sim_ret|].
  apply (fun_step_silent lax samp n mlm ind X Y single1 single2 _
    (fun q => let '(X', Y', a, s, c) := q in fun_loop N (St * W) tg tm single2 samp n mlm k X' Y' (ta ++ [a])%list (ts ++ [s])%list (tq ++ [c])%list) Hs).
  intros [[[[X' Y'] a] s] c]. apply IH.
Qed.
Lemma fun_all_silent lax samp n mlm single1 single2 num_iter X Y :
  (forall X Y, sim F0 F0 lax (single1 samp n mlm X Y) (ext_ev (EvModel X Y) (single2 samp n mlm X Y))) ->
  sim F0 F0 lax (ALL false single1 samp n mlm num_iter X Y) (fun_all_initial N (St * W) tg tm single2 samp n mlm num_iter X Y).
Proof.
  intros Hs. unfold l_fun_all_initial, fun_all_initial. do 2 sima. apply sim_bind; [apply clk_silent|intros t0].
  apply sim_bind; [now apply fun_loop_silent|intros r]. apply sim_bind; [apply clk_silent|intros t1]. sima. apply sim_ret.
Qed.
Lemma fun_inputs_silent lax samp n mlm single1 single2 num_iter X :
  (forall X Y, sim F0 F0 lax (single1 samp n mlm X Y) (ext_ev (EvModel X Y) (single2 samp n mlm X Y))) ->
  sim F0 F0 lax (INP false single1 samp n mlm num_iter X) (fun_initial_inputs N (St * W) tg tm single2 samp n mlm num_iter X).
Proof.
  intros Hs. unfold l_fun_initial_inputs, fun_initial_inputs. sima. apply sim_bind; [apply sim_mmapM; intros x|intros l].
  - unfold l_fun_initial, fun_initial. apply sim_bind; [apply clk_silent|intros t0]. apply sim_bind; [apply target_silent|intros y].
    apply sim_bind; [apply clk_silent|intros t1]. apply sim_ret.
  - apply sim_bind; [now apply fun_all_silent|intros r; apply sim_ret].
Qed.
Lemma round_silent lax o init samp n mlm single1 single2 num_init num_iter seed :
  (forall X Y, sim F0 F0 lax (single1 samp n mlm X Y) (ext_ev (EvModel X Y) (single2 samp n mlm X Y))) ->
  sim F0 F0 lax (RSR false single1 o init samp n mlm num_init num_iter seed)
    (run_single_round N (St * W) tg tm single2 (fun ms n s => @onsnd W St _ (BOModel.get_initials N W get_samples ms n s)) init samp n mlm num_init num_iter seed).
Proof.
  intros Hs. unfold l_run_single_round, run_single_round. do 15 sima.
  apply sim_bind; [apply clk_silent|intros t0]. apply sim_bind.
  - intros [s w]. unfold l_get_initials, get_initials, l_get_samples. unfold bind, when, lon, ext, onsnd, lift, ret. cbn [andb fst snd].
    destruct (get_samples init num_init seed w) as [w' [l|e]]; cbn; repeat split; now left.
  - intros X. sima. apply sim_bind; [now apply fun_inputs_silent|intros r]. apply sim_bind; [apply clk_silent|intros t1]. sima. apply sim_ret.
Qed.

(** the messages without the flag *)
Lemma fun_step_says samp n mlm ind X Y single l : (forall X Y, says (single samp n mlm X Y) l) ->
  says (FST false single samp n mlm ind X Y) (mkmsg lg INFO ("Iteration " ++ dec (ind + 1)) :: l).
Proof.
  intros H. unfold l_fun_step. apply (says_bind _ _ [_] l); [apply says_say|intros _]. sayw.
  apply says_last; [apply H|intros [p di]]. sayw. apply says_first; [|intros nb].
  { destruct (negb _); [apply says_raise|]. destruct (existsb _ _); repeat sayw. }
  sayw. destruct a0 as [X' p']. repeat sayw.
Qed.
Lemma fun_loop_says samp n mlm single l k : (forall X Y, says (single samp n mlm X Y) l) ->
  forall i X Y ta ts tq, says (LOOP false single samp n mlm k (Z.of_nat i) X Y ta ts tq) (lines dec lg l (S i) k).
Proof.
  intros H. induction k as [|k IH]; intros; cbn [l_fun_loop]; [apply says_ret|]. unfold lines. cbn [seq flat_map].
  apply says_bind.
  - replace (Z.of_nat (S i)) with (Z.of_nat i + 1)%Z by lia. now apply fun_step_says.
  - intros [[[[X' Y'] a] s] c]. replace (Z.of_nat i + 1)%Z with (Z.of_nat (S i)) by lia. apply IH.
Qed.
Lemma fun_all_says samp n mlm single l num_iter X Y : (forall X Y, says (single samp n mlm X Y) l) ->
  says (ALL false single samp n mlm num_iter X Y) (lines dec lg l 1 (Z.to_nat num_iter)).
Proof.
  intros H. unfold l_fun_all_initial. do 3 sayw. apply says_last; [apply (fun_loop_says _ _ _ _ _ _ H 0)|intros r]. repeat sayw.
Qed.
Lemma fun_inputs_says samp n mlm single l num_iter X : (forall X Y, says (single samp n mlm X Y) l) ->
  says (INP false single samp n mlm num_iter X) (lines dec lg l 1 (Z.to_nat num_iter)).
Proof.
  intros H. unfold l_fun_initial_inputs. sayw. apply says_first; [sayw; unfold l_fun_initial; repeat sayw|intros q].
  apply says_last; [now apply fun_all_says|intros r; apply says_ret].
Qed.
Lemma round_says o init samp n mlm single l num_init num_iter seed : (forall X Y, says (single samp n mlm X Y) l) ->
  says (RSR false single o init samp n mlm num_init num_iter seed)
    (map (mkmsg lg INFO) (round_header N num dec (go_range N o) (go_cov N o) (go_acq N o) (go_opt_gp N o) (go_opt_bo N o) (go_msel N o) init samp n mlm num_init num_iter seed) ++
     lines dec lg l 1 (Z.to_nat num_iter))%list.
Proof.
  intros H. unfold l_run_single_round. do 2 sayw. unfold round_header. cbn [map app].
  do 13 (apply (says_bind _ _ [_]); [apply says_say|intros _]).
  sayw. apply says_first; [unfold l_get_initials; apply says_first; [apply samples_says|intros q; apply says_lift]|intros X]. sayw.
  apply says_last; [now apply fun_inputs_says|intros r]. repeat sayw.
Qed.
End Function.

Lemma says_calls {S A B} (f : A -> M S msg B) (g : A -> list msg) l : (forall x, says (f x) (g x)) -> says (mmapM f l) (flat_map g l).
Proof.
  intros H. induction l as [|x l IH]; cbn [mmapM flat_map]; [apply says_ret|].
  apply says_bind; [apply H|intros y]. apply says_last; [exact IH|intros ys; apply says_ret].
Qed.

Section Calls.
Context (N : Num) (num f4 : N -> string) (dec : Z -> string) (W : Type) (fun_text message_text time_text : W -> string) (str_exp : option string).
Context (nexp nlog cdf pdf : N -> N) (npi : N).
Notation mx := (list (list N)).
Context (inv chol : mx -> res mx) (cho_solve : mx -> mx -> res mx) (slogdet : mx -> N * N).
Context (get_samples : string -> Z -> option Z -> W -> W * res (list (list N))).
Context (lbfgsb : (list N -> res N) -> list N -> list (N * N) -> W -> W * res (list N)).
Context (direct : (list N -> res N) -> list (N * N) -> W -> W * res (list N)).
Context (cma : (list N -> res N) -> list N -> list (N * N) -> W -> W * res (list N)).
Context (time_ : W -> W * N) (minimize : W -> minimizer N) (after : mat N -> list N -> string -> W -> W) (prior_mu : prior N).
Context (fun_target : list N -> W -> W * res N) (o : gp_obj N) (uses : list (fun_use N)) (sw : gp_state N * W).
Notation LC d := (l_calls N num f4 W fun_text message_text time_text d str_exp nexp nlog cdf pdf npi inv chol cho_solve slogdet
  get_samples lbfgsb direct cma time_ minimize after prior_mu dec fun_target o uses).
Notation opt := (gp_single N nexp nlog cdf pdf npi inv chol cho_solve slogdet W get_samples lbfgsb direct cma time_ minimize after prior_mu o).
Notation tg := (fun x => onsnd W (fun_target x)).
Notation tm := (onsnd W time_).
Notation gi := (fun ms n s => onsnd W (BOModel.get_initials N W get_samples ms n s)).
Notation PC := (mmapM (fun_call (fun_all_initial N (gp_state N * W) tg tm opt) (fun_initial_inputs N (gp_state N * W) tg tm opt)
      (run_single_round N (gp_state N * W) tg tm opt gi)) uses).
Lemma calls_sim d lax : (d = false \/ lax = true \/ never_none N) -> sim Fv Fv lax (LC d) (LC false).
Proof.
  intros H. unfold l_calls. cbv zeta. apply sim_mmapM. intros [k X Y|k X|k m n s]; cbn [fun_call].
  - apply fun_all_sim; [exact H|intros X' Y'; apply on_info_sim, gp_sim].
  - apply fun_inputs_sim; [exact H|intros X' Y'; apply on_info_sim, gp_sim].
  - apply round_sim; [exact H|intros X' Y'; apply on_info_sim, gp_sim].
Qed.
Lemma calls_silent : sim F0 F0 false (LC false) PC.
Proof.
  unfold l_calls. cbv zeta. apply sim_mmapM. intros [k X Y|k X|k m n s]; cbn [fun_call].
  - apply fun_all_silent. intros X' Y'. apply on_info_silent, gp_silent.
  - apply fun_inputs_silent. intros X' Y'. apply on_info_silent, gp_silent.
  - apply round_silent. intros X' Y'. apply on_info_silent, gp_silent.
Qed.
Lemma calls_says : says (LC false) (flat_map (call_log N num dec str_exp o) uses).
Proof.
  unfold l_calls. cbv zeta. apply says_calls. intros [k X Y|k X|k m n s]; cbn [fun_call call_log]; unfold iterations, round_log; rewrite <- logger_name.
  - apply fun_all_says. intros X' Y'. apply on_info_says, gp_says.
  - apply fun_inputs_says. intros X' Y'. apply on_info_says, gp_says.
  - apply round_says. intros X' Y'. apply on_info_says, gp_says.
Qed.
(** as stated *)
Lemma calls_flag : let run debug := l_calls N num f4 W fun_text message_text time_text debug str_exp nexp nlog cdf pdf npi inv chol cho_solve slogdet
    get_samples lbfgsb direct cma time_ minimize after prior_mu dec fun_target o uses sw in
  fst (fst (run true)) = fst (fst (run false)) /\ visible (snd (fst (run true))) = visible (snd (fst (run false))) /\
  same_or_assertion (snd (run true)) (snd (run false)).
Proof.
  cbv zeta beta. generalize (calls_sim true true (or_intror (or_introl eq_refl)) sw).
  destruct (LC true sw) as [[? ?] ?], (LC false sw) as [[? ?] ?]. cbn [fst snd]. rewrite <- !visible_flat. intros (E & V & [R|(_ & R)]); repeat split; try assumption; [now left|now right].
Qed.
Lemma calls_flag_none : never_none N -> let run debug := l_calls N num f4 W fun_text message_text time_text debug str_exp nexp nlog cdf pdf npi inv chol cho_solve slogdet
    get_samples lbfgsb direct cma time_ minimize after prior_mu dec fun_target o uses sw in
  fst (fst (run true)) = fst (fst (run false)) /\ visible (snd (fst (run true))) = visible (snd (fst (run false))) /\ snd (run true) = snd (run false).
Proof.
  cbv zeta beta. intros H. generalize (calls_sim true false (or_intror (or_intror H)) sw).
  destruct (LC true sw) as [[? ?] ?], (LC false sw) as [[? ?] ?]. cbn [fst snd]. rewrite <- !visible_flat. intros (E & V & [R|(D & _)]); [now repeat split|discriminate].
Qed.
Lemma calls_program : let logged := LC false sw in let plain := PC sw in fst (fst logged) = fst (fst plain) /\ snd logged = snd plain.
Proof.
  cbv zeta. generalize (calls_silent sw).
  destruct (LC false sw) as [[? ?] ?], (PC sw) as [[? ?] ?]. cbn [fst snd]. intros (E & V & [R|(D & _)]); [now split|discriminate].
Qed.
Lemma calls_log : let run := LC false sw in complete_or_beginning (snd (fst run)) (flat_map (call_log N num dec str_exp o) uses) (snd run).
Proof. cbv zeta. generalize (calls_says sw). now destruct (LC false sw) as [[? ?] ?]. Qed.
End Calls.
Lemma calls_exact : forall num f4 dec W fun_text message_text time_text str_exp nexp nlog cdf pdf npi inv chol cho_solve slogdet
    get_samples lbfgsb direct cma time_ minimize after prior_mu target o uses sw,
  let run debug := l_calls NumR num f4 W fun_text message_text time_text debug str_exp nexp nlog cdf pdf npi inv chol cho_solve slogdet
    get_samples lbfgsb direct cma time_ minimize after prior_mu dec target o uses sw in
  fst (fst (run true)) = fst (fst (run false)) /\ visible (snd (fst (run true))) = visible (snd (fst (run false))) /\ snd (run true) = snd (run false).
Proof.
  exact (fun num f4 dec W fun_text message_text time_text str_exp nexp nlog cdf pdf npi inv chol cho_solve slogdet get_samples lbfgsb direct cma time_ minimize after prior_mu target o uses sw =>
    calls_flag_none NumR num f4 dec W fun_text message_text time_text str_exp nexp nlog cdf pdf npi inv chol cho_solve slogdet get_samples lbfgsb direct cma time_ minimize after prior_mu target o uses sw real_never_none).
Qed.
