(** A run of the wrapper with the random forest returns, over any numbers with an order (used for binary64): the loop of the
    wrapper, and optimize of BOwTrees, given that the forest is grown and its acquisition values are below infinity. *)
From Verif Require Import Base Lists Num NumLaws Monad UtilsModel UtilsSpec UtilsProofs UtilsProps HypsModel WrapperModel BOModel BOProofs BOTotalRun BOTotalOpt FloatSpec.
From Coq Require Import List ZArith Bool String Reals Lia Arith.
Import ListNotations.
Set Implicit Arguments.
Unset Strict Implicit.
Unset Asymmetric Patterns.
Set Bullet Behavior "Strict Subproofs".
Local Open Scope string_scope.

Section Spec.
Context (N : Num).
Definition dataN (r : list (N * N)) (oky : N -> Prop) (cap : nat -> Prop) (X : mat N) (Y : list N) : Prop :=
  mcols X = List.length r /\ nrows X = List.length Y /\ Y <> [] /\ Forall oky Y /\ cap (List.length Y) /\ Forall (in_rangeN r) (mrows X).
End Spec.
Arguments dataN {N}.

Section Gen.
Context (N : Num) (O : NumOrd N).

Lemma rangeN_len (r : list (N * N)) x : in_rangeN r x -> List.length x = List.length r.
Proof. intros F. symmetry. exact (Forall2_len F). Qed.
Lemma boundsN_ok (r : list (N * N)) (l : list (list N)) : Forall (in_rangeN r) l -> check_points_in_bounds N (mkmat l (List.length r)) r = Ok (mkmat l (List.length r)).
Proof.
  intros F. unfold check_points_in_bounds. cbn [mcols mrows]. rewrite Nat.eqb_refl. cbn [assert_ rbind].
  assert (Q : forall p, In p l -> forall b v, In (b, v) (combine r p) -> nle N (fst b) v = true /\ nle N v (snd b) = true).
  { rewrite Forall_forall in F. intros p Hp. specialize (F p Hp). clear Hp. induction F as [|b v r p H F IH]; cbn; [tauto|]. intros b' v' [E|I]; [injection E as <- <-; exact H|now apply IH]. }
  rewrite (proj2 (forallb_forall _ _)); [cbn [assert_ rbind]; rewrite (proj2 (forallb_forall _ _)); [reflexivity|]|];
    intros p Hp; apply forallb_forall; intros [b v] I; apply (Q p Hp b v I).
Qed.
Definition proposalN (range : list (N * N)) (np : list N) (P : mat N) : Prop :=
  in_rangeN range np /\ mrows P <> [] /\ Forall (in_rangeN range) (mrows P) /\ mcols P = List.length range.

Lemma next_best_total (np : list N) (X P : mat N) (acqs : list N) (range : list (N * N)) :
  proposalN range np P -> List.length acqs = nrows P -> Forall (fun v => nltinf N v = true) acqs -> mcols X = List.length range -> Forall (in_rangeN range) (mrows X) -> mrows X <> [] ->
  exists p, get_next_best_sample N np X P acqs = Ok (Some p) /\ in_rangeN range p.
Proof.
  intros (H1 & H2 & H3 & H4) LA FI CX FX NX. unfold get_next_best_sample.
  assert (LN : Nat.eqb (List.length np) (mcols X) = true) by (apply Nat.eqb_eq; rewrite CX; exact (rangeN_len H1)). rewrite LN. cbn [negb].
  destruct (existsb _ _); [|eauto].
  assert (CE : mcols P = mcols X) by congruence.
  pose proof (@next_best_none_iff N O P acqs X (eq_sym LA) CE) as NN.
  destruct (get_next_best_acquisition N P acqs X) as [[p|]|e] eqn:E.
  - exists p. split; [reflexivity|]. destruct (@next_best_is_fresh_or_last N O P acqs X p E) as [(k & v & I & _)|(_ & pre & I)].
    + rewrite Forall_forall in H3. apply H3. eapply nth_error_In; eauto.
    + rewrite Forall_forall in FX. apply FX. rewrite I. apply in_or_app. right. now left.
  - exfalso. destruct (proj1 NN eq_refl) as ((q & Hq & FQ) & ALL). apply In_nth_error in Hq as [j Hj].
    destruct (nth_error acqs j) as [v|] eqn:Ev; [specialize (ALL j q v Hj Ev FQ); rewrite Forall_forall in FI; rewrite (FI v (nth_error_In _ _ Ev)) in ALL; discriminate ALL|].
    apply nth_error_None in Ev. assert (j < List.length (mrows P))%nat by (apply nth_error_Some; congruence). unfold nrows in LA. lia.
  - exfalso. clear NN. unfold get_next_best_acquisition in E.
    assert (L2 : Nat.eqb (nrows P) (List.length acqs) = true) by (apply Nat.eqb_eq; symmetry; exact LA). rewrite L2 in E.
    rewrite CE, Nat.eqb_refl in E. cbn [assert_ rbind] in E. destruct (drop_dups _ _ _); [|discriminate].
    destruct (rev (mrows X)) eqn:ER; [|discriminate]. apply NX. now rewrite <- (rev_involutive (mrows X)), ER.
Qed.

Section Class.
Context (St W : Type) (range : list (N * N)) (oky : N -> Prop) (cap : nat -> Prop) (capd : forall n m, (n <= m)%nat -> cap m -> cap n).
Notation d := (List.length range).
Context (target : list N -> W -> W * res N) (time_ : W -> W * N).
Hypothesis HT : returns_inN range oky target.
Context (single : mat N -> list N -> St * W -> (St * W) * res (list N * info N)) (I : St -> Prop).
(** one call of optimize_single_iteration returns a proposal inside the search space *)
Definition single_returns : Prop := forall X Y s w, dataN range oky cap X Y -> I s ->
  exists s' w' np di, single X Y (s, w) = ((s', w'), Ok (np, di)) /\ I s' /\ proposalN range np (in_points di) /\
    List.length (in_acqs di) = nrows (in_points di) /\ Forall (fun v => nltinf N v = true) (in_acqs di).
Hypothesis HS : single_returns.
Notation tg := (fun x => onsnd W (target x)).
Notation tm := (onsnd W time_).

Definition inv (sw : St * W) : Prop := I (fst sw).
Notation seen := (dataN range oky cap).
Lemma runs_clock sw (Q : N -> St * W -> Prop) : (forall t w, Q t (fst sw, w)) -> runs (clock N (St * W) tm) sw Q.
Proof.
  intros H. destruct sw as [s w]. unfold runs, clock, ext, onsnd. cbn [fst snd]. destruct (time_ w) as [w' t] eqn:E. exists (s, w'), [], t. auto.
Qed.
Lemma runs_target x sw (Q : N -> St * W -> Prop) : in_rangeN range x -> (forall y w, oky y -> Q y (fst sw, w)) -> runs (call_target N (St * W) tg x) sw Q.
Proof.
  intros HX H. destruct sw as [s w]. destruct (@HT x w HX) as (w' & y & E & OY). unfold runs, call_target, ext_ev, onsnd. cbn [fst snd]. rewrite E. eauto 6.
Qed.
Lemma step_total X Y sw : seen X Y -> cap (S (nrows X)) -> inv sw ->
  runs (class_step N (St * W) tg tm single X Y) sw (fun q sw' => let '(X', Y', _, _, _) := q in seen X' Y' /\ nrows X' = S (nrows X) /\ inv sw').
Proof.
  intros D HC HI. unfold class_step.
  eapply runs_bind with (P := fun _ => inv); [apply runs_clock; auto|]. intros ? [s w] HI1.
  unfold inv in HI1; cbn [fst] in HI1. destruct (HS w D HI1) as (s' & w' & np & di & E & HI2 & PO & LA & LI).
  eapply runs_bind with (P := fun p sw => p = (np, di) /\ inv sw); [unfold runs, ext_ev; rewrite E; exists (s', w'); eauto|].
  intros p sw2 (-> & HI3). pose proof D as (CX & LX & NY & OY & _ & FX).
  destruct (@next_best_total np X (in_points di) (in_acqs di) range PO LA LI CX FX) as (p & EP & HP).
  { intros ER. unfold nrows in LX. rewrite ER in LX. destruct Y; [congruence|discriminate]. }
  eapply runs_bind with (P := fun r sw => r = Some p /\ inv sw); [eapply runs_lift; [exact EP|auto]|]. intros r sw3 (-> & HI4).
  eapply runs_bind with (P := fun r sw => r = (mkmat (mrows X ++ [p]) (mcols X), p) /\ inv sw).
  { eapply runs_lift; [|split; [reflexivity|exact HI4]]. unfold vstack_row.
    assert (L2 : Nat.eqb (List.length p) (mcols X) = true) by (apply Nat.eqb_eq; rewrite CX; exact (rangeN_len HP)). rewrite L2. reflexivity. }
  intros r sw4 (-> & HI5).
  eapply runs_bind with (P := fun _ => inv); [apply runs_clock; intros; exact HI5|]. intros ? sw5 HI6.
  eapply runs_bind with (P := fun y sw => oky y /\ inv sw); [apply runs_target; [exact HP|intros; split; [assumption|exact HI6]]|]. intros y sw6 (OYy & HI7).
  eapply runs_bind with (P := fun _ => inv); [apply runs_clock; intros; exact HI7|]. intros ? sw7 HI8.
  eapply runs_bind with (P := fun _ => inv); [apply runs_clock; intros; exact HI8|]. intros ? sw8 HI9.
  apply runs_ret. split; [|split; [unfold nrows; cbn [mrows]; rewrite app_length; cbn; lia|exact HI9]]. unfold dataN, nrows. cbn [mrows mcols]. rewrite !app_length. cbn [List.length].
  unfold nrows in LX, HC. split; [exact CX|]. split; [now rewrite LX|]. split; [destruct Y; discriminate|]. split; [apply Forall_app; split; [exact OY|repeat constructor; exact OYy]|].
  split; [rewrite <- LX, Nat.add_1_r; exact HC|apply Forall_app; split; [exact FX|repeat constructor; exact HP]].
Qed.
Lemma loop_total n : forall X Y ta ts tq sw, seen X Y -> cap (nrows X + n)%nat -> inv sw -> runs (class_loop N (St * W) tg tm single n X Y ta ts tq) sw (fun r sw' => seen (ro_X r) (ro_Y r) /\ nrows (ro_X r) = (nrows X + n)%nat /\ inv sw').
Proof.
  induction n as [|n IH]; intros X Y ta ts tq sw HX HC HI; cbn [class_loop]; [apply runs_ret; cbn; auto|].
  eapply runs_bind; [apply (step_total HX); [eapply capd; [|exact HC]; lia|exact HI]|]. intros [[[[X' Y'] a] b] c] sw' (HX' & LX' & HI'). eapply runs_weaken; [apply IH; [exact HX'|rewrite LX'; eapply capd; [|exact HC]; lia|exact HI']|]. intros r sw2 (A & B & C). split; [exact A|]. split; [lia|exact C].
Qed.
Lemma all_initial_total num_iter X Y sw : seen X Y -> cap (nrows X + Z.to_nat num_iter)%nat -> inv sw ->
  runs (class_all_initial N (St * W) tg tm single num_iter X Y) sw (fun r sw' => seen (ro_X r) (ro_Y r) /\ nrows (ro_X r) = (nrows X + Z.to_nat num_iter)%nat /\ inv sw').
Proof.
  intros HX HC HI. unfold class_all_initial. apply runs_assert; [apply Nat.eqb_eq; apply HX|].
  eapply runs_bind with (P := fun _ => inv); [apply runs_clock; intros; exact HI|]. intros ? sw1 HI1.
  eapply runs_bind; [apply (loop_total _ _ _ HX HC HI1)|]. intros r sw2 (HX2 & LX2 & HI2).
  eapply runs_bind with (P := fun _ => inv); [apply runs_clock; intros; exact HI2|]. intros ? sw3 HI3. apply runs_ret; auto.
Qed.
Lemma initial_inputs_total num_iter X sw : mrows X <> [] -> mcols X = d -> Forall (in_rangeN range) (mrows X) -> cap (nrows X + Z.to_nat num_iter)%nat -> inv sw ->
  runs (class_initial_inputs N (St * W) tg tm single num_iter X) sw (fun r sw' => seen (ro_X r) (ro_Y r) /\ nrows (ro_X r) = (nrows X + Z.to_nat num_iter)%nat /\ inv sw').
Proof.
  intros NX CX FX HC HI. unfold class_initial_inputs.
  assert (Q : forall l sw, Forall (in_rangeN range) l -> inv sw -> runs (mmapM (class_initial N (St * W) tg tm) l) sw (fun ys sw' => List.length ys = List.length l /\ Forall oky (map fst ys) /\ inv sw')).
  { clear - HT. intros l sw F. revert sw. induction F as [|x l Hx F IH]; intros sw HI; cbn [mmapM]; [apply runs_ret; split; [reflexivity|split; [constructor|exact HI]]|].
    eapply runs_bind with (P := fun y sw => oky (fst y) /\ inv sw).
    - unfold class_initial. eapply runs_bind with (P := fun _ => inv); [apply runs_clock; intros; exact HI|]. intros ? sw1 HI1.
      eapply runs_bind with (P := fun y sw => oky y /\ inv sw); [apply runs_target; [exact Hx|intros; split; [assumption|exact HI1]]|]. intros y sw2 (OY & HI2).
      eapply runs_bind with (P := fun _ => inv); [apply runs_clock; intros; exact HI2|]. intros t sw3 HI3. now apply runs_ret.
    - intros y sw1 (OY & HI1). eapply runs_bind; [apply (IH _ HI1)|]. intros ys sw2 (L & FY & HI2). apply runs_ret. cbn. split; [now f_equal|]. split; [now constructor|exact HI2]. }
  eapply runs_bind; [apply (Q _ _ FX HI)|]. intros ys sw1 (LY & FY & HI1). eapply runs_bind.
  - apply all_initial_total; [|exact HC|exact HI1]. unfold dataN. rewrite map_length. split; [exact CX|]. split; [symmetry; exact LY|].
    split; [intros E; apply NX; apply map_eq_nil in E; subst ys; now destruct (mrows X)|]. split; [exact FY|]. split; [rewrite LY; eapply capd; [|exact HC]; unfold nrows; lia|exact FX].
  - intros r sw2 H. apply runs_ret. exact H.
Qed.

Context (get_samples : string -> Z -> option Z -> W -> W * res (list (list N))).
Hypothesis HG : proper_samplesN range get_samples.
Lemma optimize_total meth num_iter num_init seed sw : In meth ["grid"; "sobol"; "halton"; "uniform"; "gaussian"] -> meth <> "grid" -> (0 < num_init)%Z -> cap (Z.to_nat num_init + Z.to_nat num_iter)%nat -> inv sw ->
  runs (class_optimize N (St * W) tg tm single (fun m n s => onsnd W (get_initials N W get_samples m n s)) meth num_iter num_init seed) sw
    (fun r sw' => seen (ro_X r) (ro_Y r) /\ (nrows (ro_X r) = Z.to_nat num_init + Z.to_nat num_iter)%nat /\ inv sw').
Proof.
  intros HM NG HN HC HI. unfold class_optimize. apply runs_assert; [now apply Z.ltb_lt|].
  eapply runs_bind with (P := fun _ => inv); [apply runs_clock; intros; exact HI|]. intros ? [s w] HI1.
  destruct (@HG meth num_init seed w HM HN) as (w' & l & E & NE & FL & LL).
  eapply runs_bind with (P := fun X sw => X = mkmat l d /\ inv sw).
  { unfold runs, ext, onsnd, get_initials. cbn [fst snd]. rewrite E. cbn [rbind]. exists (s, w'), [], (mkmat l d). split; [|split; [reflexivity|exact HI1]].
    rewrite (np_array_ok NE (d := d)); [reflexivity|]. eapply Forall_impl; [|exact FL]. intros p; apply rangeN_len. }
  intros X sw1 (-> & HI2). eapply runs_bind; [apply initial_inputs_total; [exact NE|reflexivity|exact FL|unfold nrows; cbn [mrows]; rewrite (LL NG); exact HC|exact HI2]|]. intros r sw2 (HX & LX & HI3). unfold nrows at 2 in LX; cbn [mrows] in LX.
  eapply runs_bind with (P := fun _ => inv); [apply runs_clock; intros; exact HI3|]. intros ? sw3 HI4. apply runs_ret. split; [exact HX|]. split; [|exact HI4]. rewrite LX. f_equal. exact (LL NG).
Qed.
End Class.

Lemma runsN_tick W St time_ (s : St) (w : W) (Q : N -> St * W -> Prop) : (forall t w', Q t (s, w')) -> runs (tick N W time_ St) (s, w) Q.
Proof.
  intros H. unfold tick, onW, ext. cbn [fst snd]. unfold runs. destruct (time_ w) as [w' t] eqn:E. exists (s, w'), [], t. cbn [fst snd]. rewrite E. auto.
Qed.
Lemma runsN_onW W St {A} (f : W -> W * res A) (s : St) w w' a (Q : A -> St * W -> Prop) : f w = (w', Ok a) -> Q a (s, w') -> runs (onW N W St f) (s, w) Q.
Proof. intros E H. unfold runs, onW, ext. cbn [fst snd]. rewrite E. eauto 6. Qed.
Lemma runsN_note W St e (sw : St * W) (Q : unit -> St * W -> Prop) : Q tt sw -> runs (note N W St e) sw Q.
Proof. intros H. unfold runs, note. cbn. eauto 6. Qed.
Lemma untracedN {W St A B} (f : A -> B) (m : M (St * W) (fitev N) (list N * A)) sw (Q : list N * A -> St * W -> Prop) :
  runs m sw Q -> exists s' w' p a, untraced N W f m sw = ((s', w'), Ok (p, f a)) /\ Q (p, a) (s', w').
Proof. intros ([s' w'] & t & [p a] & E & H). exists s', w', p, a. unfold untraced. rewrite E. auto. Qed.

Section RF.
Context (W : Type) (get_samples : string -> Z -> option Z -> W -> W * res (list (list N))) (time_ : W -> W * N).
Context (T : Type) (get_trees : mat N -> list N -> W -> W * res T) (acq : string -> mat N -> list N -> T -> list (list N) -> res (list N)).
Context (o : rf_obj N) (usable : T -> Prop) (oky : N -> Prop) (cap : nat -> Prop).
Notation d := (List.length (ro_range N o)).
Hypothesis HG : proper_samplesN (ro_range N o) get_samples.
Hypothesis HF : forall X Y w, dataN (ro_range N o) oky cap X Y -> exists w' t, get_trees X Y w = (w', Ok t) /\ usable t.
Hypothesis HA : forall X Y t pts, dataN (ro_range N o) oky cap X Y -> usable t -> pts <> [] ->
  Forall (fun p => List.length p = d) pts -> exists l, acq (ro_acq N o) X Y t pts = Ok l /\ List.length l = List.length pts /\ Forall (fun v => nltinf N v = true) (BOModel.neg N (scaled N l)).
Hypothesis HN : forall Y, Y <> [] -> Forall oky Y -> exists Yn, normalize_min_max N Y = Ok Yn /\ List.length Yn = List.length Y /\ Forall oky Yn.
Theorem rf_optimize_runsN X Y samp num seed sw : dataN (ro_range N o) oky cap X Y -> In samp ["grid"; "sobol"; "halton"; "uniform"; "gaussian"] -> (0 < num)%Z ->
  runs (rf_optimize N W get_samples time_ T get_trees acq o X Y samp num seed) sw
    (fun r _ => proposalN (ro_range N o) (fst r) (ri_points N T (snd r)) /\ List.length (ri_acqs N T (snd r)) = nrows (ri_points N T (snd r)) /\ Forall (fun v => nltinf N v = true) (ri_acqs N T (snd r))).
Proof.
  intros D HSM HNUM. pose proof D as (CX & LX & NY & OY & CY & FX). unfold rf_optimize. destruct sw as [[] w].
  apply runs_assert; [now apply Nat.eqb_eq|]. apply runs_assert; [now apply Nat.eqb_eq|]. apply runs_assert; [now apply Z.ltb_lt|].
  apply runs_assert; [now apply samplings|].
  eapply runs_bind with (P := fun _ sw => True); [now apply runsN_tick|]. intros ? [? w1] _.
  assert (exists Yn, (if ro_norm N o then normalize_min_max N Y else Ok Y) = Ok Yn /\ List.length Yn = List.length Y /\ Forall oky Yn) as (Yn & EN & LN & OYn) by (destruct (ro_norm N o); [now apply HN|eauto]).
  eapply runs_bind with (P := fun a sw => a = Yn); [eapply runs_lift; [exact EN|auto]|]. intros ? [? w2] ->.
  eapply runs_bind with (P := fun _ sw => True); [now apply runsN_tick|]. intros ? sw3 _.
  assert (DN : dataN (ro_range N o) oky cap X Yn).
  { split; [exact CX|]. rewrite LN. split; [exact LX|]. split; [intros ->; destruct Y; [congruence|discriminate LN]|]. auto. }
  eapply runs_bind with (P := fun _ sw => True); [now apply runsN_note|]. intros ? [s3 w3] _.
  destruct (HF w3 DN) as (w4 & t & E & US).
  eapply runs_bind with (P := fun a sw => a = t); [eapply runsN_onW; [exact E|auto]|]. intros ? [? w5] ->.
  eapply runs_bind with (P := fun _ sw => True); [now apply runsN_tick|]. intros ? [? w6] _.
  eapply runs_bind with (P := fun _ sw => True); [now apply runsN_tick|]. intros ? [? w7] _.
  destruct (@HG samp num seed w7 HSM HNUM) as (w8 & l & EG & NE & FL & _).
  eapply runs_bind with (P := fun a sw => a = l); [eapply runsN_onW; [exact EG|auto]|]. intros ? sw8 ->.
  assert (FD : Forall (fun p => List.length p = d) l) by (eapply Forall_impl; [|exact FL]; intros p; apply rangeN_len).
  eapply runs_bind with (P := fun a sw => a = mkmat l d); [eapply runs_lift; [exact (np_array_ok NE FD)|auto]|]. intros ? sw9 ->.
  eapply runs_bind with (P := fun a sw => a = mkmat l d); [eapply runs_lift; [exact (boundsN_ok FL)|auto]|]. intros ? sw10 ->. cbn [mrows].
  destruct (HA DN US NE FD) as (av & EA & LA & LI). 
  eapply runs_bind with (P := fun z sw => z = BOModel.neg N (scaled N av)); [eapply runs_lift; [rewrite EA; reflexivity|auto]|]. intros ? sw11 ->.
  assert (LNS : List.length (BOModel.neg N (scaled N av)) = List.length l) by (unfold BOModel.neg, scaled; rewrite !map_length; exact LA). set (acqs := BOModel.neg N (scaled N av)) in *.
  destruct (npargmin N acqs) as [ind|e] eqn:EI.
  2:{ exfalso. unfold npargmin in EI. destruct acqs; [destruct l; [congruence|discriminate]|discriminate]. }
  eapply runs_bind with (P := fun z sw => z = ind); [eapply runs_lift; [reflexivity|auto]|]. intros ? sw12 ->.
  apply (npargmin_spec O) in EI as (b & EB & _).
  assert (exists p, nth_error l ind = Some p) as [p EP].
  { destruct (nth_error l ind) eqn:Q; [eauto|]. exfalso. apply nth_error_None in Q. assert (ind < List.length acqs)%nat by (apply nth_error_Some; congruence). lia. }
  eapply runs_bind with (P := fun z sw => z = p); [eapply runs_lift; [rewrite EP; reflexivity|auto]|]. intros ? [? w13] ->.
  eapply runs_bind with (P := fun _ sw => True); [now apply runsN_tick|]. intros ? [? w14] _.
  eapply runs_bind with (P := fun _ sw => True); [now apply runsN_tick|]. intros ? sw15 _.
  apply runs_ret. cbn [fst snd ri_points ri_acqs]. unfold proposalN, nrows. cbn [mrows mcols]. split; [|split; [exact LNS|exact LI]].
  split; [|auto]. rewrite Forall_forall in FL. apply FL. eapply nth_error_In; eauto.
Qed.
End RF.
End Gen.
