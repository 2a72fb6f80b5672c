(** A run of the wrapper returns whenever each call of optimize does; the three classes' optimize returns whenever the surrogate does. *)
From Verif Require Import Base Lists Num NumLaws Monad UtilsModel UtilsSpec UtilsProofs UtilsProps HypsModel WrapperModel BOModel BOProofs BOTotalSpec BOTotalRun.
From Coq Require Import List ZArith Bool String Reals Lra Lia Arith.
Import ListNotations.
Set Implicit Arguments.
Unset Strict Implicit.
Unset Asymmetric Patterns.
Set Bullet Behavior "Strict Subproofs".
Local Open Scope string_scope.
Local Notation N := NumR.

Lemma next_best_total (np : list R) (X P : mat N) (acqs : list R) range :
  proposal_ok range np P -> List.length acqs = nrows P -> mcols X = List.length range -> Forall (in_range range) (mrows X) -> mrows X <> [] ->
  exists p, get_next_best_sample N np X P acqs = Ok (Some p) /\ in_range range p.
Proof.
  intros (H1 & H2 & H3 & H4) LA CX FX NX. unfold get_next_best_sample.
  assert (LN : Nat.eqb (@List.length (car N) np) (mcols X) = true) by (apply Nat.eqb_eq; rewrite CX; exact (range_len H1)). rewrite LN. cbn [negb].
  destruct (existsb _ _); [|eauto].
  assert (CE : mcols P = mcols X) by congruence.
  pose proof (@next_best_none_iff NumR NumR_ord P acqs X (eq_sym LA) CE) as NN.
  destruct (get_next_best_acquisition N P acqs X) as [[p|]|e] eqn:E.
  - exists p. split; [reflexivity|]. destruct (@next_best_is_fresh_or_last NumR NumR_ord P acqs X p E) as [(k & v & I & _)|(_ & pre & I)].
    + rewrite Forall_forall in H3. apply H3. eapply nth_error_In; eauto.
    + rewrite Forall_forall in FX. apply FX. rewrite I. apply in_or_app. right. now left.
  - exfalso. destruct (proj1 NN eq_refl) as ((q & Hq & FQ) & ALL). apply In_nth_error in Hq as [j Hj].
    destruct (nth_error acqs j) as [v|] eqn:Ev; [specialize (ALL j q v Hj Ev FQ); discriminate ALL|].
    apply nth_error_None in Ev. assert (j < List.length (mrows P))%nat by (apply nth_error_Some; congruence). unfold nrows in LA. lia.
  - exfalso. clear NN. unfold get_next_best_acquisition in E.
    assert (L2 : Nat.eqb (nrows P) (@List.length (car N) acqs) = true) by (apply Nat.eqb_eq; symmetry; exact LA). rewrite L2 in E.
    rewrite CE, Nat.eqb_refl in E. cbn [assert_ rbind] in E. destruct (drop_dups _ _ _); [|discriminate].
    destruct (rev (mrows X)) eqn:ER; [|discriminate]. apply NX. now rewrite <- (rev_involutive (mrows X)), ER.
Qed.

Section Class.
Context (St W : Type) (range : list (R * R)).
Notation d := (List.length range).
Context (target : list N -> W -> W * res N) (time_ : W -> W * N).
Hypothesis HT : returns_in range target.
Context (single : mat N -> list N -> St * W -> (St * W) * res (list N * info N)) (I : St -> Prop).
(** one call of optimize_single_iteration returns a proposal inside the search space *)
Definition single_returns : Prop := forall X Y s w, data d X Y -> I s ->
  exists s' w' np di, single X Y (s, w) = ((s', w'), Ok (np, di)) /\ I s' /\ proposal_ok range np (in_points di) /\
    List.length (in_acqs di) = nrows (in_points di).
Hypothesis HS : single_returns.
Notation tg := (fun x => onsnd W (target x)).
Notation tm := (onsnd W time_).

Definition inv (sw : St * W) : Prop := I (fst sw).
Definition seen (X : mat N) (Y : list N) : Prop := data d X Y /\ Forall (in_range range) (mrows X).
Lemma runs_clock sw (Q : N -> St * W -> Prop) : (forall t w, Q t (fst sw, w)) -> runs (clock N (St * W) tm) sw Q.
Proof.
  intros H. destruct sw as [s w]. unfold runs, clock, ext, onsnd. cbn [fst snd]. destruct (time_ w) as [w' t] eqn:E. exists (s, w'), [], t. auto.
Qed.
Lemma runs_target x sw (Q : N -> St * W -> Prop) : in_range range x -> (forall y w, Q y (fst sw, w)) -> runs (call_target N (St * W) tg x) sw Q.
Proof.
  intros HX H. destruct sw as [s w]. destruct (@HT x w HX) as (w' & y & E). unfold runs, call_target, ext_ev, onsnd. cbn [fst snd]. rewrite E. eauto 6.
Qed.
Lemma step_total X Y sw : seen X Y -> inv sw ->
  runs (class_step N (St * W) tg tm single X Y) sw (fun q sw' => let '(X', Y', _, _, _) := q in seen X' Y' /\ nrows X' = S (nrows X) /\ inv sw').
Proof.
  intros (D & FX) HI. unfold class_step.
  eapply runs_bind with (P := fun _ => inv); [apply runs_clock; auto|]. intros ? [s w] HI1.
  unfold inv in HI1; cbn [fst] in HI1. destruct (HS w D HI1) as (s' & w' & np & di & E & HI2 & PO & LA).
  eapply runs_bind with (P := fun p sw => p = (np, di) /\ inv sw); [unfold runs, ext_ev; rewrite E; exists (s', w'); eauto|].
  intros p sw2 (-> & HI3). pose proof D as (RX & CX & LX & NY).
  destruct (@next_best_total np X (in_points di) (in_acqs di) range PO LA CX FX) as (p & EP & HP).
  { intros ER. unfold nrows in LX. rewrite ER in LX. destruct Y; [congruence|discriminate]. }
  eapply runs_bind with (P := fun r sw => r = Some p /\ inv sw); [eapply runs_lift; [exact EP|auto]|]. intros r sw3 (-> & HI4).
  eapply runs_bind with (P := fun r sw => r = (mkmat (mrows X ++ [p]) (mcols X), p) /\ inv sw).
  { eapply runs_lift; [|split; [reflexivity|exact HI4]]. unfold vstack_row.
    assert (L2 : Nat.eqb (@List.length (car N) p) (mcols X) = true) by (apply Nat.eqb_eq; rewrite CX; exact (range_len HP)). rewrite L2. reflexivity. }
  intros r sw4 (-> & HI5).
  eapply runs_bind with (P := fun _ => inv); [apply runs_clock; intros; exact HI5|]. intros ? sw5 HI6.
  eapply runs_bind with (P := fun _ => inv); [apply runs_target; [exact HP|intros; exact HI6]|]. intros y sw6 HI7.
  eapply runs_bind with (P := fun _ => inv); [apply runs_clock; intros; exact HI7|]. intros ? sw7 HI8.
  eapply runs_bind with (P := fun _ => inv); [apply runs_clock; intros; exact HI8|]. intros ? sw8 HI9.
  apply runs_ret. split; [|split; [unfold nrows; cbn [mrows]; rewrite app_length; cbn; lia|exact HI9]]. unfold seen, data, nrows. cbn [mrows mcols]. rewrite !app_length. cbn [List.length].
  split; [|apply Forall_app; split; [exact FX|repeat constructor; exact HP]].
  split; [intros x Hx; apply in_app_or in Hx as [Hx|[<-|[]]]; [now apply RX|exact (range_len HP)]|].
  split; [exact CX|]. split; [unfold nrows in LX; now rewrite LX|]. destruct Y; discriminate.
Qed.
Lemma loop_total n : forall X Y ta ts tq sw, seen X Y -> inv sw -> runs (class_loop N (St * W) tg tm single n X Y ta ts tq) sw (fun r sw' => seen (ro_X r) (ro_Y r) /\ nrows (ro_X r) = (nrows X + n)%nat /\ inv sw').
Proof.
  induction n as [|n IH]; intros X Y ta ts tq sw HX HI; cbn [class_loop]; [apply runs_ret; cbn; auto|].
  eapply runs_bind; [apply (step_total HX HI)|]. intros [[[[X' Y'] a] b] c] sw' (HX' & LX' & HI'). eapply runs_weaken; [now apply IH|]. intros r sw2 (A & B & C). split; [exact A|]. split; [lia|exact C].
Qed.
Lemma all_initial_total num_iter X Y sw : seen X Y -> inv sw ->
  runs (class_all_initial N (St * W) tg tm single num_iter X Y) sw (fun r sw' => seen (ro_X r) (ro_Y r) /\ nrows (ro_X r) = (nrows X + Z.to_nat num_iter)%nat /\ inv sw').
Proof.
  intros HX HI. unfold class_all_initial. apply runs_assert; [apply Nat.eqb_eq; apply HX|].
  eapply runs_bind with (P := fun _ => inv); [apply runs_clock; intros; exact HI|]. intros ? sw1 HI1.
  eapply runs_bind; [apply (loop_total _ _ _ _ HX HI1)|]. intros r sw2 (HX2 & LX2 & HI2).
  eapply runs_bind with (P := fun _ => inv); [apply runs_clock; intros; exact HI2|]. intros ? sw3 HI3. apply runs_ret; auto.
Qed.
Lemma initial_inputs_total num_iter X sw : mrows X <> [] -> mcols X = d -> Forall (in_range range) (mrows X) -> inv sw ->
  runs (class_initial_inputs N (St * W) tg tm single num_iter X) sw (fun r sw' => seen (ro_X r) (ro_Y r) /\ nrows (ro_X r) = (nrows X + Z.to_nat num_iter)%nat /\ inv sw').
Proof.
  intros NX CX FX HI. unfold class_initial_inputs.
  assert (Q : forall l sw, Forall (in_range range) l -> inv sw -> runs (mmapM (class_initial N (St * W) tg tm) l) sw (fun ys sw' => List.length ys = List.length l /\ inv sw')).
  { clear - HT. intros l sw F. revert sw. induction F as [|x l Hx F IH]; intros sw HI; cbn [mmapM]; [now apply runs_ret|].
    eapply runs_bind with (P := fun _ => inv).
    - unfold class_initial. eapply runs_bind with (P := fun _ => inv); [apply runs_clock; intros; exact HI|]. intros ? sw1 HI1.
      eapply runs_bind with (P := fun _ => inv); [apply runs_target; [exact Hx|intros; exact HI1]|]. intros y sw2 HI2.
      eapply runs_bind with (P := fun _ => inv); [apply runs_clock; intros; exact HI2|]. intros t sw3 HI3. now apply runs_ret.
    - intros y sw1 HI1. eapply runs_bind; [apply (IH _ HI1)|]. intros ys sw2 (L & HI2). apply runs_ret. cbn. split; [now f_equal|exact HI2]. }
  eapply runs_bind; [apply (Q _ _ FX HI)|]. intros ys sw1 (LY & HI1). eapply runs_bind.
  - apply all_initial_total; [|exact HI1]. split; [|exact FX]. split; [intros x Hx; rewrite Forall_forall in FX; exact (range_len (FX x Hx))|].
    split; [exact CX|]. rewrite map_length. split; [symmetry; exact LY|]. intros E. apply NX. apply map_eq_nil in E. subst ys. now destruct (mrows X).
  - intros r sw2 H. apply runs_ret. exact H.
Qed.

Context (get_samples : string -> Z -> option Z -> W -> W * res (list (list N))).
Hypothesis HG : proper_samples range get_samples.
Lemma optimize_total meth num_iter num_init seed sw : In meth ["grid"; "sobol"; "halton"; "uniform"; "gaussian"] -> (0 < num_init)%Z -> inv sw ->
  runs (class_optimize N (St * W) tg tm single (fun m n s => onsnd W (get_initials N W get_samples m n s)) meth num_iter num_init seed) sw
    (fun r sw' => seen (ro_X r) (ro_Y r) /\ (meth <> "grid" -> nrows (ro_X r) = Z.to_nat num_init + Z.to_nat num_iter)%nat /\ inv sw').
Proof.
  intros HM HN HI. unfold class_optimize. apply runs_assert; [now apply Z.ltb_lt|].
  eapply runs_bind with (P := fun _ => inv); [apply runs_clock; intros; exact HI|]. intros ? [s w] HI1.
  destruct (@HG meth num_init seed w HM HN) as (w' & l & E & NE & FL & LL).
  eapply runs_bind with (P := fun X sw => X = mkmat l d /\ inv sw).
  { unfold runs, ext, onsnd, get_initials. cbn [fst snd]. rewrite E. cbn [rbind]. exists (s, w'), [], (mkmat l d). split; [|split; [reflexivity|exact HI1]].
    rewrite (np_array_ok NE (d := d)); [reflexivity|]. eapply Forall_impl; [|exact FL]. intros p; apply range_len. }
  intros X sw1 (-> & HI2). eapply runs_bind; [apply initial_inputs_total; [exact NE|reflexivity|exact FL|exact HI2]|]. intros r sw2 (HX & LX & HI3). unfold nrows at 2 in LX; cbn [mrows] in LX.
  eapply runs_bind with (P := fun _ => inv); [apply runs_clock; intros; exact HI3|]. intros ? sw3 HI4. apply runs_ret. split; [exact HX|]. split; [|exact HI4]. intros NG. rewrite LX. f_equal. exact (LL NG).
Qed.
End Class.
