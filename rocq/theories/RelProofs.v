(** Two executions of the same program side by side: worlds, times and stored hyperparameters may differ in prescribed ways. *)
From Verif Require Import Base Lists Num Monad UtilsModel HypsModel CovModel GPModel HypOptModel TreesModel WrapperModel BOModel BOAcqModel BOFullModel BOProgram.
From Coq Require Import List ZArith Bool String Lia Arith.
Import ListNotations.
Set Implicit Arguments.
Unset Strict Implicit.
Local Open Scope string_scope.

Definition rres {A B} (RA : A -> B -> Prop) (r : res A) (r' : res B) : Prop :=
  match r, r' with Ok a, Ok b => RA a b | Raise e, Raise e' => e = e' | _, _ => False end.
Lemma rres_refl {A} (r : res A) : rres eq r r. Proof. destruct r; reflexivity. Qed.
Lemma rres_eq {A} (r r' : res A) : rres eq r r' -> r = r'. Proof. destruct r, r'; cbn; intros; subst; tauto || reflexivity. Qed.

Section Rel.
Context {W1 W2 E1 E2 : Type} (RW : W1 -> W2 -> Prop) (RE : E1 -> E2 -> Prop).
Definition rel {A B} (RA : A -> B -> Prop) (m1 : M W1 E1 A) (m2 : M W2 E2 B) : Prop :=
  forall w1 w2, RW w1 w2 ->
  match m1 w1, m2 w2 with (w1', t1, r1), (w2', t2, r2) => RW w1' w2' /\ Forall2 RE t1 t2 /\ rres RA r1 r2 end.
Lemma rel_bind {A B C D} (RA : A -> B -> Prop) (RC : C -> D -> Prop) m1 m2 (k1 : A -> M W1 E1 C) (k2 : B -> M W2 E2 D) :
  rel RA m1 m2 -> (forall a b, RA a b -> rel RC (k1 a) (k2 b)) -> rel RC (bind m1 k1) (bind m2 k2).
Proof.
  intros H K w1 w2 HW. specialize (H w1 w2 HW). unfold bind. destruct (m1 w1) as [[v1 t1] r1], (m2 w2) as [[v2 t2] r2]. destruct H as (HV & HT & HR).
  destruct r1 as [a|e], r2 as [b|e']; cbn in HR; try contradiction; [|subst; now repeat split].
  specialize (K a b HR v1 v2 HV). destruct (k1 a v1) as [[u1 s1] q1], (k2 b v2) as [[u2 s2] q2]. destruct K as (HU & HS & HQ).
  split; [exact HU|]. split; [now apply Forall2_app|exact HQ].
Qed.
Lemma rel_ret {A B} (RA : A -> B -> Prop) a b : RA a b -> rel RA (ret a) (ret b).
Proof. intros H w1 w2 HW. cbn. auto. Qed.
Lemma rel_raise {A B} (RA : A -> B -> Prop) e : rel RA (raise e) (raise e).
Proof. intros w1 w2 HW. cbn. auto. Qed.
Lemma rel_lift {A B} (RA : A -> B -> Prop) r r' : rres RA r r' -> rel RA (lift r) (lift r').
Proof. intros H w1 w2 HW. cbn. auto. Qed.
Lemma rel_lift_eq {A} (r : res A) : rel eq (lift r) (lift r).
Proof. apply rel_lift, rres_refl. Qed.
Lemma rel_weaken {A B} (RA RB : A -> B -> Prop) m1 m2 : rel RA m1 m2 -> (forall a b, RA a b -> RB a b) -> rel RB m1 m2.
Proof.
  intros H K w1 w2 HW. specialize (H w1 w2 HW). destruct (m1 w1) as [[v1 t1] r1], (m2 w2) as [[v2 t2] r2]. destruct H as (HV & HT & HR).
  repeat split; auto. destruct r1, r2; cbn in *; auto.
Qed.
Lemma rel_mmapM {A A' B B'} (RA : A -> A' -> Prop) (RB : B -> B' -> Prop) (f : A -> M W1 E1 B) (g : A' -> M W2 E2 B') l l' :
  Forall2 RA l l' -> (forall a a', RA a a' -> rel RB (f a) (g a')) -> rel (Forall2 RB) (mmapM f l) (mmapM g l').
Proof.
  intros HL H. induction HL as [|a a' l l' HA HL IH]; cbn [mmapM]; [apply rel_ret; constructor|].
  eapply rel_bind; [now apply H|]. intros b b' HB. eapply rel_bind; [exact IH|]. intros bs bs' HBS. apply rel_ret. now constructor.
Qed.
Lemma rel_ext {A B} (RA : A -> B -> Prop) f g : (forall w1 w2, RW w1 w2 -> RW (fst (f w1)) (fst (g w2)) /\ rres RA (snd (f w1)) (snd (g w2))) -> rel RA (ext f) (ext g).
Proof. intros H w1 w2 HW. specialize (H w1 w2 HW). unfold ext. destruct (f w1), (g w2). cbn in *. destruct H. repeat split; auto. Qed.
Lemma rel_ext_ev {A B} (RA : A -> B -> Prop) (ev : res A -> E1) (ev' : res B -> E2) f g :
  (forall w1 w2, RW w1 w2 -> RW (fst (f w1)) (fst (g w2)) /\ rres RA (snd (f w1)) (snd (g w2))) ->
  (forall r r', rres RA r r' -> RE (ev r) (ev' r')) -> rel RA (ext_ev ev f) (ext_ev ev' g).
Proof. intros H K w1 w2 HW. specialize (H w1 w2 HW). unfold ext_ev. destruct (f w1), (g w2). cbn in *. destruct H. split; [assumption|]. split; [|assumption]. constructor; [now apply K|constructor]. Qed.
End Rel.
Lemma Forall2_eq_list {A} (l l' : list A) : Forall2 eq l l' -> l = l'.
Proof. induction 1; congruence. Qed.
Lemma Forall2_refl_list {A} (R : A -> A -> Prop) (l : list A) : (forall x, R x x) -> Forall2 R l l.
Proof. intros H. induction l; constructor; auto. Qed.

(** lift of a same-argument operation *)
Definition alike {W A} (RW : W -> W -> Prop) (f : W -> W * res A) : Prop :=
  forall w1 w2, RW w1 w2 -> RW (fst (f w1)) (fst (f w2)) /\ snd (f w1) = snd (f w2).
Lemma alike_ext {W E A} (RW : W -> W -> Prop) (RE : E -> E -> Prop) (f : W -> W * res A) : alike RW f -> rel RW RE eq (ext f) (ext f).
Proof. intros H. apply rel_ext. intros w1 w2 HW. destruct (H w1 w2 HW) as (H1 & H2). split; [exact H1|]. rewrite H2. apply rres_refl. Qed.
Lemma rel_mmapM_eq {W E A B} (RW : W -> W -> Prop) (RE : E -> E -> Prop) (f : A -> M W E B) l :
  (forall a, rel RW RE eq (f a) (f a)) -> rel RW RE eq (mmapM f l) (mmapM f l).
Proof.
  intros H. eapply rel_weaken; [apply rel_mmapM with (RA := eq)|].
  - now apply Forall2_refl_list.
  - intros a ? <-. apply H.
  - intros a b F. now apply Forall2_eq_list.
Qed.

(** ** Trees *)
Section Trees.
Context (N : Num) (W : Type) (RW : W -> W -> Prop).
Context (choice : nat -> nat -> bool -> W -> W * res (list nat)) (uniform : N -> N -> W -> W * res N) (trunc : N -> option Z).
Hypotheses (HC : forall n k b, alike RW (choice n k b)) (HU : forall a b, alike RW (uniform a b)).
Notation rl := (rel RW (@eq unit) eq).
Ltac st := eapply rel_bind with (RA := eq); [|let a := fresh "a" in let b := fresh "b" in let E := fresh "E" in intros a b E; subst b].

Lemma subsample_rel X Y ratio rp : rl (subsample N W choice trunc X Y ratio rp) (subsample N W choice trunc X Y ratio rp).
Proof.
  unfold subsample. st; [apply rel_lift_eq|]. st; [apply rel_lift_eq|]. destruct (trunc _) as [k|]; [|apply rel_raise]. destruct (k <? 0)%Z; [apply rel_raise|].
  st; [apply alike_ext, HC|]. st; [apply rel_lift_eq|]. st; [apply rel_lift_eq|]. now apply rel_ret.
Qed.
Lemma split_features_rel S rl0 fs : forall cur, rl (split_features N W choice uniform S rl0 fs cur) (split_features N W choice uniform S rl0 fs cur).
Proof.
  induction fs as [|d fs IH]; intros cur; cbn [split_features]; [now apply rel_ret|]. st; [|apply IH]. destruct rl0.
  - unfold split_random. st; [apply rel_lift_eq|]. st; [|now apply rel_ret]. destruct (Nat.ltb _ _); [|apply rel_lift_eq].
    st; [apply rel_lift_eq|]. st; [apply rel_lift_eq|]. apply alike_ext, HU.
  - unfold split_deterministic. st; [apply rel_lift_eq|]. st; [apply alike_ext, HC|]. st; [apply rel_lift_eq|]. now apply rel_ret.
Qed.
Lemma split_node_rel nd S nf rl0 : rl (split_node N W choice uniform nd S nf rl0) (split_node N W choice uniform nd S nf rl0).
Proof. unfold split_node. st; [apply rel_lift_eq|]. st; [apply alike_ext, HC|]. apply split_features_rel. Qed.
Lemma grow_split_rel nd nf rl0 sm rem : forall c, rl (grow_split N W choice uniform nd nf rl0 sm rem c) (grow_split N W choice uniform nd nf rl0 sm rem c).
Proof.
  induction rem as [|rem IH]; intros [[[[i v] sc] [l r]]|]; cbn [grow_split]; try apply rel_raise.
  - destruct l, r; now apply rel_ret.
  - destruct l as [|x l], r as [|y r]; try (now apply rel_ret).
    st; [destruct (_ <=? _)%Z; [now apply rel_ret|]; st; [apply split_node_rel|apply IH]|].
    st; [destruct (_ <=? _)%Z; [now apply rel_ret|]; st; [apply split_node_rel|apply IH]|]. now apply rel_ret.
Qed.
Lemma trees_alike d X Y : alike RW (@rf_trees_full N W choice uniform trunc d X Y).
Proof.
  assert (Q : rl (bo_get_trees N W choice uniform trunc X Y d) (bo_get_trees N W choice uniform trunc X Y d)).
  { unfold bo_get_trees, get_random_forest. st; [apply rel_lift_eq|]. st; [apply rel_lift_eq|]. apply rel_mmapM_eq. intros _.
    unfold grow_tree. st; [apply subsample_rel|]. st; [apply split_node_rel|]. st; [apply grow_split_rel|]. now apply rel_ret. }
  intros w1 w2 HW. specialize (Q w1 w2 HW). unfold rf_trees_full. revert Q.
  destruct (bo_get_trees N W choice uniform trunc X Y d w1) as [[v1 t1] r1], (bo_get_trees N W choice uniform trunc X Y d w2) as [[v2 t2] r2].
  intros (HV & _ & HR). apply rres_eq in HR. subst. cbn. auto.
Qed.
End Trees.

(** ** The optimize methods *)
Section Optimise.
Context (N : Num) (W : Type) (RW : W -> W -> Prop) (RT : N -> N -> Prop).
Hypothesis HRT : forall a b c d, RT a b -> RT c d -> RT (nsub N a c) (nsub N b d).
Context (get_samples : string -> Z -> option Z -> W -> W * res (list (list N))).
Context (lbfgsb : (list N -> res N) -> list N -> list (N * N) -> W -> W * res (list N)).
Context (direct : (list N -> res N) -> list (N * N) -> W -> W * res (list N)).
Context (cma : (list N -> res N) -> list N -> list (N * N) -> W -> W * res (list N)).
Context (time_ : W -> W * N).
Hypotheses (HG : forall m n s, alike RW (get_samples m n s)) (HL : forall f x r, alike RW (lbfgsb f x r)) (HD : forall f r, alike RW (direct f r))
  (HM : forall f x r, alike RW (cma f x r)).
Hypothesis HT : forall w1 w2, RW w1 w2 -> RW (fst (time_ w1)) (fst (time_ w2)) /\ RT (snd (time_ w1)) (snd (time_ w2)).

Section St.
Context (St : Type) (RS : St -> St -> Prop).
Definition RSW (a b : St * W) : Prop := RS (fst a) (fst b) /\ RW (snd a) (snd b).
Notation rl := (rel RSW (@eq (fitev N))).
Lemma onW_rel {A} (f : W -> W * res A) : alike RW f -> rl eq (onW N W St f) (onW N W St f).
Proof.
  intros H. apply rel_ext. intros [s1 w1] [s2 w2] (HS & HW). cbn in *. destruct (H w1 w2 HW) as (H1 & H2).
  destruct (f w1), (f w2). cbn in *. subst. split; [now split|apply rres_refl].
Qed.
Lemma tick_rel : rl RT (tick N W time_ St) (tick N W time_ St).
Proof.
  apply rel_ext. intros [s1 w1] [s2 w2] (HS & HW). cbn in *. destruct (HT HW) as (H1 & H2).
  destruct (time_ w1), (time_ w2). cbn in *. split; [now split|exact H2].
Qed.
Lemma getS_rel : rl RS (getS N W St) (getS N W St).
Proof. intros a b H. cbn. destruct H. repeat split; auto. Qed.
Lemma putS_rel s s' : RS s s' -> rl eq (putS N W St s) (putS N W St s').
Proof. intros H a b (H1 & H2). cbn. repeat split; auto. Qed.
Lemma note_rel e : rl eq (note N W St e) (note N W St e).
Proof. intros a b H. cbn. split; [exact H|]. split; [|reflexivity]. now repeat constructor. Qed.
Lemma optimize_acq_rel ob r f samp num seed : rl eq (optimize_acq N W get_samples lbfgsb direct cma St ob r f samp num seed) (optimize_acq N W get_samples lbfgsb direct cma St ob r f samp num seed).
Proof.
  unfold optimize_acq. eapply rel_bind with (RA := eq).
  { destruct (ob =? "L-BFGS-B"). { eapply rel_bind; [apply onW_rel, HG|intros l ? <-]. apply rel_mmapM_eq. intros x. apply onW_rel, HL. }
    destruct (ob =? "DIRECT"). { eapply rel_bind; [apply onW_rel, HD|intros l ? <-]. now apply rel_ret. }
    destruct (ob =? "CMA-ES"). { eapply rel_bind; [apply onW_rel, HG|intros l ? <-]. destruct l; [apply rel_raise|]. eapply rel_bind; [apply onW_rel, HM|intros x ? <-]. now apply rel_ret. }
    now apply rel_ret. }
  intros pts ? <-. eapply rel_bind; [apply rel_lift_eq|intros P ? <-]. eapply rel_bind; [apply rel_lift_eq|intros p ? <-]. now apply rel_ret.
Qed.
End St.

(** dict_info up to the measured times *)
Definition gi_rel {K} (g h : gp_info N K) : Prop :=
  gi_points N K g = gi_points N K h /\ gi_acqs N K g = gi_acqs N K h /\ RT (gi_tsur N K g) (gi_tsur N K h) /\ RT (gi_tacq N K g) (gi_tacq N K h).
Definition ri_rel {T} (g h : rf_info N T) : Prop :=
  ri_points N T g = ri_points N T h /\ ri_acqs N T g = ri_acqs N T h /\ RT (ri_tsur N T g) (ri_tsur N T h) /\ RT (ri_tacq N T g) (ri_tacq N T h).
Definition pair_rel {A B} (R : A -> B -> Prop) (p : list N * A) (q : list N * B) : Prop := fst p = fst q /\ R (snd p) (snd q).

Ltac sy := eapply rel_bind; [solve [apply rel_lift_eq | now apply note_rel]|let a := fresh "a" in let b := fresh "b" in let E := fresh "E" in intros a b E; subst b].
Ltac tk := eapply rel_bind; [apply tick_rel|intros ? ? ?].

Section GP.
Context (K : Type) (RS : gp_state N -> gp_state N -> Prop) (mlm : string).
(** the mode 'converged' reads what is stored *)
Hypothesis HS1 : mlm = "converged" -> forall s s', RS s s' -> s = s'.
Hypothesis HS2 : mlm = "converged" -> forall s, RS s s.
Hypothesis HS3 : forall s s' h, RS s s' -> RS (mkgps N (gs_hist N s ++ [h]) (gs_opt N s)) (mkgps N (gs_hist N s' ++ [h]) (gs_opt N s')).
Context (fit : mat N -> list N -> string -> string -> string -> bool -> W -> W * res (K * K * dict N)).
Context (kernel_inverse : mat N -> dict N -> string -> res (K * K)) (neg_log_ml : mat N -> list N -> list N -> string -> bool -> res N).
Context (acq : string -> string -> mat N -> list N -> K -> K -> dict N -> list (list N) -> res (list N)).
Hypothesis HF : forall X Y c m s b, alike RW (fit X Y c m s b).
Notation rl := (rel (RSW RS) (@eq (fitev N))).
Lemma gp_fit_rel o meth X Y : rl eq (gp_fit N W K fit o meth X Y) (gp_fit N W K fit o meth X Y).
Proof. unfold gp_fit. eapply rel_bind; [apply note_rel|intros ? ? _]. apply onW_rel, HF. Qed.
Lemma gp_surrogate_rel o X Y : rl eq (gp_surrogate N W K fit kernel_inverse neg_log_ml o mlm X Y) (gp_surrogate N W K fit kernel_inverse neg_log_ml o mlm X Y).
Proof.
  unfold gp_surrogate. destruct (mlm =? "regular"). { eapply rel_bind; [apply gp_fit_rel|intros f ? <-]. now apply rel_ret. }
  destruct (mlm =? "combined").
  { assert (Q : forall m b, rl eq (combined_step N W K fit neg_log_ml o X Y m b) (combined_step N W K fit neg_log_ml o X Y m b)).
    { intros m b. unfold combined_step. eapply rel_bind; [apply gp_fit_rel|intros f ? <-]. sy. sy. now apply rel_ret. }
    eapply rel_bind; [apply Q|intros b1 ? <-]. eapply rel_bind; [apply Q|intros b2 ? <-]. now apply rel_ret. }
  destruct (mlm =? "converged") eqn:EM; [|apply rel_raise]. apply String.eqb_eq in EM.
  eapply rel_bind; [apply getS_rel|intros s s2 HS]. apply (HS1 EM) in HS. subst s2. destruct (gs_opt N s).
  - eapply rel_bind; [apply gp_fit_rel|intros f ? <-]. eapply rel_bind; [apply getS_rel|intros s' s2 HS]. apply (HS1 EM) in HS. subst s2.
    sy. eapply rel_bind; [apply putS_rel, (HS2 EM)|intros ? ? _]. now apply rel_ret.
  - destruct (rev (gs_hist N s)) as [|[h|] l]; try apply rel_raise. sy. now apply rel_ret.
Qed.
Lemma gp_optimize_rel o X Y samp num seed :
  rl (pair_rel gi_rel) (gp_optimize N W K get_samples lbfgsb direct cma time_ fit kernel_inverse neg_log_ml acq o X Y samp num mlm seed)
    (gp_optimize N W K get_samples lbfgsb direct cma time_ fit kernel_inverse neg_log_ml acq o X Y samp num mlm seed).
Proof.
  unfold gp_optimize. do 5 sy. tk. sy. tk. eapply rel_bind; [apply gp_surrogate_rel|intros f ? <-]. eapply rel_bind; [apply getS_rel|intros s s' HS].
  eapply rel_bind; [apply putS_rel, HS3, HS|intros ? ? _]. tk. tk. eapply rel_bind; [apply optimize_acq_rel|intros [p P] ? <-]. sy. sy. tk. sy. tk.
  destruct f as [[[c i] h]|]; [|apply rel_raise]. apply rel_ret. split; [reflexivity|]. cbn. repeat split; apply HRT; assumption.
Qed.
End GP.

Section TP.
Context (K : Type) (RS : list (dict N) -> list (dict N) -> Prop).
Hypothesis HS3 : forall s s' h, RS s s' -> RS (s ++ [h])%list (s' ++ [h])%list.
Context (fit : mat N -> list N -> string -> string -> bool -> W -> W * res (K * K * dict N)).
Context (acq : string -> string -> mat N -> list N -> K -> K -> dict N -> list (list N) -> res (list N)).
Hypothesis HF : forall X Y c m b, alike RW (fit X Y c m b).
Lemma tp_optimize_rel o X Y samp num seed :
  rel (RSW RS) (@eq (fitev N)) (pair_rel gi_rel) (tp_optimize N W K get_samples lbfgsb direct cma time_ fit acq o X Y samp num seed)
    (tp_optimize N W K get_samples lbfgsb direct cma time_ fit acq o X Y samp num seed).
Proof.
  unfold tp_optimize. do 4 sy. tk. sy. tk. sy. eapply rel_bind; [apply onW_rel, HF|intros [[c i] h] ? <-].
  eapply rel_bind; [apply getS_rel|intros s s' HS]. eapply rel_bind; [apply putS_rel, HS3, HS|intros ? ? _]. tk. tk.
  eapply rel_bind; [apply optimize_acq_rel|intros [p P] ? <-]. sy. sy. tk. sy. tk.
  apply rel_ret. split; [reflexivity|]. cbn. repeat split; apply HRT; assumption.
Qed.
End TP.

Section RF.
Context (T : Type) (get_trees : mat N -> list N -> W -> W * res T) (acq : string -> mat N -> list N -> T -> list (list N) -> res (list N)).
Hypothesis HF : forall X Y, alike RW (get_trees X Y).
Lemma rf_optimize_rel o X Y samp num seed :
  rel (RSW (@eq unit)) (@eq (fitev N)) (pair_rel ri_rel) (rf_optimize N W get_samples time_ T get_trees acq o X Y samp num seed)
    (rf_optimize N W get_samples time_ T get_trees acq o X Y samp num seed).
Proof.
  unfold rf_optimize. do 4 sy. tk. sy. tk. sy. eapply rel_bind; [apply onW_rel, HF|intros f ? <-]. tk. tk.
  eapply rel_bind; [apply onW_rel, HG|intros l ? <-]. do 5 sy. tk. tk.
  apply rel_ret. split; [reflexivity|]. cbn. repeat split; apply HRT; assumption.
Qed.
End RF.
End Optimise.

(** ** The wrapper *)
Section Wrapper.
Context (N : Num) (W1 W2 : Type) (RW : W1 -> W2 -> Prop) (RT : N -> N -> Prop).
Hypothesis HRT : forall a b c d, RT a b -> RT c d -> RT (nsub N a c) (nsub N b d).
Context (target1 : list N -> W1 -> W1 * res N) (target2 : list N -> W2 -> W2 * res N) (time1 : W1 -> W1 * N) (time2 : W2 -> W2 * N).
Context (si1 : mat N -> list N -> W1 -> W1 * res (list N * info N)) (si2 : mat N -> list N -> W2 -> W2 * res (list N * info N)).
Definition info_rel (g h : info N) : Prop := in_points g = in_points h /\ in_acqs g = in_acqs h /\ RT (in_tsur g) (in_tsur h) /\ RT (in_tacq g) (in_tacq h).
Definition event_rel (e f : event N) : Prop :=
  match e, f with
  | EvModel X Y r, EvModel X' Y' r' => X = X' /\ Y = Y' /\ rres (pair_rel info_rel) r r'
  | EvTarget x r, EvTarget x' r' => x = x' /\ r = r'
  | _, _ => False
  end.
Definition run_rel (r s : run_out N) : Prop :=
  ro_X r = ro_X s /\ ro_Y r = ro_Y s /\ Forall2 RT (ro_tall r) (ro_tall s) /\ Forall2 RT (ro_tsur r) (ro_tsur s) /\ Forall2 RT (ro_tacq r) (ro_tacq s).
Hypothesis HTG : forall x w1 w2, RW w1 w2 -> RW (fst (target1 x w1)) (fst (target2 x w2)) /\ snd (target1 x w1) = snd (target2 x w2).
Hypothesis HTI : forall w1 w2, RW w1 w2 -> RW (fst (time1 w1)) (fst (time2 w2)) /\ RT (snd (time1 w1)) (snd (time2 w2)).
Hypothesis HSI : forall X Y w1 w2, RW w1 w2 -> RW (fst (si1 X Y w1)) (fst (si2 X Y w2)) /\ rres (pair_rel info_rel) (snd (si1 X Y w1)) (snd (si2 X Y w2)).
Notation rl := (rel RW event_rel).
Ltac sy := eapply rel_bind; [apply rel_lift_eq|let a := fresh "a" in let b := fresh "b" in let E := fresh "E" in intros a b E; subst b].
Lemma clock_rel : rl RT (clock N W1 time1) (clock N W2 time2).
Proof. apply rel_ext. intros w1 w2 HW. specialize (HTI HW). destruct (time1 w1), (time2 w2). exact HTI. Qed.
Lemma target_rel x : rl eq (call_target N W1 target1 x) (call_target N W2 target2 x).
Proof.
  apply rel_ext_ev. { intros w1 w2 HW. destruct (HTG x HW) as (H1 & H2). split; [exact H1|]. rewrite H2. apply rres_refl. }
  intros r r' HR. apply rres_eq in HR. subst. cbn. auto.
Qed.
Ltac tk := eapply rel_bind; [apply clock_rel|intros ? ? ?].
Definition step_rel (p q : mat N * list N * N * N * N) : Prop :=
  let '(X, Y, a, s, c) := p in let '(X', Y', a', s', c') := q in X = X' /\ Y = Y' /\ RT a a' /\ RT s s' /\ RT c c'.
Lemma class_step_rel X Y : rl step_rel (class_step N W1 target1 time1 si1 X Y) (class_step N W2 target2 time2 si2 X Y).
Proof.
  unfold class_step. tk. eapply rel_bind with (RA := pair_rel info_rel).
  { apply rel_ext_ev; [intros w1 w2 HW; now apply HSI|]. intros r r' HR. cbn. auto. }
  intros [p di] [p' di'] (HP & (HI1 & HI2 & HI3 & HI4)). cbn [fst snd] in *. subst p'. rewrite <- HI1, <- HI2.
  sy. sy. destruct a1 as [X' p']. tk. eapply rel_bind; [apply target_rel|intros y ? <-]. tk. tk. apply rel_ret. cbn. auto 6.
Qed.
Lemma class_loop_rel n : forall X Y ta ta' ts ts' tq tq', Forall2 RT ta ta' -> Forall2 RT ts ts' -> Forall2 RT tq tq' ->
  rl run_rel (class_loop N W1 target1 time1 si1 n X Y ta ts tq) (class_loop N W2 target2 time2 si2 n X Y ta' ts' tq').
Proof.
  induction n as [|n IH]; intros X Y ta ta' ts ts' tq tq' H1 H2 H3; cbn [class_loop]; [apply rel_ret; repeat split; assumption|].
  eapply rel_bind; [apply class_step_rel|]. intros [[[[X1 Y1] a] s] c] [[[[X2 Y2] a'] s'] c'] (-> & -> & HA & HS & HC).
  apply IH; apply Forall2_app; auto.
Qed.
Lemma class_all_rel k X Y : rl run_rel (class_all_initial N W1 target1 time1 si1 k X Y) (class_all_initial N W2 target2 time2 si2 k X Y).
Proof.
  unfold class_all_initial. sy. tk. eapply rel_bind; [apply class_loop_rel; constructor|intros r r' HR]. tk. now apply rel_ret.
Qed.
Definition initial_rel (p q : N * N) : Prop := fst p = fst q /\ RT (snd p) (snd q).
Lemma initial_maps l l' : Forall2 initial_rel l l' -> map fst l = map fst l' /\ Forall2 RT (map snd l) (map snd l').
Proof. induction 1 as [|p q l l' (H1 & H2) F (I1 & I2)]; cbn; [split; constructor|]. split; [congruence|now constructor]. Qed.
Lemma initials_rel l : rl (Forall2 initial_rel) (mmapM (class_initial N W1 target1 time1) l) (mmapM (class_initial N W2 target2 time2) l).
Proof.
  apply rel_mmapM with (RA := eq); [now apply Forall2_refl_list|]. intros x ? <-. unfold class_initial. tk. eapply rel_bind; [apply target_rel|intros y ? <-]. tk.
  apply rel_ret. split; [reflexivity|]. cbn. auto.
Qed.
Lemma class_inputs_rel k X : rl run_rel (class_initial_inputs N W1 target1 time1 si1 k X) (class_initial_inputs N W2 target2 time2 si2 k X).
Proof.
  unfold class_initial_inputs. eapply rel_bind; [apply initials_rel|]. intros l l' HL. destruct (initial_maps HL) as (H1 & H2). rewrite <- H1.
  eapply rel_bind; [apply class_all_rel|]. intros r r' (R1 & R2 & R3 & R4 & R5). apply rel_ret. repeat split; cbn; auto. now apply Forall2_app.
Qed.
Context (gi1 : string -> Z -> option Z -> W1 -> W1 * res (mat N)) (gi2 : string -> Z -> option Z -> W2 -> W2 * res (mat N)).
Hypothesis HGI : forall m n s w1 w2, RW w1 w2 -> RW (fst (gi1 m n s w1)) (fst (gi2 m n s w2)) /\ snd (gi1 m n s w1) = snd (gi2 m n s w2).
Lemma class_optimize_rel meth k n s : rl run_rel (class_optimize N W1 target1 time1 si1 gi1 meth k n s) (class_optimize N W2 target2 time2 si2 gi2 meth k n s).
Proof.
  unfold class_optimize. sy. tk. eapply rel_bind with (RA := eq).
  { apply rel_ext. intros w1 w2 HW. destruct (HGI meth n s HW) as (H1 & H2). split; [exact H1|]. rewrite H2. apply rres_refl. }
  intros X ? <-. eapply rel_bind; [apply class_inputs_rel|intros r r' HR]. tk. now apply rel_ret.
Qed.
End Wrapper.
