(** Reported times: a logic for computations in which time passes, and its application to the three surrogates and the wrapper. *)
From Verif Require Import Base Num UtilsSpec UtilsModel HypsModel CovModel GPModel LikModel HypOptModel AcqModel TreesModel SamplingModel
  Monad WrapperModel BOModel BOAcqModel BOFullModel BOProgram TimeSpec.
From Coq Require Import List Reals Lra Lia String ZArith Bool.
Import ListNotations.
Open Scope R_scope.
Set Implicit Arguments.
Unset Strict Implicit.
Unset Asymmetric Patterns.
Set Bullet Behavior "Strict Subproofs".

(** ** The logic: start, end and result of a computation *)
Section Logic.
Context {W E : Type} (now : W -> R).
Definition timed {A} (m : M W E A) (Q : R -> R -> A -> Prop) : Prop :=
  forall w w' t r, m w = (w', t, r) -> now w <= now w' /\ forall a, r = Ok a -> Q (now w) (now w') a.
Definition any {A} (s e : R) (a : A) : Prop := True.
Lemma timed_bind {A B} (m : M W E A) (k : A -> M W E B) P Q : timed m P -> (forall a, timed (k a) (Q a)) ->
  timed (bind m k) (fun s e b => exists a u, s <= u <= e /\ P s u a /\ Q a u e b).
Proof.
  intros HM HK w w' t r EB. unfold bind in EB. destruct (m w) as [[w1 t1] [a|x]] eqn:EM.
  - destruct (HM _ _ _ _ EM) as [L1 P1]. destruct (k a w1) as [[w2 t2] r2] eqn:EK. injection EB as <- <- <-. destruct (HK _ _ _ _ _ EK) as [L2 P2].
    split; [lra|]. intros b ->. exists a, (now w1). split; [lra|]. split; [now apply P1|now apply P2].
  - injection EB as <- <- <-. destruct (HM _ _ _ _ EM) as [L1 _]. split; [exact L1|discriminate].
Qed.
Lemma timed_weaken {A} (m : M W E A) (P Q : R -> R -> A -> Prop) : timed m P -> (forall s e a, s <= e -> P s e a -> Q s e a) -> timed m Q.
Proof. intros HM HPQ w w' t r EM. destruct (HM _ _ _ _ EM) as [L P1]. split; [exact L|]. intros a Ha. apply HPQ; [exact L|now apply P1]. Qed.
(** the rule used in proofs: the postcondition of the continuation may use that of the first part *)
Lemma timed_seq {A B} (m : M W E A) (k : A -> M W E B) P (Q : R -> R -> B -> Prop) : timed m P -> (forall a, timed (k a) (fun u e b => forall s, s <= u -> P s u a -> Q s e b)) -> timed (bind m k) Q.
Proof.
  intros HM HK. eapply timed_weaken; [exact (timed_bind HM HK)|]. intros s e b _ (a & u & L & P1 & Q1). apply Q1; [lra|exact P1].
Qed.
Lemma timed_ret {A} (a : A) (Q : R -> R -> A -> Prop) : (forall s, Q s s a) -> timed (ret a) Q.
Proof. intros H w w' t r EM. injection EM as <- <- <-. split; [lra|]. intros b [= <-]. apply H. Qed.
Lemma timed_raise {A} x (Q : R -> R -> A -> Prop) : timed (raise x) Q.
Proof. intros w w' t r EM. injection EM as <- <- <-. split; [lra|discriminate]. Qed.
Lemma timed_lift {A} (r : res A) (Q : R -> R -> A -> Prop) : (forall s a, r = Ok a -> Q s s a) -> timed (lift r) Q.
Proof. intros H w w' t r' EM. injection EM as <- <- <-. split; [lra|]. intros b Hb. now apply H. Qed.
Lemma timed_lift_any {A} (r : res A) : timed (lift r) any.
Proof. apply timed_lift. now intros. Qed.
Lemma timed_ext {A} (f : W -> W * res A) : passes now f -> timed (ext f) any.
Proof. intros H w w' t r EM. unfold ext in EM. specialize (H w). destruct (f w) as [w1 r1]. injection EM as <- <- <-. split; [exact H|now intros]. Qed.
Lemma timed_any {A} (m : M W E A) Q : timed m Q -> timed m any.
Proof. intros H. eapply timed_weaken; [exact H|now intros]. Qed.
Lemma any_seq {A B} (m : M W E A) (k : A -> M W E B) : timed m any -> (forall a, timed (k a) any) -> timed (bind m k) any.
Proof. intros HM HK. eapply timed_any. exact (timed_bind HM HK). Qed.
Lemma timed_takes {A} d (f : W -> W * res A) : 0 <= d -> takes now d f -> timed (ext f) (fun s e _ => d <= e - s).
Proof. intros D H w w' t r EM. unfold ext in EM. specialize (H w). destruct (f w) as [w1 r1]. cbn [fst] in H. injection EM as <- <- <-. split; [lra|]. intros. lra. Qed.
Lemma takes_passes {A} d (f : W -> W * A) : 0 <= d -> takes now d f -> passes now f.
Proof. intros D H w. specialize (H w). lra. Qed.
Lemma takes_seq {A B} d (m : M W E A) (k : A -> M W E B) : timed m (fun s e _ => d <= e - s) -> (forall a, timed (k a) any) -> timed (bind m k) (fun s e _ => d <= e - s).
Proof. intros HM HK. eapply timed_weaken; [exact (timed_bind HM HK)|]. intros s e b L (a & u & LU & H1 & _). lra. Qed.
Lemma takes_seq2 {A B} d (m : M W E A) (k : A -> M W E B) : timed m any -> (forall a, timed (k a) (fun s e _ => d <= e - s)) -> timed (bind m k) (fun s e _ => d <= e - s).
Proof. intros HM HK. eapply timed_weaken; [exact (timed_bind HM HK)|]. intros s e b L (a & u & LU & _ & H1). lra. Qed.
Lemma timed_mmapM {A B} (f : A -> M W E B) l : (forall a, timed (f a) any) -> timed (mmapM f l) any.
Proof.
  intros H. induction l as [|a l IH]; [now apply timed_ret|]. cbn [mmapM]. apply any_seq; [apply H|]. intros b. apply any_seq; [exact IH|]. intros bs. now apply timed_ret.
Qed.
End Logic.

(** ** Trees *)
Section Trees.
Context (N : Num) (W : Type) (now : W -> R).
Context (choice : nat -> nat -> bool -> W -> W * res (list nat)) (uniform : N -> N -> W -> W * res N) (trunc : N -> option Z).
Context (d : R).
Hypotheses (D0 : 0 <= d) (HCd : forall n k b, takes now d (choice n k b)) (HU : forall a b, passes now (uniform a b)).
Lemma HC n k b : passes now (choice n k b).
Proof. exact (takes_passes D0 (HCd n k b)). Qed.
Local Hint Resolve HC : core.
Ltac st := first [apply timed_lift_any | now apply timed_ret | apply timed_raise | now (apply timed_ext; auto)].
Ltac sq := apply any_seq; [try st|intros ?].
Lemma subsample_timed X Y q b : timed now (subsample N W choice trunc X Y q b) any.
Proof. unfold subsample. sq. sq. destruct (trunc _); [|st]. destruct (_ <? _)%Z; [st|]. sq. sq. sq. st. Qed.
Lemma split_features_timed S rl fs : forall cur, timed now (split_features N W choice uniform S rl fs cur) any.
Proof.
  induction fs as [|f0 fs IH]; intros cur; cbn [split_features]; [st|]. sq; [|apply IH]. destruct rl.
  - unfold split_random. sq. sq; [|st]. destruct (Nat.ltb _ _); [|st]. sq. sq. st.
  - unfold split_deterministic. sq. sq. sq. st.
Qed.
Lemma split_node_timed nd S nf rl : timed now (split_node N W choice uniform nd S nf rl) any.
Proof. unfold split_node. sq. sq. apply split_features_timed. Qed.
Lemma grow_split_timed nd nf rl sm rem : forall c, timed now (grow_split N W choice uniform nd nf rl sm rem c) any.
Proof.
  induction rem as [|rem IH]; intros c; cbn [grow_split]; (destruct c as [[[[i v] q] [l r]]|]; [|st]); destruct l as [|l0 l], r as [|r0 r]; try st.
  sq; [destruct (_ <=? _)%Z; [st|]; sq; [apply split_node_timed|apply IH]|]. sq; [destruct (_ <=? _)%Z; [st|]; sq; [apply split_node_timed|apply IH]|]. st.
Qed.
Lemma grow_tree_takes X Y dm sm q b nf rl : timed now (grow_tree N W choice uniform trunc X Y dm sm q b nf rl) (fun s e _ => d <= e - s).
Proof.
  unfold grow_tree. apply takes_seq2; [apply subsample_timed|]. intros boot. apply takes_seq; [|intros c; sq; [apply grow_split_timed|st]].
  unfold split_node. apply takes_seq2; [st|]. intros ?. apply takes_seq; [|intros; apply split_features_timed]. now apply timed_takes.
Qed.
Lemma bo_get_trees_timed X Y nd : timed now (bo_get_trees N W choice uniform trunc X Y nd) (fun s e _ => d <= e - s).
Proof.
  unfold bo_get_trees, get_random_forest. apply takes_seq2; [st|]. intros _. apply takes_seq2; [st|]. intros _. assert (HL : seq 0 (Z.to_nat 100) <> []) by discriminate. destruct (seq 0 (Z.to_nat 100)) as [|i l]; [congruence|]. cbn [mmapM]. apply takes_seq; [apply grow_tree_takes|].
  intros y. apply any_seq; [|intros; st]. apply timed_mmapM. intros _. eapply timed_any, grow_tree_takes.
Qed.
Lemma rf_trees_timed nd X Y w w' r : @rf_trees_full N W choice uniform trunc nd X Y w = (w', r) -> now w <= now w' /\ forall t, r = Ok t -> now w + d <= now w'.
Proof.
  unfold rf_trees_full. destruct (bo_get_trees _ _ _ _ _ _ _ _ _) as [[w1 t] r1] eqn:EB. destruct (bo_get_trees_timed EB) as [L H]. intros [= <- <-]. split; [exact L|].
  intros t0 E0. destruct r1 as [q|x]; [|discriminate]. specialize (H q eq_refl). lra.
Qed.
End Trees.

(** ** The three surrogates *)
Section Optimise.
Context (W K : Type) (now : W -> R).
Notation N := NumR.
Context (get_samples : string -> Z -> option Z -> W -> W * res (list (list N))).
Context (lbfgsb : (list N -> res N) -> list N -> list (N * N) -> W -> W * res (list N)).
Context (direct : (list N -> res N) -> list (N * N) -> W -> W * res (list N)).
Context (cma : (list N -> res N) -> list N -> list (N * N) -> W -> W * res (list N)).
Context (time_ : W -> W * N).
Context (ds da dt : R).
Hypotheses (DS : 0 <= ds) (DA : 0 <= da) (DT : 0 <= dt).
Hypotheses (HSd : forall m n s, takes now da (get_samples m n s)) (HL : forall f x b, passes now (lbfgsb f x b)) (HDd : forall f b, takes now da (direct f b))
  (HM : forall f x b, passes now (cma f x b)) (HT : reads_clock now time_).
Definition at_world {St} (sw : St * W) : R := now (snd sw).
Section State.
Context (St : Type).
Lemma onW_timed {A} (f : W -> W * res A) : passes now f -> timed (@at_world St) (onW N W St f) any.
Proof. intros H. apply timed_ext. intros [s w]. unfold at_world. cbn [snd]. specialize (H w). destruct (f w) as [w1 r]. exact H. Qed.
Lemma onW_takes {A} d (f : W -> W * res A) : 0 <= d -> (forall w w' r, f w = (w', r) -> now w <= now w' /\ forall a, r = Ok a -> now w + d <= now w') -> timed (@at_world St) (onW N W St f) (fun s e _ => d <= e - s).
Proof.
  intros D0 H [s w] w' t r EM. unfold onW, ext in EM. cbn [fst snd] in EM. destruct (f w) as [w1 r1] eqn:EF. destruct (H _ _ _ EF) as [L P]. injection EM as <- <- <-. unfold at_world. cbn [snd]. split; [exact L|].
  intros a Ha. specialize (P a Ha). lra.
Qed.
Lemma takes_all {A} d (f : W -> W * res A) : 0 <= d -> takes now d f -> (forall w w' r, f w = (w', r) -> now w <= now w' /\ forall a, r = Ok a -> now w + d <= now w').
Proof. intros D0 H w w' r E. specialize (H w). rewrite E in H. cbn [fst] in H. split; [lra|]. intros. lra. Qed.
Lemma tick_timed : timed (@at_world St) (tick N W time_ St) (fun s e t => s <= t <= e).
Proof.
  intros [s w] w' t r EM. unfold tick, onW, ext in EM. specialize (HT w). cbn [snd] in EM. destruct (time_ w) as [w1 t1]. injection EM as <- <- <-. unfold at_world. cbn [fst snd] in *.
  split; [lra|]. intros a [= <-]. exact HT.
Qed.
Lemma getS_timed : timed (@at_world St) (getS N W St) any.
Proof. intros w w' t r EM. injection EM as <- <- <-. split; [lra|now intros]. Qed.
Lemma putS_timed s : timed (@at_world St) (putS N W St s) any.
Proof. intros w w' t r EM. injection EM as <- <- <-. split; [apply Rle_refl|now intros]. Qed.
Lemma note_timed e : timed (@at_world St) (note N W St e) any.
Proof. intros w w' t r EM. injection EM as <- <- <-. split; [lra|now intros]. Qed.
End State.
Ltac st := first [apply timed_lift_any | now apply timed_ret | apply timed_raise | apply getS_timed | apply putS_timed | apply note_timed | now (apply onW_timed; auto)].
Ltac sq := apply any_seq; [try st|intros ?].
Lemma acq_timed St ob range fneg samp num seed : timed (@at_world St) (optimize_acq N W get_samples lbfgsb direct cma St ob range fneg samp num seed) (fun s e _ => da <= e - s).
Proof.
  assert (HS : forall m n s, timed (@at_world St) (onW N W St (get_samples m n s)) (fun s e _ => da <= e - s)) by (intros; apply onW_takes; [exact DA|apply takes_all; auto]).
  unfold optimize_acq. destruct (ob =? "L-BFGS-B")%string.
  { apply takes_seq; [apply takes_seq; [apply HS|intros; apply timed_mmapM; intros; st]|]. intros. sq. sq. st. }
  destruct (ob =? "DIRECT")%string.
  { apply takes_seq; [apply takes_seq; [apply onW_takes; [exact DA|apply takes_all; auto]|intros; st]|]. intros. sq. sq. st. }
  destruct (ob =? "CMA-ES")%string.
  { apply takes_seq; [apply takes_seq; [apply HS|intros [|x0 l]; [st|sq; st]]|]. intros. sq. sq. st. }
  eapply timed_seq with (P := fun s e a => s = e /\ a = []); [now apply timed_ret|]. intros pts. eapply timed_seq with (P := fun s e q => np_array_rows pts = Ok q); [apply timed_lift; now intros|]. intros q.
  eapply timed_seq with (P := fun s e a => get_best_acquisition_by_evaluation N (mrows q) (at_point N fneg) = Ok a); [apply timed_lift; now intros|]. intros p. apply timed_ret.
  intros s u _ EP v _ EQ z _ (_ & ->). injection EQ as <-. discriminate EP.
Qed.
Ltac an := eapply timed_seq with (P := any); [try st|intros ?].
Tactic Notation "ann" ident(x) := eapply timed_seq with (P := any); [try st|intros x].
Ltac tk := eapply timed_seq; [apply tick_timed|intros ?].
Ltac fin := apply timed_ret; unfold any in *; cbn [gi_tsur gi_tacq gi_tall ri_tsur ri_tacq ri_tall snd nsub NumR]; intros; lra.

Definition info_ok (s e : R) (p : list N * gp_info N K) : Prop := let g := snd p in
  ds <= gi_tsur N K g /\ da <= gi_tacq N K g /\ gi_tsur N K g + gi_tacq N K g <= gi_tall N K g /\ gi_tall N K g <= e - s.
Section GP.
Context (fit : mat N -> list N -> string -> string -> string -> bool -> W -> W * res (K * K * dict N)) (ki : mat N -> dict N -> string -> res (K * K))
  (nl : mat N -> list N -> list N -> string -> bool -> res N) (acq : string -> string -> mat N -> list N -> K -> K -> dict N -> list (list N) -> res (list N)).
Hypothesis HF : forall X Y c m s u, takes now ds (fit X Y c m s u).
Lemma gp_fit_timed o m X Y : timed (@at_world _) (gp_fit N W K fit o m X Y) (fun s e _ => ds <= e - s).
Proof. unfold gp_fit. apply takes_seq2; [st|]. intros _. apply onW_takes; [exact DS|apply takes_all; auto]. Qed.
Lemma combined_timed o X Y m b : timed (@at_world _) (combined_step N W K fit nl o X Y m b) (fun s e _ => ds <= e - s).
Proof. unfold combined_step. apply takes_seq; [apply gp_fit_timed|]. intros. sq. sq. st. Qed.
Lemma surrogate_timed o mlm X Y : mlm <> "converged"%string \/ ds <= 0 -> timed (@at_world _) (gp_surrogate N W K fit ki nl o mlm X Y) (fun s e _ => ds <= e - s).
Proof.
  intros HC. unfold gp_surrogate. destruct (mlm =? "regular")%string; [apply takes_seq; [apply gp_fit_timed|intros; st]|].
  destruct (mlm =? "combined")%string; [apply takes_seq; [apply combined_timed|]; intros; sq; [eapply timed_any, combined_timed|st]|].
  destruct (mlm =? "converged")%string eqn:EC; [|st]. apply String.eqb_eq in EC. destruct HC as [HC|HC]; [congruence|].
  eapply timed_weaken with (P := any); [|intros s e a L _; lra]. sq. destruct (gs_opt _ _).
  - sq; [eapply timed_any, gp_fit_timed|]. sq. sq. sq. st.
  - destruct (rev _) as [|[h|] l]; [st| |st]. sq. st.
Qed.
Lemma gp_timed o X Y samp num mlm seed : mlm <> "converged"%string \/ ds <= 0 -> timed (@at_world _) (gp_optimize N W K get_samples lbfgsb direct cma time_ fit ki nl acq o X Y samp num mlm seed) info_ok.
Proof.
  intros HC. unfold gp_optimize, info_ok. do 5 an. tk. an. tk. eapply timed_seq; [now apply surrogate_timed|intros f]. an. an. tk. tk. eapply timed_seq; [apply acq_timed|intros r]. destruct r as [np nps]. an. an. tk. an. tk.
  destruct f as [[[c i] h]|]; [|st]. fin.
Qed.
End GP.
Section TP.
Context (fit : mat N -> list N -> string -> string -> bool -> W -> W * res (K * K * dict N)) (acq : string -> string -> mat N -> list N -> K -> K -> dict N -> list (list N) -> res (list N)).
Hypothesis HF : forall X Y c m u, takes now ds (fit X Y c m u).
Lemma tp_timed o X Y samp num seed : timed (@at_world _) (tp_optimize N W K get_samples lbfgsb direct cma time_ fit acq o X Y samp num seed) info_ok.
Proof.
  unfold tp_optimize, info_ok. do 4 an. tk. an. tk. an. eapply timed_seq; [apply onW_takes; [exact DS|apply takes_all; auto]|intros f]. destruct f as [[c i] h]. an. an. tk. tk. eapply timed_seq; [apply acq_timed|intros r]. destruct r as [np nps]. an. an. tk. an. tk. fin.
Qed.
End TP.
Section RF.
Context (T : Type) (get_trees : mat N -> list N -> W -> W * res T) (acq : string -> mat N -> list N -> T -> list (list N) -> res (list N)).
Hypothesis HG : forall X Y w w' r, get_trees X Y w = (w', r) -> now w <= now w' /\ forall t, r = Ok t -> now w + ds <= now w'.
Definition rinfo_ok (s e : R) (p : list N * rf_info N T) : Prop := let g := snd p in
  ds <= ri_tsur N T g /\ da <= ri_tacq N T g /\ ri_tsur N T g + ri_tacq N T g <= ri_tall N T g /\ ri_tall N T g <= e - s.
Lemma rf_timed o X Y samp num seed : timed (@at_world _) (rf_optimize N W get_samples time_ T get_trees acq o X Y samp num seed) rinfo_ok.
Proof.
  unfold rf_optimize, rinfo_ok. do 4 an. tk. an. tk. an. eapply timed_seq; [apply onW_takes; [exact DS|apply HG]|intros ?]. tk. tk. eapply timed_seq; [apply onW_takes; [exact DA|apply takes_all; auto]|intros ?]. an. an. an. an. an. tk. tk. fin.
Qed.
End RF.
End Optimise.

(** ** The wrapper *)
Lemma sum_app a b : Rsum (a ++ b) = Rsum a + Rsum b.
Proof. induction a as [|x a IH]; cbn [app Rsum]; [lra|]. rewrite IH. lra. Qed.

Section Wrapper.
Context (W : Type) (now : W -> R).
Notation N := NumR.
Context (target : list N -> W -> W * res N) (time_ : W -> W * N).
Context (ds da dt : R).
Hypotheses (DS : 0 <= ds) (DA : 0 <= da) (DT : 0 <= dt).
Hypotheses (HG : forall x, takes now dt (target x)) (HT : reads_clock now time_).
Definition di_ok (s e : R) (p : list N * info N) : Prop := ds <= in_tsur (snd p) /\ da <= in_tacq (snd p) /\ in_tsur (snd p) + in_tacq (snd p) <= e - s.
Lemma clock_timed : timed now (clock N W time_) (fun s e t => s <= t <= e).
Proof.
  intros w w' t r EM. unfold clock, ext in EM. specialize (HT w). destruct (time_ w) as [w1 t1]. injection EM as <- <- <-. cbn [fst snd] in *.
  split; [lra|]. intros a [= <-]. exact HT.
Qed.
Lemma ext_ev_timed {A} (ev : res A -> event N) (f : W -> W * res A) (Q : R -> R -> A -> Prop) : (forall w w' r, f w = (w', r) -> now w <= now w' /\ forall a, r = Ok a -> Q (now w) (now w') a) -> timed now (ext_ev ev f) Q.
Proof. intros H w w' t r EM. unfold ext_ev in EM. destruct (f w) as [w1 r1] eqn:EF. injection EM as <- <- <-. exact (H _ _ _ EF). Qed.
Lemma target_timed x : timed now (call_target N W target x) (fun s e _ => dt <= e - s).
Proof. apply ext_ev_timed. intros w w' r EF. assert (H := HG x w). rewrite EF in H. cbn [fst] in H. split; [lra|]. intros. lra. Qed.
Definition di_timed (f : W -> W * res (list N * info N)) : Prop := forall w w' r, f w = (w', r) -> now w <= now w' /\ forall a, r = Ok a -> di_ok (now w) (now w') a.
Ltac st := first [apply timed_lift_any | now apply timed_ret | apply timed_raise].
Ltac an := eapply timed_seq with (P := any); [try st|intros ?].
Tactic Notation "ann" ident(x) := eapply timed_seq with (P := any); [try st|intros x].
Ltac tk := eapply timed_seq; [apply clock_timed|intros ?].
Ltac tg := eapply timed_seq; [apply target_timed|intros ?].

Definition loop_ok (n : nat) (ta ts tq : list R) (s e : R) (r : run_out N) : Prop :=
  exists rounds ss qs, ro_tall r = (ta ++ rounds)%list /\ ro_tsur r = (ts ++ ss)%list /\ ro_tacq r = (tq ++ qs)%list /\ List.length rounds = n /\ rounds_ok ds da dt rounds ss qs /\ Rsum rounds <= e - s.
Lemma loop_ok_cons n ta ts tq a s c u e u' r : loop_ok n (ta ++ [a]) (ts ++ [s]) (tq ++ [c]) u' e r -> ds <= s -> da <= c -> s + c + dt <= a -> a <= u' - u -> loop_ok (S n) ta ts tq u e r.
Proof.
  intros (rr & ss & qs & E1 & E2 & E3 & L & H & T) Hs Hc Hq Ha. exists (a :: rr), (s :: ss), (c :: qs). rewrite E1, E2, E3, <- !app_assoc. cbn [app List.length Rsum]. repeat split; auto; [now constructor|lra].
Qed.
Definition all_ok (n : nat) (s e : R) (r : run_out N) : Prop := rounds_ok ds da dt (ro_tall r) (ro_tsur r) (ro_tacq r) /\ List.length (ro_tall r) = n /\ Rsum (ro_tall r) <= e - s.
Lemma loop_all n s e r : loop_ok n [] [] [] s e r -> all_ok n s e r.
Proof. intros (rr & ss & qs & E1 & E2 & E3 & L & H & T). unfold all_ok. now rewrite E1, E2, E3. Qed.
Definition pair_ok (s e : R) (p : N * N) : Prop := dt <= snd p /\ snd p <= e - s.
Lemma initial_timed x : timed now (class_initial N W target time_ x) pair_ok.
Proof. unfold class_initial, pair_ok. tk. tg. tk. apply timed_ret. unfold any. cbn [snd nsub NumR]. intros; lra. Qed.
Definition pairs_ok (s e : R) (l : list (N * N)) : Prop := Forall (fun t => dt <= t) (map snd l) /\ Rsum (map snd l) <= e - s.
Lemma initials_timed l : timed now (mmapM (class_initial N W target time_) l) pairs_ok.
Proof.
  induction l as [|x l IH]; cbn [mmapM]; [apply timed_ret; intros s; split; [constructor|cbn; lra]|]. eapply timed_seq; [apply initial_timed|]. intros p. eapply timed_seq; [exact IH|]. intros ps. apply timed_ret.
  intros s u L (H1 & H2) v L2 (H3 & H4). cbn [map Rsum] in *. split; [now constructor|]. cbn [map Rsum]. lra.
Qed.
Lemma glue n s u e l r : s <= u -> pairs_ok s u l -> all_ok n u e r -> times_ok ds da dt n (e - s) (mkrun (ro_X r) (ro_Y r) (map snd l ++ ro_tall r)%list (ro_tsur r) (ro_tacq r)).
Proof.
  intros L (H1 & H2) (H3 & H4 & H5). exists (map snd l), (ro_tall r). cbn [ro_tall ro_tsur ro_tacq]. repeat split; auto. rewrite sum_app. lra.
Qed.
Lemma times_more n a b r : times_ok ds da dt n a r -> a <= b -> times_ok ds da dt n b r.
Proof. intros (i & rr & H1 & H2 & H3 & H4 & H5) L. exists i, rr. repeat split; auto. lra. Qed.

Section Class.
Context (single : mat N -> list N -> W -> W * res (list N * info N)).
Hypothesis HI : forall X Y, di_timed (single X Y).
Lemma loop_timed n : forall X Y ta ts tq, timed now (class_loop N W target time_ single n X Y ta ts tq) (loop_ok n ta ts tq).
Proof.
  induction n as [|n IH]; intros X Y ta ts tq; cbn [class_loop].
  - apply timed_ret. intros s. exists [], [], []. cbn [ro_tall ro_tsur ro_tacq List.length Rsum]. rewrite !app_nil_r. repeat split; [constructor|lra].
  - eapply timed_seq with (P := fun s e (q : mat N * list N * N * N * N) => let '(_, _, a, t, c) := q in ds <= t /\ da <= c /\ t + c + dt <= a /\ a <= e - s).
    + unfold class_step. tk. eapply timed_seq; [apply ext_ev_timed, HI|]. intros [p di]. an. ann q. destruct q as [X' p']. tk. tg. tk. tk. apply timed_ret. unfold any, di_ok. cbn [snd nsub NumR]. intros; lra.
    + intros [[[[X' Y'] a] t] c]. eapply timed_weaken; [apply IH|]. intros s e r L H u Lu (H1 & H2 & H3 & H4). eapply loop_ok_cons; eauto.
Qed.
Lemma all_timed k X Y : timed now (class_all_initial N W target time_ single k X Y) (all_ok (Z.to_nat k)).
Proof.
  unfold class_all_initial. an. tk. eapply timed_seq; [apply loop_timed|]. intros r. tk. apply timed_ret. unfold any. intros s u Lu Hu v Lv Hv q Lq Hq z Lz Hz. apply loop_all in Hv.
  destruct Hv as (A & B & C). repeat split; auto. lra.
Qed.
Lemma inputs_timed k X : timed now (class_initial_inputs N W target time_ single k X) (fun s e r => times_ok ds da dt (Z.to_nat k) (e - s) r).
Proof.
  unfold class_initial_inputs. eapply timed_seq; [apply initials_timed|]. intros l. eapply timed_seq; [apply all_timed|]. intros r. apply timed_ret. intros s u Lu Hu v Lv Hv. eapply glue; eauto.
Qed.
Context (get_initials : string -> Z -> option Z -> W -> W * res (mat N)).
Hypothesis HGI : forall m n s, passes now (get_initials m n s).
Lemma optimize_timed m k n sd : timed now (class_optimize N W target time_ single get_initials m k n sd) (fun s e r => times_ok ds da dt (Z.to_nat k) (e - s) r).
Proof.
  unfold class_optimize. an. tk. eapply timed_seq; [apply timed_ext, HGI|]. intros X. eapply timed_seq; [apply inputs_timed|]. intros r. tk. apply timed_ret.
  unfold any. intros. eapply times_more; [eassumption|lra].
Qed.
End Class.
Section Function.
Context (opt : string -> Z -> string -> mat N -> list N -> W -> W * res (list N * info N)).
Hypothesis HI : forall a b c X Y, di_timed (opt a b c X Y).
Context (get_initials : string -> Z -> option Z -> W -> W * res (mat N)).
Hypothesis HGI : forall m n s, passes now (get_initials m n s).
Lemma fun_loop_timed sp ns ml n : forall X Y ta ts tq, timed now (fun_loop N W target time_ opt sp ns ml n X Y ta ts tq) (loop_ok n ta ts tq).
Proof.
  induction n as [|n IH]; intros X Y ta ts tq; cbn [fun_loop].
  - apply timed_ret. intros s. exists [], [], []. cbn [ro_tall ro_tsur ro_tacq List.length Rsum]. rewrite !app_nil_r. repeat split; [constructor|lra].
  - tk. eapply timed_seq; [apply ext_ev_timed, HI|]. intros [p di]. an. ann q. destruct q as [X' p']. tk. tg. tk. tk.
    eapply timed_weaken; [apply IH|]. unfold any, di_ok. cbn [snd nsub NumR]. intros. eapply loop_ok_cons; [eassumption|lra|lra|lra|lra].
Qed.
Lemma run_timed im sp ns ml ni k sd : timed now (run_single_round N W target time_ opt get_initials im sp ns ml ni k sd) (fun s e r => times_ok ds da dt (Z.to_nat k) (e - s) r).
Proof.
  unfold run_single_round. an. an. tk. eapply timed_seq; [apply timed_ext, HGI|]. intros X. eapply timed_seq with (P := fun s e r => times_ok ds da dt (Z.to_nat k) (e - s) r).
  - unfold fun_initial_inputs. an. eapply timed_seq; [apply initials_timed|]. intros l. eapply timed_seq with (P := all_ok (Z.to_nat k)).
    + unfold fun_all_initial. an. an. tk. eapply timed_seq; [apply fun_loop_timed|]. intros r. tk. apply timed_ret. unfold any. intros s u Lu Hu v Lv Hv q Lq Hq z Lz Hz z2 Lz2 Hz2. apply loop_all in Hv.
      destruct Hv as (A & B & C). repeat split; auto. lra.
    + intros r. apply timed_ret. unfold any. intros s u Lu Hu v Lv Hv q Lq Hq. eapply times_more; [exact (glue Lv Hv Hu)|lra].
  - intros r. tk. apply timed_ret. unfold any. intros. eapply times_more; [eassumption|lra].
Qed.
End Function.
End Wrapper.

(** ** The whole program *)
Section Program.
Context (W : Type) (now : W -> R).
Notation N := NumR.
Context (nexp nlog cdf pdf : R -> R) (npi : R).
Notation mx := (list (list R)).
Context (inv chol : mx -> res mx) (cho_solve : mx -> mx -> res mx) (slogdet : mx -> R * R) (ngamma ndigamma : R -> R).
Context (get_samples : string -> Z -> option Z -> W -> W * res (list (list N))).
Context (lbfgsb : (list N -> res N) -> list N -> list (N * N) -> W -> W * res (list N)).
Context (direct : (list N -> res N) -> list (N * N) -> W -> W * res (list N)).
Context (cma : (list N -> res N) -> list N -> list (N * N) -> W -> W * res (list N)).
Context (time_ : W -> W * N).
Context (minimize : W -> minimizer N) (after : mat N -> list N -> string -> W -> W) (pm : prior N).
Context (choice : nat -> nat -> bool -> W -> W * res (list nat)) (uniform : N -> N -> W -> W * res N) (trunc : N -> option Z) (schedule : nat -> list nat).
Context (target : list N -> W -> W * res N).
Context (ds da dt : R).
Hypotheses (DS : 0 <= ds) (DA : 0 <= da) (DT : 0 <= dt).
Hypotheses (HS : forall m n s, takes now da (get_samples m n s)) (HL : forall f x b, passes now (lbfgsb f x b)) (HD : forall f b, takes now da (direct f b))
  (HM : forall f x b, passes now (cma f x b)) (HT : reads_clock now time_) (HA : forall X Y m w, now w + ds <= now (after X Y m w))
  (HC : forall n k b, takes now ds (choice n k b)) (HU : forall a b, passes now (uniform a b)) (HG : forall x, takes now dt (target x)).
Notation di_ok := (di_ok ds da).
Notation di_timed St := (di_timed (at_world (St := St) now) ds da).

Lemma untraced_di St A (f : A -> info N) (m : M (St * W) (fitev N) (list N * A)) (Q : R -> R -> list N * A -> Prop) : timed (@at_world W now St) m Q ->
  (forall s e p, Q s e p -> di_ok s e (fst p, f (snd p))) -> di_timed St (untraced N W f m).
Proof.
  intros HM0 HQ w w' r EU. unfold untraced in EU. destruct (m w) as [[w1 t1] r1] eqn:EM. destruct (HM0 _ _ _ _ EM) as [L P]. injection EU as <- <-. split; [exact L|].
  intros a EA. destruct r1 as [p|x]; [|discriminate]. cbn [rmap] in EA. injection EA as <-. apply HQ. now apply P.
Qed.
Lemma onsnd_passes St A (f : W -> W * A) : passes now f -> passes (@at_world W now St) (onsnd W f).
Proof. intros H [s w]. unfold onsnd, at_world. cbn [snd]. specialize (H w). destruct (f w). exact H. Qed.
Lemma onsnd_takes St A d (f : W -> W * A) : takes now d f -> takes (@at_world W now St) d (onsnd W f).
Proof. intros H [s w]. unfold onsnd, at_world. cbn [snd]. specialize (H w). destruct (f w). exact H. Qed.
Lemma onsnd_clock St : reads_clock (@at_world W now St) (onsnd W time_).
Proof. intros [s w]. unfold onsnd, at_world. cbn [snd]. specialize (HT w). destruct (time_ w). exact HT. Qed.
Lemma run_class_timed St (single : mat N -> list N -> St * W -> (St * W) * res (list N * info N)) m k n sd :
  (forall X Y, di_timed St (single X Y)) ->
  timed (@at_world W now St) (run_class N W get_samples time_ target single m k n sd) (fun s e r => times_ok ds da dt (Z.to_nat k) (e - s) r).
Proof.
  intros HI. unfold run_class. apply optimize_timed; auto.
  - intros x. now apply onsnd_takes.
  - apply onsnd_clock.
  - intros. apply onsnd_passes. intros w. unfold BOModel.get_initials. assert (H := HS m0 n0 s w). destruct (get_samples m0 n0 s w). cbn [fst] in *. lra.
Qed.
Lemma program_times dbg ca a n seed w w' t r :
  bo_program N nexp nlog cdf pdf npi inv chol cho_solve slogdet ngamma ndigamma W get_samples lbfgsb direct cma time_ minimize after pm choice uniform trunc schedule target dbg ca a n seed w = (w', t, Ok r) ->
  a_mlm N a <> "converged"%string \/ ds <= 0 -> times_ok ds da dt (Z.to_nat (a_num_iter N a)) (now w' - now w) r.
Proof.
  unfold bo_program, forget. destruct (bo_init N _ ca a) as [[o|o|o]|x]; [| | |discriminate]; intros EP HCV;
    match type of EP with (match ?X with _ => _ end) = _ => destruct X as [[[s1 w1] t1] r1] eqn:ER end; injection EP as <- <- ->; cbn [snd].
  - refine (proj2 (run_class_timed _ ER) r eq_refl). intros X Y. eapply untraced_di; [apply gp_timed with (ds := ds) (da := da); auto|].
    + intros X1 Y1 c m s u w0. apply HA.
    + intros s e [p g] (H1 & H2 & H3 & H4). repeat split; [exact H1|exact H2|]. cbn [snd gp_to_info in_tsur in_tacq] in *. lra.
  - refine (proj2 (run_class_timed _ ER) r eq_refl). intros X Y. eapply untraced_di; [apply tp_timed with (ds := ds) (da := da); auto|].
    + intros X1 Y1 c m u w0. apply HA.
    + intros s e [p g] (H1 & H2 & H3 & H4). repeat split; [exact H1|exact H2|]. cbn [snd gp_to_info in_tsur in_tacq] in *. lra.
  - refine (proj2 (run_class_timed _ ER) r eq_refl). intros X Y. eapply untraced_di; [apply rf_timed with (ds := ds) (da := da); auto|].
    + intros X1 Y1 u1 u2 r2. now apply rf_trees_timed.
    + intros s e [p g] (H1 & H2 & H3 & H4). repeat split; [exact H1|exact H2|]. cbn [snd rf_to_info in_tsur in_tacq] in *. lra.
Qed.
End Program.
