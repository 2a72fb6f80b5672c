(** An increasing affine change of the responses does not change what a normalising optimiser does (exact arithmetic). *)
From Verif Require Import Base Lists Num NumLaws UtilsModel UtilsRProofs UtilsProps HypsModel Monad WrapperModel WrapperSpec WrapperProofs BOModel BOAffineSpec.
From Coq Require Import List ZArith Bool String Lia Lra Arith Reals.
Import ListNotations.
Unset Asymmetric Patterns.
Set Bullet Behavior "Strict Subproofs".
Local Open Scope string_scope.

Section Sim.
Context {W E : Type}.
(** same world, same events, results related by a function *)
Definition sim {A B} (f : A -> B) (m' : M W E B) (m : M W E A) : Prop :=
  forall w, m' w = match m w with (w', t, r) => (w', t, rmap f r) end.
Lemma sim_bind {A B C} (f : B -> C) (m : M W E A) (k' : A -> M W E C) (k : A -> M W E B) :
  (forall a, sim f (k' a) (k a)) -> sim f (bind m k') (bind m k).
Proof.
  intros H w. unfold bind. destruct (m w) as [[w1 t1] [a|e]]; [|reflexivity]. rewrite H. destruct (k a w1) as [[w2 t2] r]. reflexivity.
Qed.
Lemma sim_ret {A B} (f : A -> B) a : sim f (ret (f a)) (ret a). Proof. intros w. reflexivity. Qed.
Lemma sim_raise {A B} (f : A -> B) e : sim f (raise e) (raise e). Proof. intros w. reflexivity. Qed.
End Sim.

Section Classes.
Notation N := NumR.
Context (W K : Type).
Context (get_samples : string -> Z -> option Z -> W -> W * res (list (list N))).
Context (lbfgsb : (list N -> res N) -> list N -> list (N * N) -> W -> W * res (list N)).
Context (direct : (list N -> res N) -> list (N * N) -> W -> W * res (list N)).
Context (cma : (list N -> res N) -> list N -> list (N * N) -> W -> W * res (list N)).
Context (time_ : W -> W * N).
Context (fit : mat N -> list N -> string -> string -> string -> bool -> W -> W * res (K * K * dict N)).
Context (kernel_inverse : mat N -> dict N -> string -> res (K * K)).
Context (neg_log_ml : mat N -> list N -> list N -> string -> bool -> res N).
Context (acq : string -> string -> mat N -> list N -> K -> K -> dict N -> list (list N) -> res (list N)).
Notation gp_optimize := (gp_optimize N W K get_samples lbfgsb direct cma time_ fit kernel_inverse neg_log_ml acq).
Context (tfit : mat N -> list N -> string -> string -> bool -> W -> W * res (K * K * dict N)).
Notation tp_optimize := (tp_optimize N W K get_samples lbfgsb direct cma time_ tfit acq).
Context (T : Type) (get_trees : mat N -> list N -> W -> W * res T).
Context (tacq : string -> mat N -> list N -> T -> list (list N) -> res (list N)).
Notation rf_optimize := (rf_optimize N W get_samples time_ T get_trees tacq).
Context (a b : R).
Hypothesis HA : (0 < a)%R.
Notation aff := (affine a b).

Lemma affine_normalized Y : nonconstant Y -> normalize_min_max N (map aff Y) = normalize_min_max N Y.
Proof. intros NC. exact (normalize_affine_invariant Y a b NC HA). Qed.

Lemma gp_affine o X Y samp num mlm seed : nonconstant Y -> go_norm N o = true -> mlm <> "converged" ->
  sim (fun p => (fst p, set_gp_responses K (map aff Y) (snd p))) (gp_optimize o X (map aff Y) samp num mlm seed) (gp_optimize o X Y samp num mlm seed).
Proof.
  intros NC HN HM. unfold BOModel.gp_optimize. rewrite map_length.
  do 5 (apply sim_bind; intros _). apply sim_bind; intros t0.
  rewrite HN. rewrite (proj2 (String.eqb_neq mlm "converged") HM). cbn [negb andb]. rewrite (affine_normalized Y NC).
  apply sim_bind; intros Yn. apply sim_bind; intros ts0. apply sim_bind; intros f. apply sim_bind; intros s. apply sim_bind; intros _.
  apply sim_bind; intros ts1. apply sim_bind; intros ta0. apply sim_bind; intros [p P].
  apply sim_bind; intros p'. apply sim_bind; intros P'. apply sim_bind; intros ta1. apply sim_bind; intros v. apply sim_bind; intros t1.
  destruct f as [[[c i] h]|]; [|apply sim_raise]. intros w. reflexivity.
Qed.
Lemma tp_affine o X Y samp num seed : nonconstant Y -> to_norm N o = true ->
  sim (fun p => (fst p, set_gp_responses K (map aff Y) (snd p))) (tp_optimize o X (map aff Y) samp num seed) (tp_optimize o X Y samp num seed).
Proof.
  intros NC HN. unfold BOModel.tp_optimize. rewrite map_length.
  do 4 (apply sim_bind; intros _). apply sim_bind; intros t0. rewrite HN. rewrite (affine_normalized Y NC).
  apply sim_bind; intros Yn. apply sim_bind; intros ts0. apply sim_bind; intros _. apply sim_bind; intros [[c i] h]. apply sim_bind; intros s. apply sim_bind; intros _.
  apply sim_bind; intros ts1. apply sim_bind; intros ta0. apply sim_bind; intros [p P].
  apply sim_bind; intros p'. apply sim_bind; intros P'. apply sim_bind; intros ta1. apply sim_bind; intros v. apply sim_bind; intros t1.
  intros w. reflexivity.
Qed.
Lemma rf_affine o X Y samp num seed : nonconstant Y -> ro_norm N o = true ->
  sim (fun p => (fst p, set_rf_responses (map aff Y) (snd p))) (rf_optimize o X (map aff Y) samp num seed) (rf_optimize o X Y samp num seed).
Proof.
  intros NC HN. unfold BOModel.rf_optimize. rewrite map_length.
  do 4 (apply sim_bind; intros _). apply sim_bind; intros t0. rewrite HN. rewrite (affine_normalized Y NC).
  apply sim_bind; intros Yn. apply sim_bind; intros ts0. apply sim_bind; intros _. apply sim_bind; intros trees.
  apply sim_bind; intros ts1. apply sim_bind; intros ta0. apply sim_bind; intros pts. apply sim_bind; intros P. apply sim_bind; intros P'. apply sim_bind; intros v.
  apply sim_bind; intros i. apply sim_bind; intros p. apply sim_bind; intros ta1. apply sim_bind; intros t1.
  intros w. reflexivity.
Qed.
End Classes.

(** ** whole runs *)
Section Run.
Notation N := NumR.
Context (W : Type).
Context (fun_target : list N -> W -> W * res N) (time_ : W -> W * N).
Context (si : mat N -> list N -> W -> W * res (list N * info N)).
Context (a b : R).
Notation aff := (affine a b).
Notation fun_target' := (affine_target a b fun_target).
Hypothesis HS : forall X Y w, nonconstant Y -> si X (map aff Y) w = si X Y w.

(** same world, events and results related by functions *)
Definition msim {A B} (f : A -> B) (m' : M W (event N) B) (m : M W (event N) A) : Prop :=
  forall w, m' w = match m w with (w', t, r) => (w', map (affine_event a b) t, rmap f r) end.
Lemma msim_bind {A A' B B'} (g : A -> A') (f : B -> B') m' m (k' : A' -> M W (event N) B') (k : A -> M W (event N) B) :
  msim g m' m -> (forall x, msim f (k' (g x)) (k x)) -> msim f (bind m' k') (bind m k).
Proof.
  intros H1 H2 w. unfold bind. rewrite H1. destruct (m w) as [[w1 t1] [x|e]]; cbn [rmap rbind]; [|reflexivity].
  rewrite H2. destruct (k x w1) as [[w2 t2] r]. now rewrite map_app.
Qed.
Lemma msim_lift {A} (r : res A) : msim (fun x => x) (lift r) (lift r). Proof. intros w. destruct r; reflexivity. Qed.
Lemma msim_clock : msim (fun x => x) (clock N W time_) (clock N W time_).
Proof. intros w. unfold clock, ext. destruct (time_ w). reflexivity. Qed.
Lemma msim_target x : msim aff (call_target N W fun_target' x) (call_target N W fun_target x).
Proof. intros w. unfold call_target, ext_ev, affine_target. destruct (fun_target x w) as [w' r]. reflexivity. Qed.
Lemma msim_model X Y : nonconstant Y -> msim (fun p => p) (ext_ev (@EvModel N X (map aff Y)) (si X (map aff Y))) (ext_ev (@EvModel N X Y) (si X Y)).
Proof. intros NC w. unfold ext_ev. rewrite HS by exact NC. destruct (si X Y w) as [w' [p|e]]; reflexivity. Qed.

Lemma nonconstant_app (Y Z : list R) : nonconstant Y -> nonconstant (Y ++ Z)%list.
Proof. intros (x & y & H1 & H2 & L). exists x, y. rewrite !in_app_iff. auto. Qed.

Lemma class_step_affine X Y : nonconstant Y ->
  msim (fun q => let '(X', Y', t, s, c) := q in (X', map aff Y', t, s, c)) (class_step N W fun_target' time_ si X (map aff Y)) (class_step N W fun_target time_ si X Y).
Proof.
  intros NC. unfold class_step. apply (msim_bind (fun x => x)); [apply msim_clock|intros t0].
  apply (msim_bind (fun x => x)); [now apply msim_model|intros [p di]].
  apply (msim_bind (fun x => x)); [apply msim_lift|intros nb]. apply (msim_bind (fun x => x)); [apply msim_lift|intros [X' p']].
  apply (msim_bind (fun x => x)); [apply msim_clock|intros te0].
  apply (msim_bind aff); [apply msim_target|intros y].
  apply (msim_bind (fun x => x)); [apply msim_clock|intros te1]. apply (msim_bind (fun x => x)); [apply msim_clock|intros t1].
  intros w. cbn. now rewrite map_app.
Qed.
Lemma class_step_keeps X Y w w' t q : class_step N W fun_target time_ si X Y w = (w', t, Ok q) -> exists y, snd (fst (fst (fst q))) = (Y ++ [y])%list.
Proof.
  unfold class_step. intros H. apply bind_ok in H. destruct H as (? & ? & ? & ? & _ & H & _). apply bind_ok in H. destruct H as (? & ? & [p di] & ? & _ & H & _).
  apply bind_ok in H. destruct H as (? & ? & ? & ? & _ & H & _). apply bind_ok in H. destruct H as (? & ? & [X' p'] & ? & _ & H & _).
  apply bind_ok in H. destruct H as (? & ? & ? & ? & _ & H & _). apply bind_ok in H. destruct H as (? & ? & y & ? & _ & H & _).
  apply bind_ok in H. destruct H as (? & ? & ? & ? & _ & H & _). apply bind_ok in H. destruct H as (? & ? & ? & ? & _ & H & _).
  apply ret_ok in H. destruct H as (H & _). subst q. exists y. reflexivity.
Qed.
Lemma class_loop_affine n : forall X Y ta ts tq, nonconstant Y ->
  msim (affine_run a b) (class_loop N W fun_target' time_ si n X (map aff Y) ta ts tq) (class_loop N W fun_target time_ si n X Y ta ts tq).
Proof.
  induction n as [|n IH]; intros X Y ta ts tq NC; cbn [class_loop]; [intros w; reflexivity|].
  intros w. unfold bind. rewrite (class_step_affine X Y NC w).
  destruct (class_step N W fun_target time_ si X Y w) as [[w1 t1] [q|e]] eqn:E; cbn [rmap rbind]; [|reflexivity].
  apply class_step_keeps in E. destruct E as [y E]. destruct q as [[[[X' Y'] x1] x2] x3]. cbn in E. subst Y'.
  rewrite IH by (now apply nonconstant_app).
  match goal with |- context [class_loop N W fun_target ?c ?d ?e ?f ?g ?h ?i ?j w1] => destruct (class_loop N W fun_target c d e f g h i j w1) as [[w2 t2] r] end.
  now rewrite map_app.
Qed.
Theorem class_all_initial_affine num_iter X Y : nonconstant Y ->
  msim (affine_run a b) (class_all_initial N W fun_target' time_ si num_iter X (map aff Y)) (class_all_initial N W fun_target time_ si num_iter X Y).
Proof.
  intros NC. unfold class_all_initial. rewrite map_length. apply (msim_bind (fun x => x)); [apply msim_lift|intros _].
  apply (msim_bind (fun x => x)); [apply msim_clock|intros t0]. apply (msim_bind (affine_run a b)); [now apply class_loop_affine|intros r].
  apply (msim_bind (fun x => x)); [apply msim_clock|intros t1]. intros w. reflexivity.
Qed.
Definition aff2 (q : N * N) : N * N := (aff (fst q), snd q).
Lemma initial_affine x : msim aff2 (class_initial N W fun_target' time_ x) (class_initial N W fun_target time_ x).
Proof.
  unfold class_initial. apply (msim_bind (fun x => x)); [apply msim_clock|intros t0]. apply (msim_bind aff); [apply msim_target|intros y].
  apply (msim_bind (fun x => x)); [apply msim_clock|intros t1]. intros w. reflexivity.
Qed.
Lemma initials_affine l : msim (map aff2) (mmapM (class_initial N W fun_target' time_) l) (mmapM (class_initial N W fun_target time_) l).
Proof.
  induction l as [|x l IH]; cbn [mmapM]; [intros w; reflexivity|].
  apply (msim_bind aff2); [apply initial_affine|intros y]. apply (msim_bind (map aff2)); [exact IH|intros ys].
  intros w. reflexivity.
Qed.
Theorem class_initial_inputs_affine num_iter X w :
  (forall w1 t1 l, mmapM (class_initial N W fun_target time_) (mrows X) w = (w1, t1, Ok l) -> nonconstant (map fst l)) ->
  class_initial_inputs N W fun_target' time_ si num_iter X w =
  match class_initial_inputs N W fun_target time_ si num_iter X w with (w', t, r) => (w', map (affine_event a b) t, rmap (affine_run a b) r) end.
Proof.
  intros NC. unfold class_initial_inputs. unfold bind. rewrite initials_affine.
  destruct (mmapM (class_initial N W fun_target time_) (mrows X) w) as [[w1 t1] [l|e]] eqn:E; cbn [rmap rbind]; [|reflexivity].
  specialize (NC _ _ _ eq_refl). 
  assert (E1 : map fst (map aff2 l) = map aff (map fst l)) by (now rewrite !map_map).
  assert (E2 : map snd (map aff2 l) = map snd l) by (now rewrite map_map).
  rewrite E2. clear E2. rewrite E1. clear E1. rewrite (class_all_initial_affine num_iter X (map fst l) NC w1).
  destruct (class_all_initial N W fun_target time_ si num_iter X (map fst l) w1) as [[w2 t2] [r|e]]; unfold ret; cbn [rmap rbind]; rewrite ?map_app; reflexivity.
Qed.

(** the same in terms of what the unchanged run returns *)
Lemma class_initial_inputs_returned num_iter X w w' t r :
  class_initial_inputs N W fun_target time_ si num_iter X w = (w', t, Ok r) -> nonconstant (first_responses num_iter r) ->
  class_initial_inputs N W fun_target' time_ si num_iter X w = (w', map (affine_event a b) t, Ok (affine_run a b r)).
Proof.
  intros H NC. rewrite class_initial_inputs_affine; [now rewrite H|].
  intros w1 t1 l E. unfold class_initial_inputs in H. apply bind_ok in H. destruct H as (w2 & t2 & l2 & t3 & E2 & H & _).
  rewrite E in E2. injection E2 as <- <- <-. apply bind_ok in H. destruct H as (w4 & t4 & r4 & t5 & E3 & H & _).
  apply ret_ok in H. destruct H as (H & _). subst r. cbn [ro_Y first_responses] in NC. unfold first_responses in NC. cbn [ro_Y] in NC.
  apply all_initial_grows in E3. destruct E3 as (news & L & _ & EY & _). rewrite EY in NC.
  enough (Q : firstn (List.length (map fst l ++ map snd news) - Z.to_nat num_iter) (map fst l ++ map snd news) = map fst l) by (now rewrite <- Q).
  rewrite app_length, (map_length snd news), L, Nat.add_sub, firstn_app, firstn_all, Nat.sub_diag. apply app_nil_r.
Qed.
Context (get_initials : string -> Z -> option Z -> W -> W * res (mat N)).
Lemma class_optimize_affine meth num_iter num_init seed w w' t r :
  class_optimize N W fun_target time_ si get_initials meth num_iter num_init seed w = (w', t, Ok r) -> nonconstant (first_responses num_iter r) ->
  class_optimize N W fun_target' time_ si get_initials meth num_iter num_init seed w = (w', map (affine_event a b) t, Ok (affine_run a b r)).
Proof.
  unfold class_optimize. intros H NC. apply bind_ok in H. destruct H as (w1 & t1 & x1 & t1' & E1 & H & ->).
  apply bind_ok in H. destruct H as (w2 & t2 & x2 & t2' & E2 & H & ->).
  apply bind_ok in H. destruct H as (w3 & t3 & X & t3' & E3 & H & ->).
  apply bind_ok in H. destruct H as (w4 & t4 & r4 & t4' & E4 & H & ->).
  apply bind_ok in H. destruct H as (w5 & t5 & x5 & t5' & E5 & H & ->). apply ret_ok in H. destruct H as (H & H1 & H2). subst.
  unfold bind at 1. rewrite E1. unfold bind at 1. rewrite E2. unfold bind at 1. rewrite E3. unfold bind at 1.
  rewrite (class_initial_inputs_returned _ _ _ _ _ _ E4 NC). unfold bind at 1. rewrite E5. unfold ret.
  assert (t1 = []) as -> by (unfold lift in E1; now injection E1).
  assert (t2 = []) as -> by (unfold clock, ext in E2; destruct (time_ w1); now injection E2).
  assert (t3 = []) as -> by (unfold ext in E3; destruct (get_initials meth num_init seed w2); now injection E3).
  assert (t5 = []) as -> by (unfold clock, ext in E5; destruct (time_ w4); now injection E5).
  cbn [app]. rewrite !app_nil_r. reflexivity.
Qed.
End Run.
