(** Property C113: targets that overwrite their argument or reuse their result. *)
From Verif Require Import Base Lists Num Monad UtilsModel WrapperModel WrapperSpec WrapperProofs BOModel ThompsonModel MutModel MutSpec MutProofs View.
From Coq Require Import List ZArith Bool String Lia.
From Flocq Require Import IEEE754.BinarySingleNaN.
Import ListNotations.
Local Open Scope string_scope.

(** ** C113 *)
(** iterations: whatever the target does to its argument and to its result later, the run is that of [WrapperModel] with the values at the time of the call *)
Theorem C113_iterations : forall (N : Num) (W : Type) cell target time_ single_iteration num_iter X Y (w : W),
  all_initial_m N W cell target time_ single_iteration num_iter X Y w
  = class_all_initial N W (snapshot N W cell target) time_ single_iteration num_iter X Y w.
Proof. exact all_initial_pure. Qed.
Print Assumptions C113_iterations.
(** initial inputs: the same for targets that leave their argument alone and whose results stay *)
Theorem C113_initial_inputs_partial : forall (N : Num) (W : Type) cell target time_ single_iteration num_iter X (w : W),
  leaves_argument N W target -> results_stay N W cell target time_ ->
  initial_inputs_m N W cell target time_ single_iteration num_iter X w
  = class_initial_inputs N W (snapshot N W cell target) time_ single_iteration num_iter X w.
Proof. intros * LA (later & LR & LT & L1 & L2 & ST). eapply inputs_pure; eassumption. Qed.
Print Assumptions C113_initial_inputs_partial.
Theorem C113_thompson_partial : forall (N : Num) (W G : Type) cell target (mvn : list N -> list (list N) -> W -> W * res G) rvs lav nexp nlog npi inv chol cho_solve slogdet
    minimize da ca get_samples get_initials range_X num_init num_iter normalize_Y method num_samples (w : W),
  leaves_argument N W target -> results_stay N W cell target (fun w => (w, nofZ N 0)) ->
  thompson_m N W cell target
    (fun X Y => ts_iteration mvn rvs lav nexp nlog npi inv chol cho_solve slogdet minimize da ca get_samples range_X X Y normalize_Y method num_samples)
    (mlet _ <- lift (default_bo N da ca range_X);
     mlet rows <- points TsInit (get_initials range_X method num_init None);
     lift (np_array_rows rows)) num_iter w
  = thompson_sampling_gp mvn rvs lav nexp nlog npi inv chol cho_solve slogdet minimize da ca get_samples get_initials (snapshot N W cell target)
      range_X num_init num_iter normalize_Y method num_samples w.
Proof. intros * LA (later & LR & LT & L1 & L2 & ST). eapply thompson_pure; eassumption. Qed.
Print Assumptions C113_thompson_partial.
(** in general the initial rows are as the target left them, and the initial responses as they are after the last initial evaluation *)
Theorem C113_general : forall (N : Num) (W : Type) cell target time_ single_iteration num_iter X (w w' : W) t o,
  initial_inputs_m N W cell target time_ single_iteration num_iter X w = (w', t, Ok o) ->
  exists cs wl news, map (c_arg N W) cs = mrows X /\ Forall (returned N W target) cs /\ List.length news = Z.to_nat num_iter /\
    calls_of N t = evaluated N (map (pair_of N W cell) cs ++ news) /\
    mrows (ro_X o) = (map (c_left N W) cs ++ map fst news)%list /\
    ro_Y o = (map (fun c => deref N W cell wl (c_val N W c)) cs ++ map snd news)%list /\
    (cs = [] \/ exists pre c, cs = (pre ++ [c])%list /\ wl = fst (time_ (c_to N W c))).
Proof. exact inputs_general. Qed.
Print Assumptions C113_general.
(** a target that overwrites its argument: the run reports other inputs than were evaluated *)
Theorem C113_overwritten : forall (N : Num) (W : Type) (f : list N -> N) (g : list N -> list N) cell time_ single_iteration num_iter X (w w' : W) t o,
  initial_inputs_m N W cell (fun x w => (w, g x, Ok (VNum (f x)))) time_ single_iteration num_iter X w = (w', t, Ok o) ->
  firstn (nrows X) (mrows (ro_X o)) = map g (mrows X) /\
  firstn (nrows X) (calls_of N t) = evaluated N (map (fun x => (x, f x)) (mrows X)).
Proof. exact overwritten. Qed.
Print Assumptions C113_overwritten.
(** a target that returns the same array every time: every initial response is the last one *)
Theorem C113_reused : forall (N : Num) (W : Type) (f : list N -> N) time_ single_iteration num_iter X x (w w' : N * W) t o,
  (forall w, fst (fst (time_ w)) = fst w) ->
  initial_inputs_m N (N * W) (fun w _ => fst w) (fun x w => (f x, snd w, x, Ok (VRef 0))) time_ single_iteration num_iter X w = (w', t, Ok o) ->
  (exists pre, mrows X = pre ++ [x])%list ->
  firstn (nrows X) (ro_Y o) = repeat (f x) (nrows X) /\
  firstn (nrows X) (calls_of N t) = evaluated N (map (fun x => (x, f x)) (mrows X)).
Proof. exact reused. Qed.
Print Assumptions C113_reused.

Local Notation F := (car NumF).
(** the world counts clock readings, next to an array of one element *)
Definition ex_time (w : F * Z) : F * Z * F := ((fst w, snd w + 1)%Z, fofZ (snd w)).
Definition ex_iter (X : mat NumF) (Y : list NumF) (w : F * Z) : F * Z * res (list NumF * info NumF) :=
  let p : list NumF := [fofZ (Z.of_nat (nrows X))] in
  (w, Ok (p, mkinfo (N:=NumF) (mkmat [p; [fofZ 9]] 1) [fofZ 0; fofZ 1] (fofZ 0) (fofZ 0))).
Definition ex_X : mat NumF := mkmat [[fofZ 0]; [fofZ 1]] 1.
(** 1 + x in place, returning the old value; and a buffer holding the last argument *)
Definition incr (x : list NumF) (w : F * Z) : F * Z * list NumF * res (val NumF) := (w, map (nadd NumF (fofZ 1)) x, Ok (@VNum NumF (hd (fofZ 0) x))).
Definition buffer (x : list NumF) (w : F * Z) : F * Z * list NumF * res (val NumF) := ((hd (fofZ 0) x, snd w), x, Ok (@VRef NumF 0)).
Definition ex_cell (w : F * Z) (a : nat) : F := fst w.
Definition ex_see (q : (F * Z) * list (event NumF) * res (run_out NumF)) :=
  let '(_, t, r) := q in
  (rmap (fun o => (map (map fview) (mrows (ro_X o)), map fview (ro_Y o))) r, map (fun c => (map fview (fst c), rmap fview (snd c))) (calls_of NumF t)).
Definition fz (z : Z) := fview (fofZ z).
(** the proposal 2 now counts as a repetition, so that the next best candidate 9 is evaluated *)
Example C113_overwritten_case : ex_see (initial_inputs_m NumF (F * Z) ex_cell incr ex_time ex_iter 2 ex_X (fofZ 0, 0%Z)) =
  (Ok ([[fz 1]; [fz 2]; [fz 9]; [fz 3]], [fz 0; fz 1; fz 9; fz 3]),
   [([fz 0], Ok (fz 0)); ([fz 1], Ok (fz 1)); ([fz 9], Ok (fz 9)); ([fz 3], Ok (fz 3))]).
Proof. vm_compute. reflexivity. Qed.
Example C113_reused_case : ex_see (initial_inputs_m NumF (F * Z) ex_cell buffer ex_time ex_iter 2 ex_X (fofZ 0, 0%Z)) =
  (Ok ([[fz 0]; [fz 1]; [fz 2]; [fz 3]], [fz 1; fz 1; fz 2; fz 3]),
   [([fz 0], Ok (fz 0)); ([fz 1], Ok (fz 1)); ([fz 2], Ok (fz 2)); ([fz 3], Ok (fz 3))]).
Proof. vm_compute. reflexivity. Qed.

(** false in general: the reported inputs and responses are not those of the calls; the second target leaves its argument alone *)
Theorem C113_refuted : exists (N : Num) (W : Type) (cell : W -> nat -> N) target target' time_ single_iteration num_iter X (w : W) w1 t1 o1 w2 t2 o2,
  leaves_argument N W target' /\
  initial_inputs_m N W cell target time_ single_iteration num_iter X w = (w1, t1, Ok o1) /\
  initial_inputs_m N W cell target' time_ single_iteration num_iter X w = (w2, t2, Ok o2) /\
  map fst (calls_of N t1) <> mrows (ro_X o1) /\ map snd (calls_of N t2) <> map Ok (ro_Y o2).
Proof.
  exists NumF, (F * Z)%type, ex_cell, incr, buffer, ex_time, ex_iter, 2%Z, ex_X, (fofZ 0, 0%Z).
  pose proof C113_overwritten_case as E1. pose proof C113_reused_case as E2. unfold ex_see in E1, E2.
  destruct (initial_inputs_m NumF _ ex_cell incr _ _ _ _ _) as [[w1 t1] [o1|]]; [|discriminate].
  destruct (initial_inputs_m NumF _ ex_cell buffer _ _ _ _ _) as [[w2 t2] [o2|]]; [|discriminate].
  exists w1, t1, o1, w2, t2, o2. split; [intros x w w' x' v E; unfold buffer in E; now injection E|]. split; [reflexivity|]. split; [reflexivity|].
  pose proof (f_equal fst E1) as A1. pose proof (f_equal snd E1) as A3. pose proof (f_equal fst E2) as B1. pose proof (f_equal snd E2) as B3.
  cbn [fst snd rmap] in A1, A3, B1, B3. apply Ok_inj in A1, B1. apply (f_equal fst) in A1. apply (f_equal snd) in B1. cbn [fst snd] in A1, B1. split; intros Q.
  - rewrite <- Q, map_map in A1. apply (f_equal (map fst)) in A3. rewrite map_map in A3. cbn [fst] in A3. rewrite A3 in A1. discriminate.
  - apply (f_equal (map snd)) in B3. rewrite map_map in B3. cbn [snd] in B3. rewrite <- (map_map snd (rmap fview)), Q, map_map in B3. cbn [rmap] in B3.
    rewrite <- (map_map fview Ok), B1 in B3. discriminate.
Qed.
Print Assumptions C113_refuted.

(** hypotheses of the positive statements: a target that allocates a fresh array for every result *)
Definition fresh (x : list NumF) (w : list F) : list F * list NumF * res (val NumF) := ((w ++ [hd (fofZ 0) x])%list, x, Ok (@VRef NumF (List.length w))).
Definition at_ (w : list F) (a : nat) : F := nth a w (fofZ 0).
Example C113_fresh_case : leaves_argument NumF (list F) fresh /\ results_stay NumF (list F) at_ fresh (fun w => (w, fofZ 0)).
Proof.
  split; [intros x w w' x' v E; unfold fresh in E; now injection E|].
  exists (fun w w' => exists r, w' = (w ++ r)%list). split; [intros w; exists []; now rewrite app_nil_r|].
  split; [intros a b c (r & ->) (r' & ->); exists (r ++ r')%list; now rewrite app_assoc|].
  split; [intros x w; cbn; eauto|]. split; [intros w; exists []; now rewrite app_nil_r|].
  intros x w w' x' v w'' E (r & ->). unfold fresh in E. injection E as <- _ <-. cbn. unfold at_. rewrite app_nth1; [reflexivity|].
  rewrite app_length. cbn. lia.
Qed.
