(** Property theorems about the BO wrappers (C57-C60, C62). *)
From Verif Require Import Base Lists Num NumLaws UtilsModel UtilsSpec UtilsProofs HypsModel HypsProofs Monad WrapperModel WrapperSpec WrapperProofs View.
From Coq Require Import List ZArith Bool String Lia.
From Flocq Require Import IEEE754.BinarySingleNaN.
Local Open Scope string_scope.

(** a concrete program for the examples: the target is the coordinate itself and fails from 8 on; the surrogate proposes
    the number of rows, or 0 when given five rows; the world counts clock readings *)
Definition ex_target (x : list NumF) (w : Z) : Z * res NumF :=
  match x with [v] => if nle NumF (fofZ 8) v then (w, Raise ValueError) else (w, Ok v) | _ => (w, Raise TypeError) end.
Definition ex_time (w : Z) : Z * NumF := ((w + 1)%Z, fofZ w).
Definition ex_iter (X : mat NumF) (Y : list NumF) (w : Z) : Z * res (list NumF * info NumF) :=
  let p : list NumF := if Nat.eqb (nrows X) 5 then [fofZ 0] else [fofZ (Z.of_nat (nrows X))] in
  (w, Ok (p, mkinfo (N:=NumF) (mkmat [p; [fofZ 9]] 1) [fofZ 0; fofZ 1] (fofZ 0) (fofZ 0))).
Definition ex_init (m : string) (n : Z) (seed : option Z) (w : Z) : Z * res (mat NumF) := (w, Ok (mkmat [[fofZ 0]; [fofZ 1]] 1)).
Definition ex_calls (t : list (event NumF)) := map (fun c => (map fview (fst c), rmap fview (snd c))) (calls_of NumF t).
Definition fz (z : Z) := fview (fofZ z).

(** C57 *)
Theorem run_only_grows_history :
  forall (N : Num) (W : Type) fun_target time_ single_iteration num_iter X Y (w w' : W) t (o : run_out N),
  class_all_initial N W fun_target time_ single_iteration num_iter X Y w = (w', t, Ok o) ->
  exists news, List.length news = Z.to_nat num_iter /\
    mrows (ro_X o) = (mrows X ++ map fst news)%list /\ ro_Y o = (Y ++ map snd news)%list /\ mcols (ro_X o) = mcols X /\
    Forall (fun p => List.length (fst p) = mcols X) news /\
    calls_of N t = evaluated N news /\
    List.length (ro_tall o) = Z.to_nat num_iter /\ List.length (ro_tsur o) = Z.to_nat num_iter /\
    List.length (ro_tacq o) = Z.to_nat num_iter.
Proof. exact all_initial_grows. Qed.
Print Assumptions run_only_grows_history.

Example run_case :
  let '(_, t, r) := class_all_initial NumF Z ex_target ex_time ex_iter 3 (mkmat [[fofZ 0]; [fofZ 1]] 1) [fofZ 0; fofZ 1] 0%Z in
  rmap (fun o => (map (map fview) (mrows (ro_X o)), map fview (ro_Y o), List.length (ro_tall o))) r =
  Ok ([[fz 0]; [fz 1]; [fz 2]; [fz 3]; [fz 4]], [fz 0; fz 1; fz 2; fz 3; fz 4], 3%nat) /\
  ex_calls t = [([fz 2], Ok (fz 2)); ([fz 3], Ok (fz 3)); ([fz 4], Ok (fz 4))].
Proof. vm_compute. auto. Qed.

(** C58 *)
Theorem responses_are_target_values_initial_inputs :
  forall (N : Num) (W : Type) fun_target time_ single_iteration num_iter X (w w' : W) t (o : run_out N),
  class_initial_inputs N W fun_target time_ single_iteration num_iter X w = (w', t, Ok o) ->
  exists ps, mrows (ro_X o) = map fst ps /\ ro_Y o = map snd ps /\ calls_of N t = evaluated N ps /\
    List.length ps = (nrows X + Z.to_nat num_iter)%nat /\ firstn (nrows X) (mrows (ro_X o)) = mrows X /\
    List.length (ro_tall o) = (nrows X + Z.to_nat num_iter)%nat /\
    List.length (ro_tsur o) = Z.to_nat num_iter /\ List.length (ro_tacq o) = Z.to_nat num_iter.
Proof. exact initial_inputs_calls. Qed.
Print Assumptions responses_are_target_values_initial_inputs.

Theorem responses_are_target_values_optimize :
  forall (N : Num) (W : Type) fun_target time_ single_iteration get_initials meth num_iter num_init seed (w w' : W) t (o : run_out N),
  class_optimize N W fun_target time_ single_iteration get_initials meth num_iter num_init seed w = (w', t, Ok o) ->
  exists w1 w2 X ps, get_initials meth num_init seed w1 = (w2, Ok X) /\
    mrows (ro_X o) = map fst ps /\ ro_Y o = map snd ps /\ calls_of N t = evaluated N ps /\
    List.length ps = (nrows X + Z.to_nat num_iter)%nat /\ firstn (nrows X) (mrows (ro_X o)) = mrows X.
Proof.
  intros until o. intros H. apply class_optimize_inv in H. destruct H as [((e & H) & _)|(w1 & w2 & X & w3 & _ & G & H)]; [discriminate|].
  apply initial_inputs_calls in H. destruct H as (ps & H1 & H2 & H3 & H4 & H5 & _). exists w1, w2, X, ps. auto 10.
Qed.
Print Assumptions responses_are_target_values_optimize.

Theorem responses_are_target_values_run_single_round :
  forall (N : Num) (W : Type) fun_target time_ model_optimize get_initials meth samp nsamp mlm num_init num_iter seed (w w' : W) t (o : run_out N),
  In meth ["sobol"; "halton"; "uniform"; "gaussian"] -> In mlm ["regular"; "combined"; "converged"] -> (0 < num_init)%Z ->
  run_single_round N W fun_target time_ model_optimize get_initials meth samp nsamp mlm num_init num_iter seed w = (w', t, Ok o) ->
  exists w1 w2 X ps, get_initials meth num_init seed w1 = (w2, Ok X) /\
    mrows (ro_X o) = map fst ps /\ ro_Y o = map snd ps /\ calls_of N t = evaluated N ps /\
    List.length ps = (nrows X + Z.to_nat num_iter)%nat /\ firstn (nrows X) (mrows (ro_X o)) = mrows X.
Proof.
  intros until o. intros Hm Hl Hn H. rewrite wrappers_agree in H; [|rewrite str_in_In; cbn in *; tauto ..|exact Hn].
  exact (responses_are_target_values_optimize _ _ _ _ _ _ _ _ _ _ _ _ _ _ H).
Qed.
Print Assumptions responses_are_target_values_run_single_round.

Example optimize_case :
  let '(_, t, r) := class_optimize NumF Z ex_target ex_time ex_iter ex_init "sobol" 2 2 None 0%Z in
  rmap (fun o => (map (map fview) (mrows (ro_X o)), map fview (ro_Y o))) r =
  Ok ([[fz 0]; [fz 1]; [fz 2]; [fz 3]], [fz 0; fz 1; fz 2; fz 3]) /\
  ex_calls t = [([fz 0], Ok (fz 0)); ([fz 1], Ok (fz 1)); ([fz 2], Ok (fz 2)); ([fz 3], Ok (fz 3))].
Proof. vm_compute. auto. Qed.

(** C59 *)
Theorem failures_propagate :
  forall (N : Num) (W : Type) fun_target time_ single_iteration get_initials meth num_iter num_init seed (w w' : W) t (r : res (run_out N)),
  class_optimize N W fun_target time_ single_iteration get_initials meth num_iter num_init seed w = (w', t, r) ->
  (** a run ends well only if every call ended well *)
  propagates N t r /\
  (** a failing call of the target or the surrogate is the last event, and its exception is the outcome *)
  (forall ev e, In ev t -> ev_fails N ev e -> r = Raise e /\ exists t0, t = (t0 ++ [ev])%list /\ Forall (ev_ok N) t0) /\
  (** at every call of the surrogate the data are exactly the evaluations made so far *)
  (forall t1 Xm Ym rm t2, t = (t1 ++ EvModel Xm Ym rm :: t2)%list ->
     exists ps, calls_of N t1 = evaluated N ps /\ mrows Xm = map fst ps /\ Ym = map snd ps).
Proof.
  intros until r. intros H. pose proof (optimize_propagates _ _ _ _ _ _ _ _ _ _ _ _ _ _ H) as P.
  split; [exact P|]. split; [intros ev e I F; exact (propagates_event N t r ev e P I F)|].
  apply class_optimize_inv in H. destruct H as [(_ & ->)|(w1 & w2 & X & w3 & _ & _ & H)].
  - intros [|] ? ? ? ? E; discriminate.
  - exact (initial_inputs_data _ _ _ _ _ _ _ _ _ _ _ H).
Qed.
Print Assumptions failures_propagate.

(** the target fails at 8; five rows make the surrogate propose a repeat, so candidate 9 is tried and fails *)
Example failure_case :
  let '(_, t, r) := class_optimize NumF Z ex_target ex_time ex_iter ex_init "sobol" 7 2 None 0%Z in
  rmap (fun o => map fview (ro_Y o)) r = Raise ValueError /\
  ex_calls t = [([fz 0], Ok (fz 0)); ([fz 1], Ok (fz 1)); ([fz 2], Ok (fz 2)); ([fz 3], Ok (fz 3)); ([fz 4], Ok (fz 4));
                ([fz 9], Raise ValueError)].
Proof. vm_compute. auto. Qed.

(** C60 *)
Theorem queries_fresh_or_forced_repeat :
  forall (N : Num) (W : Type) (O : NumOrd N) fun_target time_ single_iteration num_iter X Y (w w' : W) t (r : res (run_out N)),
  class_all_initial N W fun_target time_ single_iteration num_iter X Y w = (w', t, r) ->
  forall t1 x rt t2, t = (t1 ++ EvTarget x rt :: t2)%list ->
  exists news next di t1', t1 = (t1' ++ [EvModel (mkmat (mrows X ++ map fst news) (mcols X)) (Y ++ map snd news) (Ok (next, di))])%list /\
    calls_of N t1 = evaluated N news /\
    good_query N (mrows X ++ map fst news) next (mrows (in_points di)) x.
Proof. intros N W O ft tm si n X Y w w' t r H. exact (all_initial_queries N W ft tm si O n X Y w w' t r H). Qed.
Print Assumptions queries_fresh_or_forced_repeat.

(** a surrogate that always proposes and offers 0 makes the run repeat its last row *)
Example repeat_case :
  let si := fun (X : mat NumF) (Y : list NumF) (w : Z) => (w, Ok ([fofZ 0 : NumF], mkinfo (N:=NumF) (mkmat [[fofZ 0]] 1) [fofZ 0] (fofZ 0) (fofZ 0))) in
  let '(_, t, r) := class_all_initial NumF Z ex_target ex_time si 2 (mkmat [[fofZ 0]; [fofZ 1]] 1) [fofZ 0; fofZ 1] 0%Z in
  ex_calls t = [([fz 1], Ok (fz 1)); ([fz 1], Ok (fz 1))].
Proof. vm_compute. auto. Qed.

(** C62 *)
Theorem class_and_function_wrappers_agree :
  forall (N : Num) (W : Type) fun_target time_ model_optimize get_initials meth samp nsamp mlm num_init num_iter seed (w : W),
  In meth ["sobol"; "halton"; "uniform"; "gaussian"] -> In mlm ["regular"; "combined"; "converged"] -> (0 < num_init)%Z ->
  run_single_round N W fun_target time_ model_optimize get_initials meth samp nsamp mlm num_init num_iter seed w =
  class_optimize N W fun_target time_ (model_optimize samp nsamp mlm) get_initials meth num_iter num_init seed w.
Proof.
  intros until w. intros Hm Hl Hn. apply wrappers_agree; [rewrite str_in_In; cbn in *; tauto ..|exact Hn].
Qed.
Print Assumptions class_and_function_wrappers_agree.

Example agree_case :
  let '(_, t, r) := run_single_round NumF Z ex_target ex_time (fun _ _ _ => ex_iter) ex_init "sobol" "sobol" 128 "regular" 2 2 None 0%Z in
  rmap (fun o => map fview (ro_Y o)) r = Ok [fz 0; fz 1; fz 2; fz 3] /\ List.length t = 6%nat.
Proof. vm_compute. auto. Qed.
