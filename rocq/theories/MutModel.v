(** The runs of Bayesian optimisation with a target that may overwrite its argument and may return an array.

    [WrapperModel] and [ThompsonModel] treat the argument and the result of the target as values.  In Python the argument of a
    call in `for elem in X` is a view of a row of X, and a result that is an array of one element is kept as a reference until
    np.array / np.reshape / np.vstack copies it.  Here both are explicit.  The target reaches no other array of the run
    (it could through `.base` of the view). *)
From Verif Require Import Base Num Monad UtilsModel HypsModel CovModel GPModel HypOptModel WrapperModel BOModel ThompsonModel.
From Coq Require Import List ZArith Bool String.
Local Open Scope string_scope.

(** a returned number, or a reference to an array of one element *)
Inductive val (N : Num) : Type := VNum (y : N) | VRef (a : nat).
Arguments VNum {N}. Arguments VRef {N}.

Section Model.
Context (N : Num) (W : Type).
(** the element of the array with a given address *)
Context (cell : W -> nat -> N).
Definition deref (w : W) (v : val N) : N := match v with VNum y => y | VRef a => cell w a end.
(** the target: also gives the content of its argument afterwards *)
Context (target : list N -> W -> W * list N * res (val N)).
Context (time_ : W -> W * N).

(** a call of the target; the recorded outcome is the value at the time of the return *)
Definition call_m {E} (ev : list N -> res N -> E) (x : list N) : M W E (list N * val N) := fun w =>
  let '(w', x', r) := target x w in (w', [ev x (do v <- r; Ok (deref w' v))], do v <- r; Ok (x', v)).
(** np.array, np.reshape, np.vstack: copies the content *)
Definition copy {E} (vs : list (val N)) : M W E (list N) := fun w => (w, [], Ok (map (deref w) vs)).

(** what a caller of the target who copies at once sees *)
Definition snapshot (x : list N) (w : W) : W * res N :=
  let '(w', _, r) := target x w in (w', do v <- r; Ok (deref w' v)).

Section Runs.
Notation Mo := (M W (event N)).
Context (single_iteration : mat N -> list N -> W -> W * res (list N * info N)).
Notation clk := (clock N W time_).

(** wrappers_bo_class.py:358-388 and wrappers_bo_function.py:84-119: np.vstack((X_, next_sample)) copies before the call, np.vstack((Y_, ...)) right after it *)
Fixpoint loop_m (n : nat) (X : mat N) (Y : list N) (ta ts tq : list N) : Mo (run_out N) :=
  match n with
  | O => ret (mkrun X Y ta ts tq)
  | S n =>
      mlet q <- (mlet t0 <- clk;
                 mlet p <- ext_ev (EvModel X Y) (single_iteration X Y);
                 let (next_sample, di) := p in
                 mlet nb <- lift (get_next_best_sample N next_sample X (in_points di) (in_acqs di));
                 mlet Xp <- lift (vstack_row N X nb);
                 let (X', p) := Xp in
                 mlet te0 <- clk;
                 mlet c <- call_m EvTarget p;
                 mlet y <- copy [snd c];
                 mlet te1 <- clk;
                 mlet t1 <- clk;
                 ret (X', (Y ++ y)%list, nsub N t1 t0, in_tsur di, in_tacq di));
      let '(X', Y', a, s, c) := q in
      loop_m n X' Y' (ta ++ [a])%list (ts ++ [s])%list (tq ++ [c])%list
  end.
(** wrappers_bo_class.py:316-400 *)
Definition all_initial_m (num_iter : Z) (X : mat N) (Y : list N) : Mo (run_out N) :=
  massert (Nat.eqb (nrows X) (List.length Y));
  mlet t_start <- clk;
  mlet r <- loop_m (Z.to_nat num_iter) X Y [] [] [];
  mlet t_end <- clk;
  ret r.
(** wrappers_bo_class.py:431-435: the argument is a view of a row of X; the result is kept as it is *)
Definition initial_m (x : list N) : Mo (list N * val N * N) :=
  mlet t0 <- clk;
  mlet c <- call_m EvTarget x;
  mlet t1 <- clk;
  ret (c, nsub N t1 t0).
(** wrappers_bo_class.py:402-446: np.array(Y) after the loop *)
Definition initial_inputs_m (num_iter : Z) (X : mat N) : Mo (run_out N) :=
  mlet l <- mmapM initial_m (mrows X);
  mlet Y <- copy (map (fun q => snd (fst q)) l);
  mlet r <- all_initial_m num_iter (mkmat (map (fun q => fst (fst q)) l) (mcols X)) Y;
  ret (mkrun (ro_X r) (ro_Y r) (map snd l ++ ro_tall r)%list (ro_tsur r) (ro_tacq r)).
End Runs.

(** thompson_sampling.py:154-171; one iteration (thompson_sampling.py:20-104, which does not call the target) is a parameter, as are the initial points *)
Section Thompson.
Notation Mo := (M W (tsev N)).
Context (iteration : mat N -> list N -> Mo (list N)).
Fixpoint ts_loop_m (n : nat) (X : mat N) (Y : list N) : Mo (mat N * list N) :=
  match n with
  | O => ret (X, Y)
  | S n =>
      mlet next_point <- iteration X Y;
      mlet Xp <- lift (vstack_row N X (Some next_point));
      let (X', p) := Xp in
      mlet c <- call_m TsTarget next_point;
      mlet y <- copy [snd c];
      ts_loop_m n X' (Y ++ y)%list
  end.
Context (initials : Mo (mat N)).
Definition thompson_m (num_iter : Z) : Mo (mat N * list N) :=
  mlet X <- initials;
  mlet l <- mmapM (call_m TsTarget) (mrows X);
  mlet Y <- copy (map snd l);
  ts_loop_m (Z.to_nat num_iter) (mkmat (map fst l) (mcols X)) Y.
End Thompson.
End Model.
