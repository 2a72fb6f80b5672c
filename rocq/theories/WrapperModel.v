(** Model of bayeso/wrappers/wrappers_bo_class.py and wrappers_bo_function.py.

    The surrogate-based proposal ([model_bo.optimize]), the target, the sampler of initial points and
    the clock are oracles: arbitrary functions of an arbitrary world, which may fail.
    Not modelled: log messages, the progress bar, isinstance assertions (types are static here),
    targets returning arrays with more than one element; targets that modify their argument are in [MutModel]. *)
From Verif Require Import Base Num UtilsModel Monad.
From Coq Require Import List ZArith Bool String.
Local Open Scope string_scope.

(** dict_info, the entries that the wrappers read *)
Record info (N : Num) : Type := mkinfo {
  in_points : mat N; in_acqs : list N; in_tsur : N; in_tacq : N }.
Arguments mkinfo {N}. Arguments in_points {N}. Arguments in_acqs {N}. Arguments in_tsur {N}. Arguments in_tacq {N}.

(** what an observer sees: proposals of the surrogate (with the data they were computed from) and calls of the target *)
Inductive event (N : Num) : Type :=
| EvModel (X : mat N) (Y : list N) (r : res (list N * info N))
| EvTarget (x : list N) (r : res N).
Arguments EvModel {N}. Arguments EvTarget {N}.

(** returned arrays *)
Record run_out (N : Num) : Type := mkrun {
  ro_X : mat N; ro_Y : list N; ro_tall : list N; ro_tsur : list N; ro_tacq : list N }.
Arguments mkrun {N}. Arguments ro_X {N}. Arguments ro_Y {N}. Arguments ro_tall {N}. Arguments ro_tsur {N}. Arguments ro_tacq {N}.

Section Model.
Context (N : Num) (W : Type).
Notation Mo := (M W (event N)).

(** the target *)
Context (fun_target : list N -> W -> W * res N).
(** time.time(): never fails *)
Context (time_ : W -> W * N).

Definition call_target (x : list N) : Mo N := ext_ev (EvTarget x) (fun_target x).
Definition clock : Mo N := ext (fun w => let (w', t) := time_ w in (w', Ok t)).

(** np.vstack((X, next_sample)): [None] becomes a 1x1 object array, which only fits one-column arrays
    (outside the model there); otherwise shapes must agree *)
Definition vstack_row (X : mat N) (x : option (list N)) : res (mat N * list N) :=
  match x with
  | None => if Nat.eqb (mcols X) 1 then Raise OutsideModel else Raise ValueError
  | Some p => if Nat.eqb (List.length p) (mcols X) then Ok (mkmat (mrows X ++ [p]) (mcols X), p) else Raise ValueError
  end.

(** wrappers_bo_class.py:240-278; broadcasting of a point of another length is outside the model *)
Definition get_next_best_sample (next_sample : list N) (X : mat N) (next_samples : mat N) (acq_vals : list N)
  : res (option (list N)) :=
  if negb (Nat.eqb (List.length next_sample) (mcols X)) then Raise OutsideModel
  else if existsb (fun x => nlt N (nnorm N (vsub N next_sample x)) (tol_dup N)) (mrows X)
  then get_next_best_acquisition N next_samples acq_vals X
  else Ok (Some next_sample).

(** ** The class *)
Section Class.
(** optimize_single_iteration (wrappers_bo_class.py:280-314): dispatches to model_bo.optimize; see BOModel.v *)
Context (single_iteration : mat N -> list N -> W -> W * res (list N * info N)).

(** loop body, wrappers_bo_class.py:353-382 *)
Definition class_step (X : mat N) (Y : list N) : Mo (mat N * list N * N * N * N) :=
  mlet t0 <- clock;
  mlet p <- ext_ev (EvModel X Y) (single_iteration X Y);
  let (next_sample, di) := p in
  mlet nb <- lift (get_next_best_sample next_sample X (in_points di) (in_acqs di));
  mlet Xp <- lift (vstack_row X nb);
  let (X', p) := Xp in
  mlet te0 <- clock;
  mlet y <- call_target p;
  mlet te1 <- clock;
  mlet t1 <- clock;
  ret (X', (Y ++ [y])%list, nsub N t1 t0, in_tsur di, in_tacq di).

Fixpoint class_loop (n : nat) (X : mat N) (Y : list N) (ta ts tq : list N) : Mo (run_out N) :=
  match n with
  | O => ret (mkrun X Y ta ts tq)
  | S n =>
      mlet q <- class_step X Y;
      let '(X', Y', a, s, c) := q in
      class_loop n X' Y' (ta ++ [a])%list (ts ++ [s])%list (tq ++ [c])%list
  end.

(** wrappers_bo_class.py:316-400 *)
Definition class_all_initial (num_iter : Z) (X : mat N) (Y : list N) : Mo (run_out N) :=
  massert (Nat.eqb (nrows X) (List.length Y));
  mlet t_start <- clock;
  mlet r <- class_loop (Z.to_nat num_iter) X Y [] [] [];
  mlet t_end <- clock;
  ret r.

(** wrappers_bo_class.py:425-432: evaluation of one initial input, timed *)
Definition class_initial (x : list N) : Mo (N * N) :=
  mlet t0 <- clock;
  mlet y <- call_target x;
  mlet t1 <- clock;
  ret (y, nsub N t1 t0).

(** wrappers_bo_class.py:402-446 *)
Definition class_initial_inputs (num_iter : Z) (X : mat N) : Mo (run_out N) :=
  mlet l <- mmapM class_initial (mrows X);
  mlet r <- class_all_initial num_iter X (map fst l);
  ret (mkrun (ro_X r) (ro_Y r) (map snd l ++ ro_tall r)%list (ro_tsur r) (ro_tacq r)).

(** wrappers_bo_class.py:490-541 *)
Context (get_initials : string -> Z -> option Z -> W -> W * res (mat N)).
Definition class_optimize (str_initial_method : string) (num_iter num_init : Z) (seed : option Z) : Mo (run_out N) :=
  massert (0 <? num_init)%Z;
  mlet t0 <- clock;
  mlet X <- ext (get_initials str_initial_method num_init seed);
  mlet r <- class_initial_inputs num_iter X;
  mlet t1 <- clock;
  ret r.
End Class.

(** ** The functions of wrappers_bo_function.py, written separately *)
Section Function.
(** model_bo.optimize with its keyword arguments str_sampling_method, num_samples, str_mlm_method *)
Context (model_optimize : string -> Z -> string -> mat N -> list N -> W -> W * res (list N * info N)).
Context (get_initials : string -> Z -> option Z -> W -> W * res (mat N)).

(** wrappers_bo_function.py:74-117 *)
Fixpoint fun_loop (samp : string) (nsamp : Z) (mlm : string) (n : nat) (X : mat N) (Y : list N) (ta ts tq : list N)
  : Mo (run_out N) :=
  match n with
  | O => ret (mkrun X Y ta ts tq)
  | S n =>
      mlet t0 <- clock;
      mlet p <- ext_ev (EvModel X Y) (model_optimize samp nsamp mlm X Y);
      let (next_point, di) := p in
      mlet nb <- lift
        (if negb (Nat.eqb (List.length next_point) (mcols X)) then Raise OutsideModel
         else if existsb (fun x => nlt N (nnorm N (vsub N next_point x)) (tol_dup N)) (mrows X)
         then get_next_best_acquisition N (in_points di) (in_acqs di) X
         else Ok (Some next_point));
      mlet Xp <- lift (vstack_row X nb);
      let (X', p) := Xp in
      mlet te0 <- clock;
      mlet y <- call_target p;
      mlet te1 <- clock;
      mlet t1 <- clock;
      fun_loop samp nsamp mlm n X' (Y ++ [y])%list (ta ++ [nsub N t1 t0])%list (ts ++ [in_tsur di])%list (tq ++ [in_tacq di])%list
  end.

(** wrappers_bo_function.py:18-130 *)
Definition fun_all_initial (samp : string) (nsamp : Z) (mlm : string) (num_iter : Z) (X : mat N) (Y : list N)
  : Mo (run_out N) :=
  massert (Nat.eqb (nrows X) (List.length Y));
  massert (str_in mlm ALLOWED_MLM_METHOD);
  mlet t_start <- clock;
  mlet r <- fun_loop samp nsamp mlm (Z.to_nat num_iter) X Y [] [] [];
  mlet t_end <- clock;
  ret r.

(** wrappers_bo_function.py:133-210 *)
Definition fun_initial (x : list N) : Mo (N * N) :=
  mlet t0 <- clock;
  mlet y <- call_target x;
  mlet t1 <- clock;
  ret (y, nsub N t1 t0).
Definition fun_initial_inputs (samp : string) (nsamp : Z) (mlm : string) (num_iter : Z) (X : mat N) : Mo (run_out N) :=
  massert (str_in mlm ALLOWED_MLM_METHOD);
  mlet l <- mmapM fun_initial (mrows X);
  mlet r <- fun_all_initial samp nsamp mlm num_iter X (map fst l);
  ret (mkrun (ro_X r) (ro_Y r) (map snd l ++ ro_tall r)%list (ro_tsur r) (ro_tacq r)).

(** wrappers_bo_function.py:213-312 *)
Definition run_single_round (str_initial_method : string) (samp : string) (nsamp : Z) (mlm : string)
    (num_init num_iter : Z) (seed : option Z) : Mo (run_out N) :=
  massert (str_in str_initial_method ALLOWED_INITIALIZING_METHOD_BO);
  massert (str_in mlm ALLOWED_MLM_METHOD);
  mlet t0 <- clock;
  mlet X <- ext (get_initials str_initial_method num_init seed);
  mlet r <- fun_initial_inputs samp nsamp mlm num_iter X;
  mlet t1 <- clock;
  ret r.
End Function.
End Model.
