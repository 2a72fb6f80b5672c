(** Model of the samplers of bayeso/bo/base_bo.py (84-105, 121-339).
    External: numpy's RandomState (its construction, its unit-interval and Gaussian draws) and scipy's
    quasi-random engines.  Assertions on Python types hold by typing; debug logging is omitted.
    Simplification: [np.array] of an empty list has shape (0,); here it is the empty list of rows. *)
From Verif Require Import Base Num Monad UtilsModel.
From Coq Require Import List ZArith Bool String.
Set Implicit Arguments.

Section Model.
Context (N : Num) (W G : Type).
(** np.random.RandomState(seed) / RandomState() (ValueError on a seed out of range) *)
Context (mkstate : option Z -> W -> W * res G).
(** the double in [0, 1) behind RandomState.uniform; RandomState.randn() *)
Context (unit_draw gauss_draw : G -> G * N).
(** scsqmc.Sobol / Halton (num_dim, scramble=True, seed=seed).random(num): kind, dimension, seed, number *)
Inductive qmc_kind := Sobol | Halton.
Context (qmc : qmc_kind -> nat -> option Z -> Z -> W -> W * res (list (list N))).

(** np.isfinite *)
Definition nfinite (x : N) : bool := nltinf N x && nltinf N (nopp N x).

(** numpy's RandomState.uniform(low, high) = low + (high - low) * draw; OverflowError (here [ModelError 0])
    when high - low is not finite *)
Definition rs_uniform (lo hi : N) (g : G) : G * res N :=
  let w := nsub N hi lo in
  if nfinite w then let (g', u) := unit_draw g in (g', Ok (nadd N (nmul N u w) lo)) else (g, Raise (ModelError 0)).

(** np.clip(x, lo, hi) = minimum(maximum(x, lo), hi) *)
Definition npclip (x lo hi : N) : N := npmin2 N (npmax2 N x lo) hi.

(** base_bo.py:200-204 *)
Definition rs_gaussian (lo hi : N) (g : G) : G * res N :=
  let new_mean := ndiv N (nadd N hi lo) (nofZ N 2) in
  let new_std := ndiv N (nsub N hi lo) (nofZ N 4) in
  let (g', z) := gauss_draw g in
  (g', Ok (npclip (nadd N (nmul N z new_std) new_mean) lo hi)).

(** the two nested loops, base_bo.py:163-169 and 195-208; [M G unit]: the generator is the state *)
Definition draw_row (one : N -> N -> G -> G * res N) (range_X : list (N * N)) : M G unit (list N) :=
  mmapM (fun r => ext (one (fst r) (snd r))) range_X.
Definition draw_rows one (range_X : list (N * N)) (num : Z) : M G unit (list (list N)) :=
  mmapM (fun _ => draw_row one range_X) (seq 0 (Z.to_nat num)).

(** base_bo.py:140-170, 172-209 with _get_random_state (84-105) *)
Definition with_state (one : N -> N -> G -> G * res N) (range_X : list (N * N)) (num : Z) (seed : option Z)
  : W -> W * res (list (list N)) := fun w =>
  match mkstate seed w with
  | (w1, Ok g) => (w1, snd (draw_rows one range_X num g))
  | (w1, Raise e) => (w1, Raise e)
  end.
Definition get_samples_uniform := with_state rs_uniform.
Definition get_samples_gaussian := with_state rs_gaussian.

(** base_bo.py:211-237, 239-265.  Broadcasting of a (num, d) array with (d,) arrays: row by row, coordinate by
    coordinate ([combine] stops at the shorter; scipy's contract makes both lengths d). *)
Definition scale_row (range_X : list (N * N)) (u : list N) : list N :=
  map (fun p => let '(x, (lo, hi)) := p in nadd N (nmul N x (nsub N hi lo)) lo) (combine u range_X).
Definition get_samples_qmc (k : qmc_kind) (range_X : list (N * N)) (num : Z) (seed : option Z)
  : W -> W * res (list (list N)) := fun w =>
  match qmc k (List.length range_X) seed num w with
  | (w1, Ok s) => (w1, Ok (map (scale_row range_X) s))
  | (w1, Raise e) => (w1, Raise e)
  end.

Local Open Scope string_scope.
(** base_bo.py:267-312 *)
Definition get_samples (range_X : list (N * N)) (m : string) (num : Z) (seed : option Z)
  : W -> W * res (list (list N)) := fun w =>
  if negb (str_in m ALLOWED_SAMPLING_METHOD) then (w, Raise AssertionError)
  else if m =? "grid" then (w, get_grids N range_X num)
  else if m =? "uniform" then get_samples_uniform range_X num seed w
  else if m =? "gaussian" then get_samples_gaussian range_X num seed w
  else if m =? "sobol" then get_samples_qmc Sobol range_X num seed w
  else if m =? "halton" then get_samples_qmc Halton range_X num seed w
  else (w, Raise NotImplementedError).

(** base_bo.py:314-339 *)
Definition get_initials (range_X : list (N * N)) (m : string) (num : Z) (seed : option Z)
  : W -> W * res (list (list N)) := fun w =>
  if negb (str_in m ALLOWED_INITIALIZING_METHOD_BO) then (w, Raise AssertionError)
  else get_samples range_X m num seed w.
End Model.
