(** Model of bayeso/thompson_sampling.py and of sample_functions (gp/gp.py:22-52, tp/tp.py:22-63).

    External: the samplers of BOwGP (parameters here, [SamplingModel] models them), scipy's
    multivariate_normal (frozen distribution and its draws), numpy's chisquare, scipy's minimize, np.linalg.inv
    and the target.  A draw is the vector of its [n] coordinates; scipy squeezes it to a scalar when n = 1, which
    is accounted for in [np_stack].  Draws, candidate sets and calls of the target are recorded as events.
    Type checks are carried by the types; printing and debug messages are not modelled; outputs are (n, 1)
    arrays, kept as lists. *)
From Verif Require Import Base Num Monad UtilsModel HypsModel CovModel GPModel HypOptModel WrapperModel BOModel.
From Coq Require Import List ZArith Bool String.
Set Implicit Arguments.
Local Open Scope string_scope.

Inductive tsev (N : Num) : Type :=
| TsInit (pts : list (list N))
| TsCands (pts : list (list N))
| TsDraw (v : list N)
| TsTarget (x : list N) (r : res N).
Arguments TsInit {N}. Arguments TsCands {N}. Arguments TsDraw {N}. Arguments TsTarget {N}.

(** a one- or two-dimensional array *)
Inductive nd (N : Num) : Type := V1 (l : list N) | V2 (m : mat N).
Arguments V1 {N}. Arguments V2 {N}.

Section Model.
Context (N : Num) (W G : Type).
Notation mx := (list (list N)).
Notation Mo := (M W (tsev N)).

(** scipy.stats.multivariate_normal(mean=mu, cov=Sigma), and .rvs() *)
Context (mvn : list N -> mx -> W -> W * res G) (rvs : G -> W -> W * res (list N)).
(** np.random.chisquare(nu, num) *)
Context (chisquare : N -> Z -> W -> W * res (list N)).

Definition draw (rv : G) : Mo (list N) := fun w =>
  let (w', r) := rvs rv w in (w', match r with Ok v => [TsDraw v] | Raise _ => [] end, r).
(** [rv.rvs() for _ in range(0, num)] *)
Definition draws (rv : G) (num : Z) : Mo (list (list N)) := mmapM (fun _ => draw rv) (seq 0 (Z.to_nat num)).

(** np.array(list_rvs): no draw gives shape (0,); draws in one dimension are scalars *)
Definition np_stack (n : nat) (l : list (list N)) : nd N :=
  match l with
  | [] => V1 []
  | _ => if Nat.eqb n 1 then V1 (map (hd (nofZ N 0)) l) else V2 (mkmat l n)
  end.

(** gp.py:22-52 *)
Definition sample_functions (mu : list N) (Sigma : mx) (num : Z) : Mo (nd N) :=
  let n := List.length mu in
  massert (has_shape N n n Sigma);
  mlet rv <- ext (mvn mu Sigma);
  mlet l <- draws rv num;
  ret (np_stack n l).

(** samples / np.sqrt(x)[..., np.newaxis], numpy's broadcasting: a (k,) array against (k, 1) gives (k, k) *)
Definition div_rows (s : nd N) (x : list N) : res (mat N) :=
  match s with
  | V1 l => Ok (mkmat (map (fun xi => map (fun v => ndiv N v (nsqrt N xi)) l) x) (List.length l))
  | V2 m => if Nat.eqb (nrows m) (List.length x)
            then Ok (mkmat (map2 (fun r xi => map (fun v => ndiv N v (nsqrt N xi)) r) (mrows m) x) (mcols m))
            else Raise OutsideModel
  end.
(** mu[np.newaxis, ...] + a *)
Definition add_row (mu : list N) (a : mat N) : res (mat N) :=
  let n := List.length mu in
  if Nat.eqb n (mcols a) then Ok (mkmat (map (map2 (nadd N) mu) (mrows a)) n)
  else if Nat.eqb n 1 then Ok (mkmat (map (map (nadd N (hd (nofZ N 0) mu))) (mrows a)) (mcols a))
  else if Nat.eqb (mcols a) 1 then Ok (mkmat (map (fun r => map (fun m => nadd N m (hd (nofZ N 0) r)) mu) (mrows a)) n)
  else Raise ValueError.

Definition is_inf (x : N) : bool := match ninf N with Some i => neqb N x i | None => false end.

(** tp.py:22-63 *)
Definition tp_sample_functions (nu : N) (mu : list N) (Sigma : mx) (num : Z) : Mo (mat N) :=
  let n := List.length mu in
  massert (has_shape N n n Sigma);
  mlet x <- (if is_inf nu then ret (repeat (nofZ N 1) (Z.to_nat num))
             else mlet c <- ext (chisquare nu num); ret (map (fun v => ndiv N v nu) c));
  mlet rv <- ext (mvn (repeat (nofZ N 0) n) Sigma);
  mlet l <- draws rv num;
  mlet s <- lift (div_rows (np_stack n l) x);
  mlet s <- lift (add_row mu s);
  massert (Z.eqb (Z.of_nat (nrows s)) num && Nat.eqb (mcols s) n);
  ret s.

(** whether LinAlgError is a subclass of ValueError (it is from NumPy 1.25 on) *)
Context (linalg_is_value : bool).
(** except ValueError *)
Definition caught (e : exn) : bool := match e with ValueError => true | LinAlgError => linalg_is_value | _ => false end.

(** thompson_sampling.py:87 *)
Definition list_jitters : list N :=
  [nofZ N 0; nlit N 1 10000; nlit N 1 100; nofZ N 1; nofZ N 10; nofZ N 100; nofZ N 1000; nofZ N 10000].
(** thompson_sampling.py:86-99 *)
Fixpoint sample_ladder (mu : list N) (Sigma : mx) (jitters : list N) : Mo (nd N) :=
  match jitters with
  | [] => raise ValueError
  | j :: r => fun w =>
      match sample_functions mu (madd N Sigma (mmap N (nmul N j) (eye N (List.length Sigma) (List.length Sigma)))) 1 w with
      | (w1, t1, Raise e) =>
          if caught e then match sample_ladder mu Sigma r w1 with (w2, t2, x) => (w2, (t1 ++ t2)%list, x) end
          else (w1, t1, Raise e)
      | x => x
      end
  end.

(** Y_sampled[:, 0] *)
Definition first_column (a : nd N) : res (list N) :=
  match a with
  | V1 _ => Raise IndexError
  | V2 m => mapM (fun r => match nth_error r 0 with Some v => Ok v | None => Raise IndexError end) (mrows m)
  end.

Context (nexp nlog : N -> N) (npi : N).
Context (inv chol : mx -> res mx) (cho_solve : mx -> mx -> res mx) (slogdet : mx -> N * N).
Context (minimize : minimizer N).
(** whether the packages behind DIRECT and CMA-ES can be imported (read by the constructor of BOwGP) *)
Context (da ca : bool).
(** get_samples / get_initials of BOwGP(range_X): method, number, seed *)
Context (get_samples get_initials : list (N * N) -> string -> Z -> option Z -> W -> W * res (list (list N))).
Context (fun_target : list N -> W -> W * res N).

Definition to_column (Y : list N) : mat N := mkmat (map (fun y => [y]) Y) 1.
(** bo.BOwGP(range_X) with the defaults of constants.py *)
Definition default_bo (range_X : list (N * N)) : res unit :=
  do _ <- gp_init N da ca range_X "matern52" "ei" true true "BFGS" "L-BFGS-B" "ml"; Ok tt.

(** a recorded set of points *)
Definition points (ev : list (list N) -> tsev N) (f : W -> W * res (list (list N))) : Mo (list (list N)) := fun w =>
  let (w', r) := f w in (w', match r with Ok p => [ev p] | Raise _ => [] end, r).

(** thompson_sampling.py:20-104 (an empty candidate set is outside the model) *)
Definition ts_iteration (range_X : list (N * N)) (X : mat N) (Y : list N) (normalize_Y : bool) (method : string)
    (num_samples : Z) : Mo (list N) :=
  massert (Nat.eqb (nrows X) (List.length Y));
  massert (Nat.eqb (List.length range_X) (mcols X));
  mlet Y <- lift (if normalize_Y then normalize_min_max N Y else Ok Y);
  mlet _ <- lift (default_bo range_X);
  mlet pts <- points TsCands (get_samples range_X method num_samples None);
  mlet X_test <- lift (match pts with [] => Raise OutsideModel | _ => np_array_rows pts end);
  mlet p <- lift (predict_with_optimized_hyps nexp nlog npi inv chol cho_solve slogdet minimize
                    (A2 N X) (to_column Y) (A2 N X_test) "matern52" "BFGS" None true);
  let '(mu_Xs, _, Sigma_Xs) := p in
  mlet Y_sampled <- sample_ladder (map (hd (nofZ N 0)) mu_Xs) Sigma_Xs list_jitters;
  mlet ind_min <- lift (do c <- first_column Y_sampled; npargmin N c);
  lift (match nth_error (mrows X_test) ind_min with Some p => Ok p | None => Raise IndexError end).

Definition ts_target (x : list N) : Mo N := ext_ev (TsTarget x) (fun_target x).

(** thompson_sampling.py:160-169 *)
Fixpoint ts_loop (range_X : list (N * N)) (normalize_Y : bool) (method : string) (num_samples : Z) (n : nat)
    (X : mat N) (Y : list N) : Mo (mat N * list N) :=
  match n with
  | O => ret (X, Y)
  | S n =>
      mlet next_point <- ts_iteration range_X X Y normalize_Y method num_samples;
      mlet Xp <- lift (vstack_row N X (Some next_point));
      let (X', p) := Xp in
      mlet y <- ts_target next_point;
      ts_loop range_X normalize_Y method num_samples n X' (Y ++ [y])%list
  end.

(** thompson_sampling.py:106-171 *)
Definition thompson_sampling_gp (range_X : list (N * N)) (num_init num_iter : Z) (normalize_Y : bool) (method : string)
    (num_samples : Z) : Mo (mat N * list N) :=
  mlet _ <- lift (default_bo range_X);
  mlet rows <- points TsInit (get_initials range_X method num_init None);
  mlet X <- lift (np_array_rows rows);
  mlet Y <- mmapM ts_target (mrows X);
  ts_loop range_X normalize_Y method num_samples (Z.to_nat num_iter) X Y.
End Model.
