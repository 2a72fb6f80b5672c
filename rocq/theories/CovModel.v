(** Model of bayeso/covariance.py (covariance functions, kernel matrices, their gradients, inversion
    and Cholesky factorisation).

    Simplifications: arrays are lists of rows; np.exp, np.linalg.inv and scipy.linalg.cholesky are
    parameters; [x**2] is [x * x]; numpy sums are left folds; the type checks by isinstance are
    carried by the types of the model; [validate_hyps_dict] updates the caller's dictionary in place
    (noise := inf when it is infinite), which is observable only through the dictionary and not modelled. *)
From Verif Require Import Base Num UtilsModel HypsModel.
From Coq Require Import List ZArith Bool String Ascii.
Set Implicit Arguments.
Local Open Scope string_scope.

(** str.split on one character *)
Fixpoint split_on (c : ascii) (s : string) (acc : string) : list string :=
  match s with
  | EmptyString => [acc]
  | String a r => if Ascii.eqb a c then acc :: split_on c r "" else split_on c r (acc ++ String a "")
  end.

(** [for x in l: s = f(s, x)] with exceptions *)
Fixpoint foldM {A S : Type} (f : S -> A -> res S) (l : list A) (s : S) : res S :=
  match l with [] => Ok s | x :: r => do s' <- f s x; foldM f r s' end.

Section Model.
Context (N : Num).

(** an input array: (n, d), or (n, s, d) for set inputs *)
Inductive arr : Type :=
| A2 (m : mat N)
| A3 (sets : list (mat N)) (s d : nat).
Definition shape (a : arr) : list nat :=
  match a with A2 m => [nrows m; mcols m] | A3 l s d => [List.length l; s; d] end.
Definition alen (a : arr) : nat := match a with A2 m => nrows m | A3 l _ _ => List.length l end.
Definition arr_wf (a : arr) : Prop :=
  match a with
  | A2 m => mat_wf m
  | A3 l s d => forall m, In m l -> mat_wf m /\ nrows m = s /\ mcols m = d
  end.

(** square and rectangular float arrays *)
Definition mx : Type := list (list N).
Definition mgen (n m : nat) (f : nat -> nat -> N) : mx := map (fun i => map (f i) (seq 0 m)) (seq 0 n).
Definition mget (a : mx) (i j : nat) : N := nth j (nth i a []) (nofZ N 0).
Definition zeros (n m : nat) : mx := mgen n m (fun _ _ => nofZ N 0).
(** np.eye(n, m) *)
Definition eye (n m : nat) : mx := mgen n m (fun i j => if Nat.eqb i j then nofZ N 1 else nofZ N 0).
Definition map2 {A B C} (f : A -> B -> C) (a : list A) (b : list B) : list C :=
  map (fun p => f (fst p) (snd p)) (combine a b).
Definition madd (a b : mx) : mx := map2 (map2 (nadd N)) a b.
Definition mmap (f : N -> N) (a : mx) : mx := map (map f) a.
(** a[i, j] = v *)
Fixpoint lset {A} (l : list A) (i : nat) (v : A) : list A :=
  match l, i with
  | [], _ => []
  | _ :: r, O => v :: r
  | x :: r, S i => x :: lset r i v
  end.
Definition mset (a : mx) (i j : nat) (v : N) : mx := lset a i (lset (nth i a []) j v).
(** .T of an (n, m) array *)
Definition mtr (n m : nat) (a : mx) : mx := mgen m n (fun i j => mget a j i).

(** np.exp *)
Context (nexp : N -> N).

(** X / lengthscales for one row (broadcast of a scalar or of a vector) *)
Definition vscale (ls : pyval N) (x : list N) : list N :=
  match ls with
  | PArr _ l => map2 (ndiv N) x l
  | PFloat _ s => map (fun a => ndiv N a s) x
  | POther _ _ => x
  end.
(** one entry of scipy.spatial.distance.cdist(X, Xp, metric='euclidean') *)
Definition cdist1 (x y : list N) : N := nnorm N (vsub N x y).

(** covariance.py:230-231 *)
Definition k_se (signal dist : N) : N :=
  nmul N (nsq N signal) (nexp (nmul N (nlit N (-1) 2) (nsq N dist))).
(** covariance.py:328-329 *)
Definition k_matern32 (signal dist : N) : N :=
  nmul N (nmul N (nsq N signal) (nadd N (nofZ N 1) (nmul N (nsqrt N (nofZ N 3)) dist)))
         (nexp (nmul N (nmul N (nofZ N (-1)) (nsqrt N (nofZ N 3))) dist)).
(** covariance.py:428-430 *)
Definition k_matern52 (signal dist : N) : N :=
  nmul N (nmul N (nsq N signal)
            (nadd N (nadd N (nofZ N 1) (nmul N (nsqrt N (nofZ N 5)) dist))
                    (nmul N (nlit N 5 3) (nsq N dist))))
         (nexp (nmul N (nmul N (nofZ N (-1)) (nsqrt N (nofZ N 5))) dist)).

Definition entry (k : N -> N -> N) (ls : pyval N) (signal : N) (x y : list N) : N :=
  k signal (cdist1 (vscale ls x) (vscale ls y)).

(** covariance.py:197-232 (cov_se), 295-330 (cov_matern32), 394-431 (cov_matern52): the three functions
    share their assertions and the distance computation; [k] is the last line of each *)
Definition cov_base (k : N -> N -> N) (X Xp : mat N) (ls : pyval N) (signal : N) : res mx :=
  assert (match ls with
          | POther _ _ => false
          | PArr _ l => Nat.eqb (mcols X) (mcols Xp) && Nat.eqb (mcols Xp) (List.length l)
          | PFloat _ _ => Nat.eqb (mcols X) (mcols Xp)
          end);
  Ok (map (fun x => map (entry k ls signal x) (mrows Xp)) (mrows X)).

(** covariance.py:20-45 *)
Definition choose_fun_cov (str_cov : string) : res (N -> N -> N) :=
  if (str_cov =? "eq") || (str_cov =? "se") then Ok k_se
  else if str_cov =? "matern32" then Ok k_matern32
  else if str_cov =? "matern52" then Ok k_matern52
  else Raise NotImplementedError.

(** covariance.py:496-541 *)
Definition cov_set (str_cov : string) (X Xp : mat N) (ls : pyval N) (signal : N) : res N :=
  assert (match ls with
          | POther _ _ => false
          | PArr _ l => Nat.eqb (mcols X) (mcols Xp) && Nat.eqb (mcols Xp) (List.length l)
          | PFloat _ _ => Nat.eqb (mcols X) (mcols Xp)
          end);
  assert (str_in str_cov ALLOWED_COV_BASE);
  do k <- choose_fun_cov str_cov;
  do c <- cov_base k X Xp ls signal;
  Ok (ndiv N (nsum N (List.concat c)) (nofZ N (Z.of_nat (nrows X) * Z.of_nat (nrows Xp)))).

Definition getls (h : dict N) : res (pyval N) :=
  match dget h "lengthscales" with Some v => Ok v | None => Raise KeyError end.
Definition getset (l : list (mat N)) (i : nat) : res (mat N) :=
  match nth_error l i with Some m => Ok m | None => Raise IndexError end.

(** constants.py:14 *)
Definition JITTER_COV : N := nlit N 1 100000.

(** covariance.py:544-628.  The final assertion on the shape of the base branch compares the shape of
    the accumulator with itself and is omitted. *)
Definition cov_main (str_cov : string) (X Xp : arr) (hyps : dict N) (same : bool) (jitter : N) : res mx :=
  assert (str_in str_cov ALLOWED_COV);
  let num_X := alen X in
  let num_Xp := alen Xp in
  let cov := zeros num_X num_Xp in
  do cov <- (if same then
               assert (Nat.eqb num_X num_Xp);
               Ok (madd cov (mmap (fun e => nmul N e jitter) (eye num_X num_X)))
             else Ok cov);
  if str_in str_cov ALLOWED_COV_BASE then
    match X, Xp with
    | A2 x, A2 xp =>
        assert (Nat.eqb (mcols x) (mcols xp));
        do hyps <- validate_hyps_dict hyps str_cov (Z.of_nat (mcols x)) true;
        do k <- choose_fun_cov str_cov;
        do ls <- getls hyps;
        do signal <- dfloat hyps "signal";
        do c <- cov_base k x xp ls signal;
        Ok (madd cov c)
    | _, _ => Raise AssertionError
    end
  else if str_in str_cov ALLOWED_COV_SET then
    match nth_error (split_on "_" str_cov "") 1 with
    | None => Raise IndexError
    | Some str_cov =>
        match X, Xp with
        | A3 x _ dim_X, A3 xp _ dim_Xp =>
            assert (Nat.eqb dim_X dim_Xp);
            do hyps <- validate_hyps_dict hyps str_cov (Z.of_nat dim_X) true;
            do ls <- getls hyps;
            do signal <- dfloat hyps "signal";
            if negb same then
              foldM (fun cov ij =>
                       do a <- getset x (fst ij);
                       do b <- getset xp (snd ij);
                       do v <- cov_set str_cov a b ls signal;
                       Ok (mset cov (fst ij) (snd ij) (nadd N (mget cov (fst ij) (snd ij)) v)))
                    (list_prod (seq 0 num_X) (seq 0 num_Xp)) cov
            else
              foldM (fun cov ind_X =>
                       foldM (fun cov ind_Xp =>
                                do a <- getset x ind_X;
                                do b <- getset xp ind_Xp;
                                do v <- cov_set str_cov a b ls signal;
                                let cov := mset cov ind_X ind_Xp (nadd N (mget cov ind_X ind_Xp) v) in
                                Ok (if Nat.ltb ind_X ind_Xp
                                    then mset cov ind_Xp ind_X (mget cov ind_X ind_Xp) else cov))
                             (seq ind_X (num_Xp - ind_X)) cov)
                    (seq 0 num_X) cov
        | _, _ => Raise AssertionError
        end
    end
  else Raise NotImplementedError.

(** *** gradients *)
(** grad[:, :, k] for k = 0 .. l - 1 (the last axis of the (n, m, l) array comes first here) *)
Definition slices : Type := list mx.
(** grad[:, :, k] += a *)
Definition gadd (g : slices) (k : nat) (a : mx) : res slices :=
  match nth_error g k with
  | None => Raise IndexError
  | Some b => Ok (lset g k (madd b a))
  end.

Inductive kind : Type := KSe | KM32 | KM52.
(** covariance.py:48-73 *)
Definition choose_fun_grad_cov (str_cov : string) : res kind :=
  if (str_cov =? "eq") || (str_cov =? "se") then Ok KSe
  else if str_cov =? "matern32" then Ok KM32
  else if str_cov =? "matern52" then Ok KM52
  else Raise NotImplementedError.

(** the factor multiplying the squared coordinate differences: cov itself (covariance.py:285-288),
    term_pre of lines 379 and 480-481 *)
Definition term_pre (t : kind) (signal cov dist : N) : N :=
  match t with
  | KSe => cov
  | KM32 => nmul N (nmul N (nofZ N 3) (nsq N signal)) (nexp (nmul N (nopp N (nsqrt N (nofZ N 3))) dist))
  | KM52 => nmul N (nmul N (nmul N (nlit N 5 3) (nsq N signal))
                           (nadd N (nofZ N 1) (nmul N (nsqrt N (nofZ N 5)) dist)))
                   (nexp (nmul N (nopp N (nsqrt N (nofZ N 5))) dist))
  end.
(** l**(-3), l**(-1) *)
Definition inv3 (l : N) : N := ndiv N (nofZ N 1) (nmul N (nmul N l l) l).
Definition inv1 (l : N) : N := ndiv N (nofZ N 1) l.
Definition coord (x : list N) (k : nat) : N := nth k x (nofZ N 0).

(** covariance.py:235-292, 333-391, 434-493 *)
Definition grad_cov (t : kind) (cov : mx) (X Xp : mat N) (hyps : dict N) (num_hyps : nat) (fix_noise : bool)
  : res slices :=
  let n := nrows X in
  let m := nrows Xp in
  let g := repeat (zeros n m) num_hyps in
  do ls <- getls hyps;
  let row A i := nth i (mrows A) [] in
  let dist i j := cdist1 (vscale ls (row X i)) (vscale ls (row Xp j)) in
  do gi <- (if fix_noise then Ok (g, 0%nat)
            else do noise <- dfloat hyps "noise";
                 do g <- gadd g 0 (mmap (fun e => nmul N (nmul N (nofZ N 2) noise) e) (eye n m));
                 Ok (g, 1%nat));
  let (g, ind_next) := (gi : slices * nat) in
  do signal <- dfloat hyps "signal";
  do g <- gadd g ind_next (mmap (fun c => ndiv N (nmul N (nofZ N 2) c) signal) cov);
  let term i j := term_pre t signal (mget cov i j) (dist i j) in
  match ls with
  | PArr _ l =>
      foldM (fun g k =>
               gadd g (ind_next + k + 1)
                 (mgen n m (fun i j =>
                    nmul N (nmul N (term i j) (nsq N (cdist1 [coord (row X i) k] [coord (row Xp j) k])))
                           (inv3 (nth k l (nofZ N 0))))))
            (seq 0 (List.length l)) g
  | PFloat _ l =>
      gadd g (ind_next + 1)
        (mgen n m (fun i j =>
           match t with
           | KM52 => nmul N (nmul N (term i j) (inv1 l)) (nsq N (dist i j))
           | _ => nmul N (nmul N (term i j) (nsq N (dist i j))) (inv1 l)
           end))
  | POther _ _ => Raise OutsideModel
  end.

(** covariance.py:631-687; X.shape[1] is the number of elements per set for a 3-d array *)
Definition grad_cov_main (str_cov : string) (X Xp : arr) (hyps : dict N) (fix_noise same : bool) (jitter : N)
  : res slices :=
  assert (str_in str_cov ALLOWED_COV);
  assert same;
  let dim_X := nth 1 (shape X) 0%nat in
  do ls <- getls hyps;
  let num_hyps := match ls with PArr _ _ => (dim_X + 1)%nat | _ => 2%nat end in
  let num_hyps := if fix_noise then num_hyps else (num_hyps + 1)%nat in
  do cov <- cov_main str_cov X Xp hyps same jitter;
  do t <- choose_fun_grad_cov str_cov;
  match X, Xp with
  | A2 x, A2 xp => grad_cov t cov x xp hyps num_hyps fix_noise
  | _, _ => Raise OutsideModel
  end.

(** *** inversion and factorisation *)
(** cov_main(...) + noise^2 I, symmetrised (covariance.py:113-115 and 168-170) *)
Definition train_cov (X : arr) (hyps : dict N) (str_cov : string) : res mx :=
  let n := alen X in
  do c <- cov_main str_cov X X hyps true JITTER_COV;
  do noise <- dfloat hyps "noise";
  let c := madd c (mmap (fun e => nmul N (nsq N noise) e) (eye n n)) in
  Ok (mmap (fun e => ndiv N e (nofZ N 2)) (madd c (mtr n n c))).

(** covariance.py:76-126; [inv] is np.linalg.inv *)
Definition get_kernel_inverse (inv : mx -> res mx) (X : arr) (hyps : dict N) (str_cov : string)
    (fix_noise use_gradient : bool) : res (mx * mx * option slices) :=
  do _ <- check_str_cov str_cov (shape X) None;
  do c <- train_cov X hyps str_cov;
  do ic <- inv c;
  do g <- (if use_gradient then
             do g <- grad_cov_main str_cov X X hyps fix_noise true JITTER_COV; Ok (Some g)
           else Ok None);
  Ok (c, ic, g).

(** covariance.py:174-187: the loop over jitters; only LinAlgError is caught *)
Definition jitters : list N :=
  [nofZ N 0; nlit N 1 10000; nlit N 1 100; nlit N 1 10; nofZ N 1; nofZ N 10; nofZ N 100].
Fixpoint chol_loop (chol : mx -> res mx) (n : nat) (c : mx) (js : list N) : res (option (mx * mx)) :=
  match js with
  | [] => Ok None
  | j :: r =>
      let c' := madd c (mmap (fun e => nmul N j e) (eye n n)) in
      match chol c' with
      | Ok l => Ok (Some (c', l))
      | Raise LinAlgError => chol_loop chol n c r
      | Raise e => Raise e
      end
  end.

(** covariance.py:129-194; [chol] is scipy.linalg.cholesky(., lower=True) *)
Definition get_kernel_cholesky (chol : mx -> res mx) (X : arr) (hyps : dict N) (str_cov : string)
    (fix_noise use_gradient : bool) : res (mx * mx * option slices) :=
  do _ <- check_str_cov str_cov (shape X) None;
  do c <- train_cov X hyps str_cov;
  do o <- chol_loop chol (alen X) c jitters;
  match o with
  | None => Raise ValueError
  | Some (c, lower) =>
      do g <- (if use_gradient then
                 do g <- grad_cov_main str_cov X X hyps fix_noise true JITTER_COV; Ok (Some g)
               else Ok None);
      Ok (c, lower, g)
  end.
End Model.
Arguments mget : clear implicits.
Arguments madd : clear implicits.
Arguments mmap : clear implicits.
Arguments mset : clear implicits.
Arguments mtr : clear implicits.
Arguments entry : clear implicits.
Arguments vscale : clear implicits.
Arguments gadd : clear implicits.
