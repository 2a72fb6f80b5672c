(** Model of bayeso/utils/utils_gp.py, of the predictions of bayeso/gp/gp.py and of bayeso/tp/tp.py.

    Simplifications: Y_train and the values of the prior mean are (n, 1) arrays (other second dimensions
    give [OutsideModel]; numpy would broadcast); np.dot sums from left to right; np.linalg.inv is a
    parameter; isinstance checks are carried by the types; debug messages are not modelled. *)
From Verif Require Import Base Num UtilsModel HypsModel CovModel.
From Coq Require Import List ZArith Bool String.
Set Implicit Arguments.
Local Open Scope string_scope.

Section Model.
Context (N : Num).
Notation mx := (list (list N)).
Context (nexp : N -> N).

(** np.dot of an (n, k) and a (k, m) array *)
Definition mdot (n k m : nat) (a b : mx) : mx :=
  mgen N n m (fun i j => nsum N (map (fun l => nmul N (mget N a i l) (mget N b l j)) (seq 0 k))).
Definition msub (a b : mx) : mx := map2 (map2 (nsub N)) a b.
Definition mdiag (n : nat) (a : mx) : list N := map (fun i => mget N a i i) (seq 0 n).
(** a.shape == (n, m) *)
Definition has_shape (n m : nat) (a : mx) : bool :=
  Nat.eqb (List.length a) n && forallb (fun r => Nat.eqb (List.length r) m) a.

(** a prior mean function: any callable on input arrays that returns a 2-dimensional array or raises *)
Definition prior : Type := option (arr N -> res (mat N)).

(** utils_gp.py:15-41 *)
Definition get_prior_mu (prior_mu : prior) (X : arr N) : res (mat N) :=
  match prior_mu with
  | None => Ok (mkmat (zeros N (alen X) 1) 1)
  | Some f => do p <- f X; assert (Nat.eqb (alen X) (nrows p)); Ok p
  end.

(** utils_gp.py:44-86 *)
Definition validate_common_args (X : arr N) (Y : mat N) (X_test : option (arr N)) : res unit :=
  assert (Nat.eqb (alen X) (nrows Y));
  match X_test with
  | None => Ok tt
  | Some Xs =>
      let k := match X with A2 _ _ => 1%nat | A3 _ _ _ _ => 2%nat end in
      match nth_error (shape X) k, nth_error (shape Xs) k with
      | Some a, Some b => assert_ (Nat.eqb a b)
      | _, _ => Raise IndexError
      end
  end.

(** Y_train - prior_mu_train for (n, 1) arrays *)
Definition centred (Y p : mat N) : res mx :=
  if Nat.eqb (mcols Y) 1 && Nat.eqb (mcols p) 1 then Ok (msub (mrows Y) (mrows p)) else Raise OutsideModel.

(** np.maximum(x, 0.0) *)
Definition clamp0 (x : N) : N := if nlt N x (nofZ N 0) then nofZ N 0 else x.
(** np.expand_dims(np.sqrt(np.maximum(np.diag(S), 0.0)), axis=1) *)
Definition deviations (l : nat) (S : mx) : mx := map (fun v => [nsqrt N (clamp0 v)]) (mdiag l S).

(** the common part of gp.py:93-112 and tp.py:111-133: checks, centred outputs, mean, unscaled covariance *)
Definition posterior (X : arr N) (Y : mat N) (Xs : arr N) (cov inv : mx) (hyps : dict N) (str_cov : string)
    (prior_mu : prior) : res (mx * mx * mx) :=
  do _ <- validate_common_args X Y (Some Xs);
  let n := alen X in
  let l := alen Xs in
  assert (has_shape (List.length cov) (List.length (nth 0 cov [])) inv);
  do _ <- check_str_cov str_cov (shape X) (Some (shape Xs));
  do prior_mu_train <- get_prior_mu prior_mu X;
  do prior_mu_test <- get_prior_mu prior_mu Xs;
  do cov_X_Xs <- cov_main nexp str_cov X Xs hyps false (JITTER_COV N);
  do cov_Xs_Xs <- cov_main nexp str_cov Xs Xs hyps true (JITTER_COV N);
  let cov_Xs_Xs := mmap N (fun c => ndiv N c (nofZ N 2)) (madd N cov_Xs_Xs (mtr N l l cov_Xs_Xs)) in
  do new_Y <- centred Y prior_mu_train;
  if negb (Nat.eqb (mcols prior_mu_test) 1) then Raise OutsideModel
  (* np.dot raises ValueError when the shapes do not fit *)
  else if has_shape n n inv then
    let w := mdot l n n (mtr N n l cov_X_Xs) inv in
    Ok (new_Y, madd N (mdot l n 1 w new_Y) (mrows prior_mu_test), msub cov_Xs_Xs (mdot l n l w cov_X_Xs))
  else Raise ValueError.

(** gp.py:55-112 *)
Definition predict_with_cov (X : arr N) (Y : mat N) (Xs : arr N) (cov inv : mx) (hyps : dict N) (str_cov : string)
    (prior_mu : prior) : res (mx * mx * mx) :=
  do p <- posterior X Y Xs cov inv hyps str_cov prior_mu;
  let '(_, mu_Xs, Sigma_Xs) := p in
  Ok (mu_Xs, deviations (alen Xs) Sigma_Xs, Sigma_Xs).

(** gp.py:115-160; [inv] is np.linalg.inv *)
Definition predict_with_hyps (inv : mx -> res mx) (X : arr N) (Y : mat N) (Xs : arr N) (hyps : dict N)
    (str_cov : string) (prior_mu : prior) : res (mx * mx * mx) :=
  do _ <- validate_common_args X Y (Some Xs);
  do _ <- check_str_cov str_cov (shape X) (Some (shape Xs));
  do k <- get_kernel_inverse nexp inv X hyps str_cov true false;
  let '(cov_X_X, inv_cov_X_X, _) := k in
  predict_with_cov X Y Xs cov_X_X inv_cov_X_X hyps str_cov prior_mu.

(** tp.py:66-137 *)
Definition tp_predict_with_cov (X : arr N) (Y : mat N) (Xs : arr N) (cov inv : mx) (hyps : dict N)
    (str_cov : string) (prior_mu : prior) : res (N * mx * mx * mx) :=
  do p <- posterior X Y Xs cov inv hyps str_cov prior_mu;
  let '(new_Y, mu_Xs, Sigma_Xs) := p in
  let n := alen X in
  do nu <- dfloat hyps "dof";
  let beta := mget N (mdot 1 n 1 (mdot 1 n n (mtr N n 1 new_Y) inv) new_Y) 0 0 in
  let nu_Xs := nadd N nu (nofnat N n) in
  let factor := ndiv N (nsub N (nadd N nu beta) (nofZ N 2)) (nsub N (nadd N nu (nofnat N n)) (nofZ N 2)) in
  let Sigma_Xs := mmap N (fun v => nmul N factor v) Sigma_Xs in
  Ok (nu_Xs, mu_Xs, deviations (alen Xs) Sigma_Xs, Sigma_Xs).

(** tp.py:140-189 *)
Definition tp_predict_with_hyps (inv : mx -> res mx) (X : arr N) (Y : mat N) (Xs : arr N) (hyps : dict N)
    (str_cov : string) (prior_mu : prior) : res (N * mx * mx * mx) :=
  do _ <- validate_common_args X Y (Some Xs);
  do _ <- check_str_cov str_cov (shape X) (Some (shape Xs));
  do k <- get_kernel_inverse nexp inv X hyps str_cov true false;
  let '(cov_X_X, inv_cov_X_X, _) := k in
  tp_predict_with_cov X Y Xs cov_X_X inv_cov_X_X hyps str_cov prior_mu.
End Model.
Arguments msub : clear implicits.
Arguments mdot : clear implicits.
Arguments mdiag : clear implicits.
Arguments centred : clear implicits.
Arguments deviations : clear implicits.
