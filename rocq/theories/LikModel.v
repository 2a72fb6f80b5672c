(** Model of bayeso/gp/gp_likelihood.py and bayeso/tp/tp_likelihood.py.

    Simplifications: as in [GPModel]; moreover np.log, scipy.special.gamma, scipy.special.digamma, np.pi,
    np.linalg.slogdet and scipy.linalg.cho_solve are parameters, and np.einsum sums row by row.
    isinstance checks are carried by the types. *)
From Verif Require Import Base Num UtilsModel HypsModel CovModel GPModel.
From Coq Require Import List ZArith Bool String.
Set Implicit Arguments.
Local Open Scope string_scope.

Section Model.
Context (N : Num).
Notation mx := (list (list N)).
Context (nexp nlog : N -> N) (npi : N).
Context (inv : mx -> res mx).             (* np.linalg.inv *)
Context (chol : mx -> res mx).            (* scipy.linalg.cholesky(., lower=True) *)
Context (cho_solve : mx -> mx -> res mx). (* scipy.linalg.cho_solve((., True), .) *)
Context (slogdet : mx -> N * N).          (* np.linalg.slogdet *)
Context (ngamma ndigamma : N -> N).       (* scipy.special.gamma, scipy.special.digamma *)

(** constants.py:17 *)
Definition JITTER_LOG : N := nlit N 1 10000000.
Definition poshalf : N := nlit N 1 2.
Definition neghalf : N := nlit N (-1) 2.

(** gp_likelihood.py:60-70, 142-149, tp_likelihood.py:60-69: the checks shared by the three functions *)
Definition checks (X : arr N) (Y p : mat N) (str_cov : string) : res unit :=
  do _ <- validate_common_args X Y None;
  assert (Nat.eqb (alen X) (nrows Y) && Nat.eqb (nrows Y) (nrows p));
  check_str_cov str_cov (shape X) None.

(** np.dot(np.dot(y.T, b), y) for an (n, 1) array y *)
Definition bilin (n : nat) (y b : mx) : N := mget N (mdot N 1 n 1 (mdot N 1 n n (mtr N n 1 y) b) y) 0 0.
(** sign <= 0 gives 0.0 (gp_likelihood.py:99-104, tp_likelihood.py:84-91), then -0.5 * . *)
Definition logdet_term (c : mx) : N :=
  let (sign, v) := slogdet c in nmul N neghalf (if nle N sign (nofZ N 0) then nofZ N 0 else v).
(** sum over i, j of a[i, j] * b[i, j] *)
Definition esum (n : nat) (a b : mx) : N :=
  nsum N (map (fun i => nsum N (map (fun j => nmul N (mget N a i j) (mget N b i j)) (seq 0 n))) (seq 0 n)).

(** gp_likelihood.py:19-115; the result is (value, None) without gradient *)
Definition neg_log_ml (X : arr N) (Y : mat N) (hyps : list N) (str_cov : string) (prior_mu_train : mat N)
    (use_ard fix_noise use_cholesky use_gradient : bool) : res (N * option (list N)) :=
  do _ <- checks X Y prior_mu_train str_cov;
  let n := alen X in
  do hyps <- restore_hyps N str_cov hyps true use_ard fix_noise (GP_NOISE N);
  do new_Y <- centred N Y prior_mu_train;
  do t <- (if use_cholesky then
             do k <- get_kernel_cholesky nexp chol X hyps str_cov fix_noise use_gradient;
             let '(_, lower, grad_cov) := k in
             do alpha <- cho_solve lower new_Y;
             let first_term := nmul N neghalf (mget N (mdot N 1 n 1 (mtr N n 1 new_Y) alpha) 0 0) in
             let second_term := nmul N (nofZ N (-1))
                  (nsum N (map (fun v => nlog (nadd N v JITTER_LOG)) (mdiag N n lower))) in
             do g <- (if use_gradient then
                        match grad_cov with
                        | None => Raise AssertionError
                        | Some gs =>
                            do kinv <- cho_solve lower (eye N n n);
                            let ftg := mgen N n n (fun i j =>
                                 nsub N (nmul N (mget N alpha i 0) (mget N alpha j 0)) (mget N kinv i j)) in
                            Ok (Some (map (fun g => nmul N poshalf (esum n ftg g)) gs))
                        end
                      else Ok None);
             Ok (first_term, second_term, g)
           else
             do k <- get_kernel_inverse nexp inv X hyps str_cov fix_noise false;
             let '(cov_X_X, inv_cov_X_X, _) := k in
             Ok (nmul N neghalf (bilin n new_Y inv_cov_X_X), logdet_term cov_X_X, None));
  let '(first_term, second_term, g) := t in
  let third_term := nmul N (ndiv N (nopp N (nofnat N n)) (nofZ N 2)) (nlog (nmul N (nofZ N 2) npi)) in
  let log_ml := ndiv N (nadd N (nadd N first_term second_term) third_term) (nofnat N n) in
  Ok (nmul N (nofZ N (-1)) log_ml,
      option_map (map (fun v => ndiv N (nmul N (nofZ N (-1)) v) (nofnat N n))) g).

(** one term of the loop, gp_likelihood.py:163-180; [iy] is np.dot(inv_cov_X_X, Y_train)[i] *)
Definition loo_mu (y iy ii : N) : N := nsub N y (ndiv N iy ii).
Definition loo_sigma (ii : N) : N := nsqrt N (ndiv N (nofZ N 1) (nadd N ii (JITTER_COV N))).
Definition loo_term (y mu sigma : N) : N :=
  nadd N (nadd N (nmul N neghalf (nlog (nsq N sigma)))
                 (ndiv N (nmul N neghalf (nsq N (nsub N y mu))) (nsq N sigma)))
         (nmul N neghalf (nlog (nmul N (nofZ N 2) npi))).

(** gp_likelihood.py:118-185; use_ard of restore_hyps is left at its default True *)
Definition neg_log_pseudo_l_loocv (X : arr N) (Y : mat N) (hyps : list N) (str_cov : string) (prior_mu_train : mat N)
    (fix_noise : bool) : res N :=
  do _ <- checks X Y prior_mu_train str_cov;
  let n := alen X in
  do hyps <- restore_hyps N str_cov hyps true true fix_noise (GP_NOISE N);
  do k <- get_kernel_inverse nexp inv X hyps str_cov fix_noise false;
  let '(_, ic, _) := k in
  if negb (Nat.eqb (mcols Y) 1) then Raise OutsideModel
  else
    let iy := mdot N n n 1 ic (mrows Y) in
    let s := fold_left (fun acc i =>
               let y := mget N (mrows Y) i 0 in
               let mu := loo_mu y (mget N iy i 0) (mget N ic i i) in
               nadd N acc (loo_term y mu (loo_sigma (mget N ic i i)))) (seq 0 n) (nofZ N 0) in
    Ok (nmul N (ndiv N s (nofnat N n)) (nofZ N (-1))).

(** tp_likelihood.py:103-105: np.trace(np.dot(a, b)) *)
Definition trace_dot (n : nat) (a b : mx) : N := nsum N (mdiag N n (mdot N n n n a b)).

(** tp_likelihood.py:19-127 *)
Definition tp_neg_log_ml (X : arr N) (Y : mat N) (hyps : list N) (str_cov : string) (prior_mu_train : mat N)
    (use_ard fix_noise use_gradient : bool) : res (N * option (list N)) :=
  do _ <- checks X Y prior_mu_train str_cov;
  let n := alen X in
  let num_X := nofnat N n in
  do hyps <- restore_hyps N str_cov hyps false use_ard fix_noise (GP_NOISE N);
  do new_Y <- centred N Y prior_mu_train;
  do nu <- dfloat hyps "dof";
  do k <- get_kernel_inverse nexp inv X hyps str_cov fix_noise use_gradient;
  let '(c, ic, grad_cov) := k in
  let alpha := mdot N n n 1 ic new_Y in
  let beta := bilin n new_Y ic in
  let nu2 := nsub N nu (nofZ N 2) in
  let first_term := nmul N (nmul N neghalf num_X) (nlog (nmul N nu2 npi)) in
  let second_term := logdet_term c in
  let third_term := nlog (ndiv N (ngamma (ndiv N (nadd N nu num_X) (nofZ N 2))) (ngamma (ndiv N nu (nofZ N 2)))) in
  let log1 := nlog (nadd N (nofZ N 1) (ndiv N beta nu2)) in
  let fourth_term := nmul N (nmul N neghalf (nadd N nu num_X)) log1 in
  let log_ml := ndiv N (nadd N (nadd N (nadd N first_term second_term) third_term) fourth_term) num_X in
  do g <- (if use_gradient then
             match grad_cov with
             | None => Raise AssertionError
             | Some gs =>
                 let ftg := mgen N n n (fun i j =>
                      nsub N (nmul N (ndiv N (nadd N nu num_X) (nsub N (nadd N nu beta) (nofZ N 2)))
                                     (mget N (mdot N n 1 n alpha (mtr N n 1 alpha)) i j)) (mget N ic i j)) in
                 let nu_grad :=
                   nadd N (nsub N (nsub N (nadd N (ndiv N (nopp N num_X) (nmul N (nofZ N 2) nu2))
                                                 (ndigamma (ndiv N (nadd N nu num_X) (nofZ N 2))))
                                         (ndigamma (ndiv N nu (nofZ N 2))))
                                 (nmul N poshalf log1))
                          (ndiv N (nmul N (nadd N nu num_X) beta)
                                  (nadd N (nmul N (nofZ N 2) (nsq N nu2))
                                          (nmul N (nmul N (nofZ N 2) beta) nu2))) in
                 let g0 := repeat (nofZ N 0) (List.length gs + 1) in
                 let g1 := lset g0 (if fix_noise then 0%nat else 1%nat) nu_grad in
                 Ok (Some (fold_left (fun g ind =>
                        let cur_grad := nmul N poshalf (trace_dot n ftg (nth ind gs [])) in
                        let cur_ind := if fix_noise then S ind else match ind with O => O | _ => S ind end in
                        lset g cur_ind cur_grad) (seq 0 (List.length gs)) g1))
             end
           else Ok None);
  Ok (nmul N (nofZ N (-1)) log_ml,
      option_map (map (fun v => ndiv N (nmul N (nofZ N (-1)) v) num_X)) g).
End Model.
