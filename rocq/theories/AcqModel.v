(** Model of bayeso/acquisition.py and of choose_fun_acquisition (bayeso/utils/utils_bo.py:203-245).
    1-d arrays are lists; Y_train of shape (n, 1) is the list of its n entries, so the ndim assertions hold by
    typing.  scipy.stats.norm.cdf/pdf and np.log are parameters. *)
From Verif Require Import Base Num UtilsModel.
From Coq Require Import List ZArith Bool String.
Set Implicit Arguments.

Section Model.
Context (N : Num) (cdf pdf lg : N -> N).

(** constants.py:13 *)
Definition JITTER_ACQ : N := nlit N 1 100000.

Definition map2 (f : N -> N -> N) (a b : list N) : list N := map (fun p => f (fst p) (snd p)) (combine a b).
Definition same_len (a b : list N) : bool := Nat.eqb (List.length a) (List.length b).

(** the entry of val_z; acquisition.py:49, 84, 171 *)
Definition val_z (best jitter m s : N) : N := ndiv N (nsub N best m) (nadd N s jitter).

(** acquisition.py:16-51 *)
Definition acq_pi (pred_mean pred_std Y_train : list N) (jitter : N) : res (list N) :=
  assert (same_len pred_mean pred_std);
  do best <- npmin N Y_train;
  Ok (map2 (fun m s => cdf (val_z best jitter m s)) pred_mean pred_std).

(** acquisition.py:54-88 *)
Definition ei_elt (best jitter m s : N) : N :=
  let z := val_z best jitter m s in
  nadd N (nmul N (nsub N best m) (cdf z)) (nmul N s (pdf z)).
Definition acq_ei (pred_mean pred_std Y_train : list N) (jitter : N) : res (list N) :=
  assert (same_len pred_mean pred_std);
  do best <- npmin N Y_train;
  Ok (map2 (ei_elt best jitter) pred_mean pred_std).

(** acquisition.py:91-137 *)
Definition acq_ucb (pred_mean pred_std : list N) (Y_train : option (list N)) (kappa : N) (increase_kappa : bool) : res (list N) :=
  assert (same_len pred_mean pred_std);
  let kappa_ := match Y_train with
    | Some Y => if increase_kappa then nmul N kappa (lg (nadd N (nofnat N (List.length Y)) (nofZ N 1))) else kappa
    | None => kappa end in
  Ok (map2 (fun m s => nadd N (nopp N m) (nmul N kappa_ s)) pred_mean pred_std).

(** acquisition.py:140-179; x**2 is x*x *)
Definition acq_aei (pred_mean pred_std Y_train : list N) (noise jitter : N) : res (list N) :=
  assert (same_len pred_mean pred_std);
  do best <- npmin N Y_train;
  Ok (map2 (fun m s => nmul N (ei_elt best jitter m s)
        (nsub N (nofZ N 1) (ndiv N noise (nsqrt N (nadd N (nsq N s) (nsq N noise)))))) pred_mean pred_std).

(** acquisition.py:182-199, 202-219 *)
Definition acq_pure_exploit (pred_mean : list N) : res (list N) := Ok (map (nopp N) pred_mean).
Definition acq_pure_explore (pred_std : list N) : res (list N) := Ok pred_std.

Local Open Scope string_scope.
(** utils_bo.py:203-245; the callable takes (pred_mean, pred_std, Y_train) *)
Definition choose_fun_acquisition (str_acq : string) (noise : option N)
  : res (list N -> list N -> list N -> res (list N)) :=
  assert (str_in str_acq ALLOWED_BO_ACQ);
  if str_acq =? "pi" then Ok (fun m s Y => acq_pi m s Y JITTER_ACQ)
  else if str_acq =? "ei" then Ok (fun m s Y => acq_ei m s Y JITTER_ACQ)
  else if str_acq =? "ucb" then Ok (fun m s Y => acq_ucb m s (Some Y) (nofZ N 2) true)
  else if str_acq =? "aei" then
    match noise with None => Raise AssertionError | Some v => Ok (fun m s Y => acq_aei m s Y v JITTER_ACQ) end
  else if str_acq =? "pure_exploit" then Ok (fun m _ _ => acq_pure_exploit m)
  else if str_acq =? "pure_explore" then Ok (fun _ s _ => acq_pure_explore s)
  else Raise NotImplementedError.
End Model.
