(** Model of bayeso/utils/utils_covariance.py and of check_hyps_convergence (utils_bo.py:248-288). *)
From Verif Require Import Base Num UtilsModel.
From Coq Require Import List ZArith Bool String.
Set Implicit Arguments.
Local Open Scope string_scope.

Section Model.
Context (N : Num).

(** Python values that can sit in a dictionary of hyperparameters: a float (np.float64 included),
    a one-dimensional float array, anything else (int, str, None, list, ...). *)
Inductive pyval : Type :=
| PFloat (x : N)
| PArr (l : list N)
| POther (tag : nat).

(** dictionaries: association list, first binding counts *)
Definition dict : Type := list (string * pyval).
Fixpoint dget (d : dict) (k : string) : option pyval :=
  match d with
  | [] => None
  | (k', v) :: r => if k =? k' then Some v else dget r k
  end.
(** d[k] = v *)
Fixpoint dset (d : dict) (k : string) (v : pyval) : dict :=
  match d with
  | [] => [(k, v)]
  | (k', v') :: r => if k =? k' then (k', v) :: r else (k', v') :: dset r k v
  end.

(** constants.py:43-49 *)
Definition GP_NOISE : N := nlit N 1 100.
Definition RANGE_SIGNAL : N * N := (nlit N 1 100, nofZ N 1000).
Definition RANGE_LENGTHSCALES : N * N := (nlit N 1 100, nofZ N 1000).
Definition RANGE_NOISE : N * N := (nlit N 1 1000, nofZ N 10).
Definition RANGE_DOF : N * N := (nlit N 200001 100000, nofZ N 200).

(** utils_covariance.py:14-27 *)
Definition list_first : list string :=
  ["eq"; "se"; "matern32"; "matern52"; "set_eq"; "set_se"; "set_matern32"; "set_matern52"].

(** utils_covariance.py:30-77; np.ones of a negative dimension raises ValueError *)
Definition get_hyps (str_cov : string) (dim : Z) (use_gp use_ard : bool) : res dict :=
  assert (str_in str_cov ALLOWED_COV);
  let h := [("noise", PFloat GP_NOISE)] in
  let h := if use_gp then h else dset h "dof" (PFloat (nofZ N 5)) in
  if str_in str_cov list_first then
    let h := dset h "signal" (PFloat (nofZ N 1)) in
    if use_ard then
      if (dim <? 0)%Z then Raise ValueError
      else Ok (dset h "lengthscales" (PArr (repeat (nofZ N 1) (Z.to_nat dim))))
    else Ok (dset h "lengthscales" (PFloat (nofZ N 1)))
  else Raise NotImplementedError.

(** utils_covariance.py:80-134 *)
Definition get_range_hyps (str_cov : string) (dim : Z) (use_gp use_ard fix_noise : bool) : res (list (N * N)) :=
  assert (str_in str_cov ALLOWED_COV);
  let r := if fix_noise then [] else [RANGE_NOISE] in
  let r := (if use_gp then r else r ++ [RANGE_DOF])%list in
  if str_in str_cov list_first then
    let r := (r ++ [RANGE_SIGNAL])%list in
    if use_ard then Ok (r ++ repeat RANGE_LENGTHSCALES (Z.to_nat dim))%list
    else Ok (r ++ [RANGE_LENGTHSCALES])%list
  else Raise NotImplementedError.

(** hyps[k] used as a number: KeyError if absent; non-floats are outside the model (numpy would
    build an array of another type) *)
Definition dfloat (d : dict) (k : string) : res N :=
  match dget d k with
  | None => Raise KeyError
  | Some (PFloat x) => Ok x
  | Some _ => Raise OutsideModel
  end.

(** utils_covariance.py:137-187 *)
Definition convert_hyps (str_cov : string) (hyps : dict) (use_gp fix_noise : bool) : res (list N) :=
  assert (str_in str_cov ALLOWED_COV);
  do l1 <- (if fix_noise then Ok [] else do x <- dfloat hyps "noise"; Ok [x]);
  do l2 <- (if use_gp then Ok l1 else do x <- dfloat hyps "dof"; Ok (l1 ++ [x])%list);
  if str_in str_cov list_first then
    do s <- dfloat hyps "signal";
    match dget hyps "lengthscales" with
    | None => Raise KeyError
    | Some (PArr ls) => Ok (l2 ++ [s] ++ ls)%list
    | Some (PFloat l) => Ok (l2 ++ [s] ++ [l])%list
    | Some (POther _) => Raise ValueError
    end
  else Raise NotImplementedError.

Definition anth (l : list N) (i : nat) : res N :=
  match nth_error l i with Some x => Ok x | None => Raise IndexError end.

(** utils_covariance.py:190-255 *)
Definition restore_hyps (str_cov : string) (hyps : list N) (use_gp use_ard fix_noise : bool) (noise : N)
  : res dict :=
  assert (str_in str_cov ALLOWED_COV);
  do p <- (if fix_noise then Ok ([("noise", PFloat noise)], 0%nat)
           else do x <- anth hyps 0; Ok ([("noise", PFloat x)], 1%nat));
  let (d, ind_start) := p in
  do p <- (if use_gp then Ok (d, ind_start)
           else do x <- anth hyps ind_start; Ok (dset d "dof" (PFloat x), S ind_start));
  let (d, ind_start) := p in
  if str_in str_cov list_first then
    do s <- anth hyps ind_start;
    let d := dset d "signal" (PFloat s) in
    if use_ard then Ok (dset d "lengthscales" (PArr (skipn (S ind_start) hyps)))
    else
      assert (Nat.eqb (List.length hyps) (ind_start + 2));
      do x <- anth hyps (S ind_start);
      Ok (dset d "lengthscales" (PFloat x))
  else Raise NotImplementedError.

(** utils_covariance.py:258-321; the dictionary is updated in place and returned.
    BOUND_UPPER_GP_NOISE = np.inf, so [abs(noise) >= inf] holds exactly for infinities. *)
Definition validate_hyps_dict (hyps : dict) (str_cov : string) (dim : Z) (use_gp : bool) : res dict :=
  assert (str_in str_cov ALLOWED_COV);
  match dget hyps "noise" with
  | Some (PFloat noise) =>
      let a := nabs N noise in
      let hyps := match ninf N with
                  | Some inf => if nle N inf a then dset hyps "noise" (PFloat inf) else hyps
                  | None => hyps
                  end in
      do hyps <- (if use_gp then Ok hyps
                  else match dget hyps "dof" with
                       | Some (PFloat nu) =>
                           Ok (if nle N nu (nofZ N 2) then dset hyps "dof" (PFloat (nlit N 200001 100000)) else hyps)
                       | _ => Raise ValueError
                       end);
      match dget hyps "lengthscales" with
      | None => Raise ValueError
      | Some ls =>
          if (match ls with PArr l => negb (Z.of_nat (List.length l) =? dim)%Z | _ => false end)
          then Raise ValueError
          else match ls with
               | POther _ => Raise ValueError
               | _ => match dget hyps "signal" with
                      | Some (PFloat _) => Ok hyps
                      | _ => Raise ValueError
                      end
               end
      end
  | _ => Raise ValueError
  end.

(** utils_bo.py:248-288; list_hyps[-1] is the last entry; convert_hyps is called with use_gp at its
    default True.  Vectors of different lengths do not broadcast unless one has length 1 (outside the model). *)
Definition check_hyps_convergence (list_hyps : list dict) (hyps : dict) (str_cov : string) (fix_noise : bool)
    (ratio_threshold : N) : res bool :=
  match rev list_hyps with
  | [] => Ok false
  | last :: _ =>
      do h <- convert_hyps str_cov hyps true fix_noise;
      do t <- convert_hyps str_cov last true fix_noise;
      if Nat.eqb (List.length h) (List.length t)
      then Ok (nlt N (nnorm N (vsub N h t)) (nmul N (nnorm N t) ratio_threshold))
      else if Nat.eqb (List.length h) 1 || Nat.eqb (List.length t) 1 then Raise OutsideModel
      else Raise ValueError
  end.
End Model.

(** utils_covariance.py:357-395; shapes are tuples of naturals, shape_X2 may be None.
    (ALLOWED_COV = ALLOWED_COV_BASE + ALLOWED_COV_SET, so the third branch is kept but dead.) *)
Definition check_str_cov (str_cov : string) (shape_X1 : list nat) (shape_X2 : option (list nat)) : res unit :=
  if str_in str_cov ALLOWED_COV_BASE then
    assert (Nat.eqb (List.length shape_X1) 2);
    match shape_X2 with Some s => assert_ (Nat.eqb (List.length s) 2) | None => Ok tt end
  else if str_in str_cov ALLOWED_COV_SET then
    assert (Nat.eqb (List.length shape_X1) 3);
    match shape_X2 with Some s => assert_ (Nat.eqb (List.length s) 3) | None => Ok tt end
  else if str_in str_cov ALLOWED_COV then Raise ValueError
  else Raise ValueError.
