(** Numbers used by the code: one record of operations, two instances
    (exact reals, IEEE-754 binary64). *)
From Coq Require Import Reals ZArith Bool List.
From Flocq Require Import Core.Core IEEE754.BinarySingleNaN.
From Verif Require Import Base.
Set Implicit Arguments.

(** Operations on the scalars stored in numpy arrays.
    [nltinf x] is the Python test [x < np.inf];
    [ninf] is the array element [np.inf] when the carrier has one. *)
Record Num : Type := mkNum {
  car :> Type;
  nofZ : Z -> car;
  nadd : car -> car -> car;
  nsub : car -> car -> car;
  nmul : car -> car -> car;
  ndiv : car -> car -> car;
  nsqrt : car -> car;
  nopp : car -> car;
  nabs : car -> car;
  nlt : car -> car -> bool;
  nle : car -> car -> bool;
  neqb : car -> car -> bool;
  nisnan : car -> bool;
  nltinf : car -> bool;
  ninf : option car
}.

Definition nofnat (N : Num) (n : nat) : N := nofZ N (Z.of_nat n).
(** a decimal literal p/q; both integers are exact in binary64 for the literals used, so the
    quotient is the correctly rounded literal *)
Definition nlit (N : Num) (p q : Z) : N := ndiv N (nofZ N p) (nofZ N q).

(** numpy sum of a list, left to right (numpy sums pairwise from 8 elements on; this only matters
    for rounding). *)
Definition nsum (N : Num) (l : list N) : N := fold_left (nadd N) l (nofZ N 0).
Definition nmean (N : Num) (l : list N) : N := ndiv N (nsum N l) (nofnat N (List.length l)).
Definition nsq (N : Num) (x : N) : N := nmul N x x.
(** np.std(l, ddof): sqrt (sum (x - mean)^2 / (n - ddof)) *)
Definition nstd (N : Num) (ddof : nat) (l : list N) : N :=
  nsqrt N (ndiv N (nsum N (List.map (fun x => nsq N (nsub N x (nmean N l))) l))
                  (nofZ N (Z.of_nat (List.length l) - Z.of_nat ddof))).
(** np.linalg.norm of a vector *)
Definition nnorm (N : Num) (l : list N) : N := nsqrt N (nsum N (List.map (nsq N) l)).
Definition vsub (N : Num) (a b : list N) : list N :=
  List.map (fun p => nsub N (fst p) (snd p)) (List.combine a b).

(** np.min / np.max of a non-empty array: NaN propagates (the first NaN met wins). *)
Definition npmin2 (N : Num) (a b : N) : N :=
  if nisnan N a then a else if nisnan N b then b else if nlt N b a then b else a.
Definition npmax2 (N : Num) (a b : N) : N :=
  if nisnan N a then a else if nisnan N b then b else if nlt N a b then b else a.
(** the ValueError of numpy on an empty array *)
Definition npmin (N : Num) (l : list N) : res N :=
  match l with [] => Raise ValueError | x :: r => Ok (fold_left (npmin2 N) r x) end.
Definition npmax (N : Num) (l : list N) : res N :=
  match l with [] => Raise ValueError | x :: r => Ok (fold_left (npmax2 N) r x) end.

(** np.argmin: first NaN if any, otherwise first index of the smallest value;
    ValueError on an empty array. *)
Fixpoint argmin_from (N : Num) (l : list N) (i besti : nat) (best : N) : nat :=
  match l with
  | [] => besti
  | x :: r =>
      if nisnan N best then besti
      else if nisnan N x then argmin_from N r (S i) i x
      else if nlt N x best then argmin_from N r (S i) i x
      else argmin_from N r (S i) besti best
  end.
Definition npargmin (N : Num) (l : list N) : res nat :=
  match l with [] => Raise ValueError | x :: r => Ok (argmin_from N r 1 0 x) end.

(** ** Exact reals *)
Definition NumR : Num := {|
  car := R;
  nofZ := IZR;
  nadd := Rplus; nsub := Rminus; nmul := Rmult; ndiv := Rdiv;
  nsqrt := R_sqrt.sqrt; nopp := Ropp; nabs := Rabs;
  nlt := Rlt_bool; nle := Rle_bool; neqb := Req_bool;
  nisnan := fun _ => false;
  nltinf := fun _ => true;
  ninf := None
|}.

(** ** IEEE-754 binary64, round to nearest even (numpy float64) *)
Definition prec64 : Z := 53.
Definition emax64 : Z := 1024.
Lemma prec64_gt_0 : Prec_gt_0 prec64. Proof. reflexivity. Qed.
Lemma prec64_lt_emax : Prec_lt_emax prec64 emax64. Proof. reflexivity. Qed.
#[global] Existing Instance prec64_gt_0.
#[global] Existing Instance prec64_lt_emax.

Definition f64 : Type := binary_float prec64 emax64.
Definition fadd : f64 -> f64 -> f64 := Bplus mode_NE.
Definition fsub : f64 -> f64 -> f64 := Bminus mode_NE.
Definition fmul : f64 -> f64 -> f64 := Bmult mode_NE.
Definition fdiv : f64 -> f64 -> f64 := Bdiv mode_NE.
Definition fsqrt : f64 -> f64 := Bsqrt mode_NE.
Definition fofZ (z : Z) : f64 := binary_normalize prec64 emax64 prec64_gt_0 prec64_lt_emax mode_NE z 0 false.
Definition finf : f64 := B754_infinity false.
Definition fnan : f64 := B754_nan.

Definition NumF : Num := {|
  car := f64;
  nofZ := fofZ;
  nadd := fadd; nsub := fsub; nmul := fmul; ndiv := fdiv;
  nsqrt := fsqrt; nopp := Bopp; nabs := Babs;
  nlt := Bltb; nle := Bleb; neqb := Beqb;
  nisnan := is_nan;
  nltinf := fun x => Bltb x finf;
  ninf := Some finf
|}.
