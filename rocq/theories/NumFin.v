(** What the tree code needs to know about finite numbers: they are not NaN and neither is the midpoint of two. *)
From Verif Require Import Base Num NumLaws.
From Coq Require Import List ZArith Reals Lra Lia.
From Flocq Require Import Core IEEE754.BinarySingleNaN.

Record NumFin (N : Num) : Type := {
  fin : N -> Prop;
  fin_notnan : forall x, fin x -> nisnan N x = false;
  fin_mid : forall a b, fin a -> fin b -> nisnan N (nmean N [a; b]) = false }.
Arguments fin {N}. Arguments fin_notnan {N}. Arguments fin_mid {N}.

Definition NumR_fin : NumFin NumR.
Proof. refine {| fin := fun _ => True |}; reflexivity. Defined.

Lemma Bplus_not_nan (x y : f64) : is_finite x = true -> is_finite y = true -> is_nan (fadd x y) = false.
Proof.
  intros Hx Hy. unfold fadd.
  assert (C := Bplus_correct prec64 emax64 prec64_gt_0 prec64_lt_emax mode_NE x y Hx Hy).
  destruct (Rlt_bool _ _).
  - destruct C as (_ & F & _). destruct (Bplus mode_NE x y); try reflexivity; discriminate.
  - destruct C as (B & _). destruct (Bplus mode_NE x y); try reflexivity. cbn in B. destruct (Bsign x); discriminate B.
Qed.

Lemma fofZ2_R : B2R (fofZ 2 : f64) = 2%R.
Proof. vm_compute. lra. Qed.

Lemma Bdiv2_not_nan (x : f64) : is_nan x = false -> is_nan (fdiv x (fofZ 2)) = false.
Proof.
  intros Hx. unfold fdiv.
  assert (K : is_finite_strict (fofZ 2 : f64) = true) by (vm_compute; reflexivity).
  destruct (fofZ 2) as [s|s| |s m e b] eqn:E; try discriminate K.
  destruct x as [sx|sx| |sx mx ex bx]; try reflexivity; try discriminate.
  assert (NZ : B2R (B754_finite s m e b : f64) <> 0%R) by (rewrite <- E, fofZ2_R; lra).
  assert (C := Bdiv_correct prec64 emax64 prec64_gt_0 prec64_lt_emax mode_NE (B754_finite sx mx ex bx : f64) (B754_finite s m e b) NZ).
  destruct (Rlt_bool _ _).
  - destruct C as (_ & F & _). destruct (Bdiv mode_NE _ _); try reflexivity; discriminate.
  - destruct (Bdiv mode_NE _ _); try reflexivity. cbn in C. destruct (xorb _ _); discriminate C.
Qed.

Lemma fadd0_nan (x : f64) : is_nan x = false -> is_nan (fadd (fofZ 0) x) = false.
Proof.
  intros Hx. unfold fadd. assert (K : is_finite (fofZ 0 : f64) = true /\ is_finite_strict (fofZ 0 : f64) = false) by (vm_compute; split; reflexivity).
  destruct (fofZ 0) as [s|s| |s m e b]; try (destruct K; discriminate).
  destruct x as [sx|sx| |sx mx ex bx]; cbn; try reflexivity; try discriminate. destruct (Bool.eqb s sx); reflexivity.
Qed.
Lemma fadd0_fin (x : f64) : is_finite x = true -> is_finite (fadd (fofZ 0) x) = true.
Proof.
  intros Hx. unfold fadd. assert (K : is_finite (fofZ 0 : f64) = true /\ is_finite_strict (fofZ 0 : f64) = false) by (vm_compute; split; reflexivity).
  destruct (fofZ 0) as [s|s| |s m e b]; try (destruct K; discriminate).
  destruct x as [sx|sx| |sx mx ex bx]; cbn; try reflexivity; try discriminate. destruct (Bool.eqb s sx); reflexivity.
Qed.

Definition NumF_fin : NumFin NumF.
Proof.
  refine {| fin := fun x : NumF => is_finite (x : f64) = true |}.
  - intros x. destruct x; try reflexivity; discriminate.
  - intros a b Ha Hb. unfold nmean, nsum, nofnat. cbn [fold_left List.length].
    change (is_nan (fdiv (fadd (fadd (fofZ 0) a) b) (fofZ 2)) = false).
    apply Bdiv2_not_nan, Bplus_not_nan; [now apply fadd0_fin | exact Hb].
Defined.
