(** binary64: u * (hi - lo) + lo stays in [lo, hi] for 0 <= u < 1, whatever the rounding errors. *)
From Verif Require Import Base Num NumLaws.
From Coq Require Import Reals ZArith Bool List Lra Lia Floats.SpecFloat.
From Flocq Require Import Core IEEE754.BinarySingleNaN.
Local Open Scope R_scope.

Definition fexp64 : Z -> Z := SpecFloat.fexp prec64 emax64.
Definition rnd64 : R -> R := round radix2 fexp64 ZnearestE.
Notation F64 := (generic_format radix2 fexp64).
#[local] Instance vexp64 : Valid_exp fexp64.
Proof. apply (fexp_correct prec64 emax64 prec64_gt_0). Qed.
#[local] Instance vrndE : Valid_rnd ZnearestE := valid_rnd_N _.

Lemma fexp64_flt : fexp64 = FLT_exp (-1074) 53.
Proof. reflexivity. Qed.

Lemma diff_exact x y : F64 x -> F64 y -> Rabs (x - y) <= bpow radix2 (-1021) -> F64 (x - y).
Proof.
  intros Hx Hy H. rewrite fexp64_flt in *. apply generic_format_FLT_FIX; [reflexivity|exact H|].
  apply generic_format_FIX_FLT in Hx. apply generic_format_FIX_FLT in Hy.
  apply FIX_format_generic in Hx. apply FIX_format_generic in Hy. destruct Hx as [fx Ex1 Ex2]. destruct Hy as [fy Ey1 Ey2].
  apply generic_format_FIX. exists (Float radix2 (Fnum fx - Fnum fy) (-1074)); [|reflexivity].
  rewrite Ex1, Ey1. unfold F2R. rewrite Ex2, Ey2. cbn [Fnum Fexp]. rewrite minus_IZR. ring.
Qed.

Lemma below_one u : F64 u -> u < 1 -> u <= 1 - bpow radix2 (-53).
Proof.
  intros Hu L. assert (F1 : F64 1) by (change 1 with (bpow radix2 0); apply generic_format_bpow; vm_compute; discriminate).
  assert (P := pred_ge_gt radix2 fexp64 u 1 Hu F1 L). eapply Rle_trans; [exact P|]. right.
  rewrite pred_eq_pos by lra.
  assert (M : mag_val radix2 1 (mag radix2 1) = 1%Z).
  { apply mag_unique. change (1 - 1)%Z with 0%Z. change (bpow radix2 0) with 1. change (bpow radix2 1) with 2. rewrite Rabs_pos_eq; lra. }
  change (bpow radix2 0) with 1. unfold pred_pos. rewrite M. change (1 - 1)%Z with 0%Z. change (bpow radix2 0) with 1. rewrite Req_bool_true by reflexivity. reflexivity.
Qed.

Lemma pred_gap w : F64 w -> bpow radix2 (-1021) <= w -> w - pred radix2 fexp64 w < w * bpow radix2 (-52).
Proof.
  intros Hw L. assert (P0 := bpow_gt_0 radix2 (-1021)). assert (W : 0 < w) by lra.
  rewrite pred_eq_pos by lra. unfold pred_pos.
  assert (E : (mag radix2 w >= -1020)%Z).
  { apply Z.le_ge. apply mag_ge_bpow. rewrite Rabs_pos_eq by lra. exact L. }
  assert (B := bpow_mag_le radix2 w ltac:(lra)). rewrite Rabs_pos_eq in B by lra.
  destruct (Req_bool_spec w (bpow radix2 (mag radix2 w - 1))) as [K|K].
  - replace (fexp64 (mag radix2 w - 1)) with (mag radix2 w - 1 + -53)%Z by (unfold fexp64, SpecFloat.fexp, SpecFloat.emin, prec64, emax64; lia).
    rewrite bpow_plus, <- K. assert (bpow radix2 (-53) < bpow radix2 (-52)) by (apply bpow_lt; lia). nra.
  - rewrite ulp_neq_0 by lra. unfold cexp. replace (fexp64 (mag radix2 w)) with (mag radix2 w - 1 + -52)%Z by (unfold fexp64, SpecFloat.fexp, SpecFloat.emin, prec64, emax64; lia).
    rewrite bpow_plus. assert (P := bpow_gt_0 radix2 (-52)). assert (bpow radix2 (mag radix2 w - 1) < w) by lra. nra.
Qed.

Lemma scaled_width lo hi u : F64 lo -> F64 hi -> F64 u -> 0 <= u < 1 -> lo <= hi ->
  0 <= rnd64 (u * rnd64 (hi - lo)) <= hi - lo.
Proof.
  intros Hl Hh Hu U LH. set (w := rnd64 (hi - lo)).
  assert (F0 : F64 0) by (apply generic_format_0).
  assert (FW : F64 w) by (apply generic_format_round; exact _).
  assert (W0 : 0 <= w) by (apply round_ge_generic; [exact _|exact _|exact F0|lra]).
  split. { apply round_ge_generic; [exact _|exact _|exact F0|]. apply Rmult_le_pos; lra. }
  destruct (Rle_or_lt (hi - lo) (bpow radix2 (-1021))) as [S|S].
  - assert (E : w = hi - lo).
    { apply round_generic; [exact _|]. apply diff_exact; [exact Hh|exact Hl|]. rewrite Rabs_pos_eq by lra. exact S. }
    rewrite <- E. apply round_le_generic; [exact _|exact _|exact FW|]. nra.
  - assert (LW : bpow radix2 (-1021) <= w).
    { apply round_ge_generic; [exact _|exact _| |lra]. apply generic_format_bpow. vm_compute. discriminate. }
    assert (P0 := bpow_gt_0 radix2 (-1021)).
    assert (G := pred_gap w FW LW).
    assert (FP : F64 (pred radix2 fexp64 w)) by (apply generic_format_pred; [exact _|exact FW]).
    assert (K : rnd64 (u * w) <= pred radix2 fexp64 w).
    { apply round_N_le_midp; [exact _|exact FP|]. rewrite succ_pred by (exact _ || exact FW).
      assert (UB := below_one u Hu ltac:(lra)).
      assert (E : bpow radix2 (-53) = bpow radix2 (-52) / 2) by (change (-53)%Z with (-52 + -1)%Z; rewrite bpow_plus; change (bpow radix2 (-1)) with (/2); lra).
      assert (u * w <= (1 - bpow radix2 (-53)) * w) by (apply Rmult_le_compat_r; lra). rewrite E in *. nra. }
    eapply Rle_trans; [exact K|]. destruct (Rle_or_lt (pred radix2 fexp64 w) (hi - lo)) as [C|C]; [exact C|].
    assert (w <= pred radix2 fexp64 w) by (apply round_le_generic; [exact _|exact _|exact FP|lra]).
    assert (pred radix2 fexp64 w < w) by (apply pred_lt_id; lra). lra.
Qed.

Lemma affine_round lo hi u : F64 lo -> F64 hi -> F64 u -> 0 <= u < 1 -> lo <= hi ->
  lo <= rnd64 (rnd64 (u * rnd64 (hi - lo)) + lo) <= hi.
Proof.
  intros Hl Hh Hu U LH. destruct (scaled_width lo hi u Hl Hh Hu U LH) as (A & B).
  split; [apply round_ge_generic|apply round_le_generic]; try exact _; try assumption; lra.
Qed.

(** ** on floats *)
Lemma B2R_F64 (x : f64) : F64 (B2R x).
Proof. apply generic_format_B2R. Qed.

Lemma fsub_finite (x y : f64) : is_finite x = true -> is_finite y = true -> is_finite (fsub x y) = true -> B2R (fsub x y) = rnd64 (B2R x - B2R y).
Proof.
  intros Hx Hy H. assert (C := Bminus_correct prec64 emax64 prec64_gt_0 prec64_lt_emax mode_NE x y Hx Hy).
  destruct (Rlt_bool _ _); [apply C|]. destruct C as (C & _). unfold fsub in H. destruct (Bminus mode_NE x y); try discriminate H; destruct (Bsign x); discriminate C.
Qed.
Lemma fadd_finite (x y : f64) : is_finite x = true -> is_finite y = true -> is_finite (fadd x y) = true -> B2R (fadd x y) = rnd64 (B2R x + B2R y).
Proof.
  intros Hx Hy H. assert (C := Bplus_correct prec64 emax64 prec64_gt_0 prec64_lt_emax mode_NE x y Hx Hy).
  destruct (Rlt_bool _ _); [apply C|]. destruct C as (C & _). unfold fadd in H. destruct (Bplus mode_NE x y); try discriminate H; destruct (Bsign x); discriminate C.
Qed.
Lemma fadd_small (x y : f64) : is_finite x = true -> is_finite y = true -> Rabs (rnd64 (B2R x + B2R y)) < bpow radix2 emax64 ->
  is_finite (fadd x y) = true /\ B2R (fadd x y) = rnd64 (B2R x + B2R y).
Proof.
  intros Hx Hy H. assert (C := Bplus_correct prec64 emax64 prec64_gt_0 prec64_lt_emax mode_NE x y Hx Hy).
  change (round radix2 (SpecFloat.fexp prec64 emax64) (round_mode mode_NE)) with rnd64 in C. rewrite (Rlt_bool_true _ _ H) in C. split; apply C.
Qed.
Lemma fmul_small (x y : f64) : is_finite x = true -> is_finite y = true -> Rabs (rnd64 (B2R x * B2R y)) < bpow radix2 emax64 ->
  is_finite (fmul x y) = true /\ B2R (fmul x y) = rnd64 (B2R x * B2R y).
Proof.
  intros Hx Hy H. assert (C := Bmult_correct prec64 emax64 prec64_gt_0 prec64_lt_emax mode_NE x y).
  change (round radix2 (SpecFloat.fexp prec64 emax64) (round_mode mode_NE)) with rnd64 in C. rewrite (Rlt_bool_true _ _ H) in C. destruct C as (C1 & C2 & _). rewrite Hx, Hy in C2. auto.
Qed.

Definition inside64 (lo hi x : f64) : Prop := is_finite x = true /\ B2R lo <= B2R x <= B2R hi.

Theorem scaled_unit_inside (lo hi u : f64) :
  is_finite lo = true -> is_finite hi = true -> is_finite (fsub hi lo) = true -> B2R lo <= B2R hi ->
  is_finite u = true -> 0 <= B2R u < 1 -> inside64 lo hi (fadd (fmul u (fsub hi lo)) lo).
Proof.
  intros Fl Fh Fw LH Fu U. assert (EW := fsub_finite hi lo Fh Fl Fw).
  destruct (scaled_width (B2R lo) (B2R hi) (B2R u) (B2R_F64 _) (B2R_F64 _) (B2R_F64 _) U LH) as (A & B).
  assert (R := affine_round (B2R lo) (B2R hi) (B2R u) (B2R_F64 _) (B2R_F64 _) (B2R_F64 _) U LH).
  assert (MW : 0 <= rnd64 (B2R hi - B2R lo)) by (apply round_ge_generic; [exact _|exact _|apply generic_format_0|lra]).
  assert (LW := abs_B2R_lt_emax prec64 emax64 (fsub hi lo)). rewrite EW in LW.
  destruct (fmul_small u (fsub hi lo) Fu Fw) as (Fm & Em).
  { rewrite EW. eapply Rle_lt_trans; [|exact LW]. rewrite !Rabs_pos_eq by assumption.
    apply round_le_generic; [exact _|exact _|apply generic_format_round; exact _|]. nra. }
  rewrite EW in Em. destruct (fadd_small (fmul u (fsub hi lo)) lo Fm Fl) as (Fa & Ea).
  { rewrite Em. assert (L1 := abs_B2R_lt_emax prec64 emax64 lo). assert (L2 := abs_B2R_lt_emax prec64 emax64 hi).
    apply Rabs_lt. apply Rabs_lt_inv in L1. apply Rabs_lt_inv in L2. lra. }
  split; [exact Fa|]. rewrite Ea, Em. exact R.
Qed.
