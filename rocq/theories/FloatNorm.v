(** binary64: min-max normalisation of finite responses. *)
From Verif Require Import Base Num NumLaws UtilsModel SamplingFloat FloatSpec FloatOps.
From Coq Require Import Reals ZArith Bool List Lra Lia Floats.SpecFloat.
From Flocq Require Import Core IEEE754.BinarySingleNaN.
Import ListNotations.
Local Open Scope R_scope.
#[local] Existing Instance vexp64.
#[local] Existing Instance vrndE.

Lemma flt_R (x y : f64) : finite x -> finite y -> nlt NumF x y = Rlt_bool (B2R x) (B2R y).
Proof. intros Hx Hy. apply Bltb_correct; assumption. Qed.

Lemma npmin_F (l : list f64) m : Forall finite l -> npmin NumF l = Ok m -> In m l /\ forall y, In y l -> B2R m <= B2R y.
Proof.
  destruct l as [|x l]; cbn [npmin]; [discriminate|]. intros HF H. injection H as <-. inversion HF as [|? ? Hx Hl]; subst. clear HF.
  revert x Hx. induction l as [|y l IH]; intros x Hx; cbn [fold_left].
  - split; [now left|]. intros y [<-|[]]. lra.
  - inversion Hl as [|? ? Hy Hl']; subst. unfold npmin2 at 2 4. cbn [nisnan NumF]. rewrite (finite_notnan _ Hx), (finite_notnan _ Hy).
    rewrite (flt_R y x Hy Hx). destruct (Rlt_bool_spec (B2R y) (B2R x)) as [L|L].
    + destruct (IH Hl' y Hy) as (A & B). split; [now right|]. intros z [<-|Hz]; [|now apply B].
      pose proof (B y (or_introl eq_refl)). lra.
    + destruct (IH Hl' x Hx) as (A & B). split; [destruct A; [now left|now right; right]|].
      intros z [<-|[<-|Hz]]; [apply B; now left| |apply B; now right]. pose proof (B x (or_introl eq_refl)). lra.
Qed.
Lemma npmax_F (l : list f64) m : Forall finite l -> npmax NumF l = Ok m -> In m l /\ forall y, In y l -> B2R y <= B2R m.
Proof.
  destruct l as [|x l]; cbn [npmax]; [discriminate|]. intros HF H. injection H as <-. inversion HF as [|? ? Hx Hl]; subst. clear HF.
  revert x Hx. induction l as [|y l IH]; intros x Hx; cbn [fold_left].
  - split; [now left|]. intros y [<-|[]]. lra.
  - inversion Hl as [|? ? Hy Hl']; subst. unfold npmax2 at 2 4. cbn [nisnan NumF]. rewrite (finite_notnan _ Hx), (finite_notnan _ Hy).
    rewrite (flt_R x y Hx Hy). destruct (Rlt_bool_spec (B2R x) (B2R y)) as [L|L].
    + destruct (IH Hl' y Hy) as (A & B). split; [now right|]. intros z [<-|Hz]; [|now apply B].
      pose proof (B y (or_introl eq_refl)). lra.
    + destruct (IH Hl' x Hx) as (A & B). split; [destruct A; [now left|now right; right]|].
      intros z [<-|[<-|Hz]]; [apply B; now left| |apply B; now right]. pose proof (B x (or_introl eq_refl)). lra.
Qed.

(** a positive difference does not round to zero *)
Lemma rnd_diff_pos (x y : f64) : B2R y < B2R x -> 0 < rnd64 (B2R x - B2R y).
Proof.
  intros H. destruct (Rle_or_lt (B2R x - B2R y) (bpow radix2 (-1021))) as [S|S].
  - rewrite rnd64_id; [lra|]. apply diff_exact; try apply B2R_F64. rewrite Rabs_pos_eq by lra. exact S.
  - apply Rlt_le_trans with (bpow radix2 (-1021)); [apply bpow_gt_0|]. rewrite <- (rnd64_id (bpow radix2 (-1021))) by (apply F64_bpow; lia).
    apply rnd64_le. lra.
Qed.

Lemma ten_val : finite (fofZ 10) /\ B2R (fofZ 10) = 10.
Proof. apply fofZ_val. reflexivity. Qed.

Section Norm.
Context (mn mx : f64).
Hypotheses (Fn : finite mn) (Fm : finite mx) (LT : B2R mn < B2R mx) (FR : finite (fsub mx mn)).
Let w := rnd64 (B2R mx - B2R mn).
Definition unit_of (y : f64) : R := rnd64 (rnd64 (B2R y - B2R mn) / w).
Definition scaled_to (y : f64) : f64 := fmul (fdiv (fsub y mn) (fsub mx mn)) (fofZ 10).
Lemma w_pos : 0 < w. Proof. now apply rnd_diff_pos. Qed.
Lemma unit_range (y : f64) : B2R mn <= B2R y <= B2R mx -> 0 <= rnd64 (B2R y - B2R mn) / w <= 1.
Proof.
  intros H. pose proof w_pos as W. split.
  - apply Rmult_le_pos; [apply rnd64_pos; lra|]. left. now apply Rinv_0_lt_compat.
  - apply Rmult_le_reg_r with w; [exact W|]. unfold Rdiv. rewrite Rmult_assoc, Rinv_l by lra. rewrite Rmult_1_r, Rmult_1_l. apply rnd64_le. lra.
Qed.
Lemma unit_01 (y : f64) : B2R mn <= B2R y <= B2R mx -> 0 <= unit_of y <= 1.
Proof.
  intros H. destruct (unit_range y H) as (A & B). split; [now apply rnd64_pos|].
  rewrite <- (rnd64_id 1) by (apply (F64_Z 1); reflexivity). now apply rnd64_le.
Qed.
Lemma scaled_val (y : f64) : finite y -> B2R mn <= B2R y <= B2R mx -> finite (scaled_to y) /\ B2R (scaled_to y) = rnd64 (unit_of y * 10).
Proof.
  intros Fy H. pose proof w_pos as W.
  assert (LW := abs_B2R_lt_emax prec64 emax64 (fsub mx mn)). rewrite (fsub_finite mx mn Fm Fn FR) in LW. fold w in LW. rewrite Rabs_pos_eq in LW by lra.
  assert (E1 : finite (fsub y mn) /\ B2R (fsub y mn) = rnd64 (B2R y - B2R mn)).
  { assert (K := Bminus_correct prec64 emax64 prec64_gt_0 prec64_lt_emax mode_NE y mn Fy Fn).
    change (round radix2 (SpecFloat.fexp prec64 emax64) (round_mode mode_NE)) with rnd64 in K. rewrite Rlt_bool_true in K.
    - destruct K as (E & F & _). split; [exact F|exact E].
    - rewrite Rabs_pos_eq by (apply rnd64_pos; lra). eapply Rle_lt_trans; [|exact LW]. apply rnd64_le. lra. }
  destruct E1 as (F1 & V1).
  destruct (unit_range y H) as (U0 & U1).
  destruct (fdiv_val (fsub y mn) (fsub mx mn) 1 F1) as ((F2 & _) & V2).
  - rewrite (fsub_finite mx mn Fm Fn FR). fold w. lra.
  - apply (F64_Z 1). reflexivity.
  - change 1 with (bpow radix2 0). apply bpow_lt_max. lia.
  - rewrite V1, (fsub_finite mx mn Fm Fn FR). fold w. rewrite Rabs_pos_eq by exact U0. exact U1.
  - rewrite V1, (fsub_finite mx mn Fm Fn FR) in V2. fold w in V2. change (rnd64 (rnd64 (B2R y - B2R mn) / w)) with (unit_of y) in V2.
    destruct ten_val as (F10 & V10). pose proof (unit_01 y H) as U.
    destruct (fmul_val (fdiv (fsub y mn) (fsub mx mn)) (fofZ 10) 10 F2 F10) as ((F3 & _) & V3).
    + apply (F64_Z 10). reflexivity.
    + apply Rlt_trans with (bpow radix2 4); [cbn; lra|apply bpow_lt_max; lia].
    + rewrite V2, V10, Rabs_pos_eq by lra. lra.
    + rewrite V2, V10 in V3. split; [exact F3|exact V3].
Qed.
Lemma scaled_range (y : f64) : finite y -> B2R mn <= B2R y <= B2R mx -> 0 <= B2R (scaled_to y) <= 10.
Proof.
  intros Fy H. destruct (scaled_val y Fy H) as (_ & ->). pose proof (unit_01 y H). split; [apply rnd64_pos; lra|].
  apply Rle_trans with (rnd64 10); [apply rnd64_le; lra|]. right. apply rnd64_id. apply (F64_Z 10). reflexivity.
Qed.
Lemma scaled_mono (y y' : f64) :   finite y -> finite y' -> B2R mn <= B2R y -> B2R y <= B2R y' -> B2R y' <= B2R mx -> B2R (scaled_to y) <= B2R (scaled_to y').
Proof.
  intros Fy Fy' A B C. destruct (scaled_val y Fy ltac:(lra)) as (_ & ->). destruct (scaled_val y' Fy' ltac:(lra)) as (_ & ->). pose proof w_pos as W.
  apply rnd64_le. apply Rmult_le_compat_r; [lra|]. apply rnd64_le. apply Rmult_le_compat_r; [left; now apply Rinv_0_lt_compat|]. apply rnd64_le. lra.
Qed.
Lemma scaled_min (y : f64) : finite y -> B2R y = B2R mn -> B2R (scaled_to y) = 0.
Proof.
  intros Fy E. destruct (scaled_val y Fy ltac:(lra)) as (_ & ->). unfold unit_of. rewrite E. replace (B2R mn - B2R mn) with 0 by ring.
  assert (Z : rnd64 0 = 0) by (apply rnd64_id, generic_format_0). rewrite Z. unfold Rdiv. rewrite Rmult_0_l, Z, Rmult_0_l. exact Z.
Qed.
Lemma scaled_max (y : f64) : finite y -> B2R y = B2R mx -> B2R (scaled_to y) = 10.
Proof.
  intros Fy E. destruct (scaled_val y Fy ltac:(lra)) as (_ & ->). pose proof w_pos as W. unfold unit_of. rewrite E. fold w. unfold Rdiv. rewrite Rinv_r by lra.
  rewrite (rnd64_id 1) by (apply (F64_Z 1); reflexivity). rewrite Rmult_1_l. apply rnd64_id. apply (F64_Z 10). reflexivity.
Qed.
End Norm.


Lemma map_scaled Y mx mn : npmax NumF Y = Ok mx -> npmin NumF Y = Ok mn -> Forall finite Y -> B2R mn <> B2R mx ->
  normalize_min_max NumF Y = Ok (map (scaled_to mn mx) Y).
Proof.
  intros E1 E2 HF NE. unfold normalize_min_max. rewrite E1. cbn [rbind]. rewrite E2. cbn [rbind].
  assert (Fm : finite mx) by (pose proof (proj1 (npmax_F _ _ HF E1)) as I0; rewrite Forall_forall in HF; now apply HF).
  assert (Fn : finite mn) by (pose proof (proj1 (npmin_F _ _ HF E2)) as I0; rewrite Forall_forall in HF; now apply HF).
  assert (Q : neqb NumF mx mn = false).
  { cbn [neqb NumF]. rewrite Beqb_correct by assumption. apply Req_bool_false. congruence. }
  rewrite Q. reflexivity.
Qed.

Theorem normalize_float (Y : list f64) : Forall finite Y -> spread Y -> (forall y y', In y Y -> In y' Y -> finite (fsub y y')) ->
  exists Z, normalize_min_max NumF Y = Ok Z /\ List.length Z = List.length Y /\
    (forall i (y z : f64), nth_error Y i = Some y -> nth_error Z i = Some z ->
       finite z /\ 0 <= B2R z <= 10 /\
       ((forall v : f64, In v Y -> B2R y <= B2R v) -> B2R z = 0) /\ ((forall v : f64, In v Y -> B2R v <= B2R y) -> B2R z = 10)) /\
    (forall i j (y y' z z' : f64), nth_error Y i = Some y -> nth_error Y j = Some y' -> nth_error Z i = Some z -> nth_error Z j = Some z' ->
       B2R y <= B2R y' -> B2R z <= B2R z').
Proof.
  intros HF (a & b & Ha & Hb & NE) HR.
  destruct (npmax NumF Y) as [mx|] eqn:E1; [|destruct Y; [destruct Ha|discriminate]].
  destruct (npmin NumF Y) as [mn|] eqn:E2; [|destruct Y; [destruct Ha|discriminate]].
  destruct (npmax_F Y mx HF E1) as (I1 & M1). destruct (npmin_F Y mn HF E2) as (I2 & M2).
  assert (LT : B2R mn < B2R mx).
  { pose proof (M1 a Ha). pose proof (M1 b Hb). pose proof (M2 a Ha). pose proof (M2 b Hb). destruct (Rtotal_order (B2R a) (B2R b)) as [?|[?|?]]; [lra|congruence|lra]. }
  pose proof HF as HF'. rewrite Forall_forall in HF'. pose proof (HF' _ I1) as Fm. pose proof (HF' _ I2) as Fn. pose proof (HR _ _ I1 I2) as FR.
  exists (map (scaled_to mn mx) Y). split; [apply (map_scaled Y mx mn); auto; lra|]. split; [apply map_length|].
  assert (G : forall i y z, nth_error Y i = Some y -> nth_error (map (scaled_to mn mx) Y) i = Some z -> In y Y /\ z = scaled_to mn mx y).
  { intros i y z Hy Hz. rewrite nth_error_map in Hz. rewrite Hy in Hz. injection Hz as <-. split; [eapply nth_error_In; eauto|reflexivity]. }
  split.
  - intros i y z Hy Hz. destruct (G i y z Hy Hz) as (Iy & ->). pose proof (HF' y Iy) as Fy.
    assert (RG : B2R mn <= B2R y <= B2R mx) by (split; auto).
    split; [apply (scaled_val mn mx Fn Fm LT FR y Fy RG)|]. split; [now apply scaled_range|]. split; intros H.
    + apply scaled_min; auto. apply Rle_antisym; [now apply H|tauto].
    + apply scaled_max; auto. apply Rle_antisym; [tauto|now apply H].
  - intros i j y y' z z' Hy Hy' Hz Hz' L. destruct (G i y z Hy Hz) as (Iy & ->). destruct (G j y' z' Hy' Hz') as (Iy' & ->).
    apply (scaled_mono mn mx Fn Fm LT FR); auto.
Qed.

(** without spread the responses are returned as they are *)
Theorem normalize_float_same (Y : list f64) : Y <> [] -> Forall finite Y -> ~ spread Y -> normalize_min_max NumF Y = Ok Y.
Proof.
  intros NE HF NS. unfold normalize_min_max.
  destruct (npmax NumF Y) as [mx|] eqn:E1; [|destruct Y; [congruence|discriminate]].
  destruct (npmin NumF Y) as [mn|] eqn:E2; [|destruct Y; [congruence|discriminate]].
  destruct (npmax_F Y mx HF E1) as (I1 & M1). destruct (npmin_F Y mn HF E2) as (I2 & M2). cbn [rbind].
  pose proof HF as HF'. rewrite Forall_forall in HF'.
  assert (Q : neqb NumF mx mn = true).
  { cbn [neqb NumF]. rewrite Beqb_correct by (now apply HF'). apply Req_bool_true.
    destruct (Req_dec (B2R mx) (B2R mn)) as [E|E]; [exact E|]. exfalso. apply NS. exists mx, mn. auto. }
  rewrite Q. reflexivity.
Qed.
