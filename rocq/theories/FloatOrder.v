(** binary64: the rounded operations are monotone, infinities included. *)
From Verif Require Import Base Lists Num NumLaws UtilsModel UtilsSpec UtilsProofs UtilsRProofs SamplingFloat FloatSpec FloatOps FloatNorm FloatTrees FloatAcq AcqModel.
From Coq Require Import Reals ZArith Bool String List Lra Lia Floats.SpecFloat Sorting.Sorted.
From Flocq Require Import Core IEEE754.BinarySingleNaN.
Import ListNotations.
Local Open Scope R_scope.
#[local] Existing Instance vexp64.
#[local] Existing Instance vrndE.

Definition BIG : R := bpow radix2 emax64.
Lemma BIG_eq : BIG = bpow radix2 emax64. Proof. reflexivity. Qed.
Lemma BIG_pos : 0 < BIG. Proof. apply bpow_gt_0. Qed.
#[local] Opaque BIG.
(** infinities as numbers outside the range of finite ones *)
Definition ev (x : f64) : R := match x with B754_infinity s => if s then - BIG else BIG | _ => B2R x end.
Definition num (x : f64) : Prop := is_nan x = false.
Definition fle (x y : f64) : Prop := Bleb x y = true.
Definition clamp (r : R) : R := Rmax (- BIG) (Rmin BIG r).

Lemma ev_finite (x : f64) : is_finite x = true -> ev x = B2R x /\ - BIG < ev x < BIG.
Proof.
  intros F. assert (E : ev x = B2R x) by (destruct x; try reflexivity; discriminate F). split; [exact E|]. rewrite E.
  assert (A := abs_B2R_lt_emax prec64 emax64 x). apply Rabs_def2 in A. rewrite BIG_eq. lra.
Qed.
Lemma ev_range (x : f64) : - BIG <= ev x <= BIG.
Proof.
  assert (P := BIG_pos). destruct (is_finite x) eqn:F; [destruct (ev_finite x F); lra|]. destruct x as [| [|] | |]; try discriminate F; cbn; lra.
Qed.
Lemma fle_ev (x y : f64) : num x -> num y -> (fle x y <-> ev x <= ev y).
Proof.
  intros Nx Ny. unfold fle. assert (P := BIG_pos). destruct (is_finite x) eqn:Fx, (is_finite y) eqn:Fy.
  - rewrite (Bleb_correct _ _ _ _ Fx Fy). destruct (ev_finite x Fx) as (-> & _), (ev_finite y Fy) as (-> & _). split; [apply Rle_bool_true_iff || (intros H; destruct (Rle_bool_spec (B2R x) (B2R y)); [assumption|discriminate])|apply Rle_bool_true].
  - destruct (ev_finite x Fx) as (_ & B). destruct y as [| [|] | |]; try discriminate Fy; try discriminate Ny; cbn [ev]; (split; [intros H|intros H]); try lra.
    + destruct x as [| [|] | |]; discriminate.
    + destruct x as [| [|] | |]; try discriminate Fx; reflexivity.
  - destruct (ev_finite y Fy) as (_ & B). destruct x as [| [|] | |]; try discriminate Fx; try discriminate Nx; cbn [ev]; (split; [intros H|intros H]); try lra.
    + destruct y as [| [|] | |]; try discriminate Fy; reflexivity.
    + destruct y as [| [|] | |]; discriminate.
  - destruct x as [| [|] | |]; try discriminate Fx; try discriminate Nx; destruct y as [| [|] | |]; try discriminate Fy; try discriminate Ny; cbn [ev]; (split; [intros H|intros H]); try reflexivity; try discriminate; lra.
Qed.
Lemma fle_num (x y : f64) : fle x y -> num x /\ num y.
Proof. unfold fle, num. destruct x as [[|] | [|] | | [|] ? ? ?], y as [[|] | [|] | | [|] ? ? ?]; try discriminate; split; reflexivity. Qed.
Lemma fle_le (x y : f64) : fle x y -> ev x <= ev y.
Proof. intros H. destruct (fle_num x y H) as (A & B). now apply fle_ev. Qed.
Lemma fle_refl x : num x -> fle x x.
Proof. intros H. apply fle_ev; try assumption. lra. Qed.
Lemma fle_trans x y z : fle x y -> fle y z -> fle x z.
Proof. intros H H'. destruct (fle_num _ _ H), (fle_num _ _ H'). apply fle_ev; try assumption. apply fle_le in H. apply fle_le in H'. lra. Qed.

Lemma clamp_le a b : a <= b -> clamp a <= clamp b.
Proof. intros H. unfold clamp. apply Rle_max_compat_l. now apply Rle_min_compat_l. Qed.
Lemma clamp_id a : - BIG <= a <= BIG -> clamp a = a.
Proof. intros H. unfold clamp. rewrite Rmin_right by lra. now rewrite Rmax_right by lra. Qed.
Lemma clamp_lo a : a <= - BIG -> clamp a = - BIG.
Proof. intros H. assert (P := BIG_pos). unfold clamp. rewrite Rmin_right by lra. now rewrite Rmax_left by lra. Qed.
Lemma clamp_hi a : BIG <= a -> clamp a = BIG.
Proof. intros H. assert (P := BIG_pos). unfold clamp. rewrite Rmin_left by lra. now rewrite Rmax_right by lra. Qed.

Lemma sign_nonneg (x : f64) : Bsign x = false -> 0 <= B2R x.
Proof. destruct x as [| | |[|] m e b]; cbn; intros H; try lra; try discriminate. apply F2R_ge_0. cbn. lia. Qed.
Lemma sign_nonpos (x : f64) : Bsign x = true -> B2R x <= 0.
Proof. destruct x as [| | |[|] m e b]; cbn; intros H; try lra; try discriminate. apply F2R_le_0. cbn. lia. Qed.

Lemma overflow_ev (z : f64) s r : B2SF z = binary_overflow prec64 emax64 mode_NE s -> BIG <= Rabs r -> (if s then r <= 0 else 0 <= r) -> num z /\ ev z = clamp r.
Proof.
  intros H R S. assert (P := BIG_pos). destruct z as [? | s' | | ? ? ? ?]; try discriminate H. injection H as ->. split; [reflexivity|]. destruct s; cbn.
  - rewrite clamp_lo; [reflexivity|]. unfold Rabs in R. destruct (Rcase_abs r); lra.
  - rewrite clamp_hi; [reflexivity|]. unfold Rabs in R. destruct (Rcase_abs r); lra.
Qed.
Lemma small_ev (z : f64) r : is_finite z = true -> B2R z = r -> num z /\ ev z = clamp r.
Proof.
  intros F E. split; [now apply finite_notnan|]. destruct (ev_finite z F) as (A & B). rewrite A, E in *. rewrite clamp_id; lra.
Qed.
Lemma rnd_nonneg r : 0 <= r -> 0 <= rnd64 r. Proof. apply rnd64_pos. Qed.
Lemma rnd_nonpos r : r <= 0 -> rnd64 r <= 0.
Proof. intros H. apply round_le_generic; [exact _|exact _|apply generic_format_0|exact H]. Qed.

Lemma add_ev (x y : f64) : is_finite x = true -> is_finite y = true -> num (fadd x y) /\ ev (fadd x y) = clamp (rnd64 (B2R x + B2R y)).
Proof.
  intros Fx Fy. assert (C := Bplus_correct prec64 emax64 prec64_gt_0 prec64_lt_emax mode_NE x y Fx Fy).
  rewrite <- BIG_eq in C. change (round radix2 (fexp prec64 emax64) (round_mode mode_NE)) with rnd64 in C. fold (fadd x y) in C.
  destruct (Rlt_bool_spec (Rabs (rnd64 (B2R x + B2R y))) BIG) as [L|L].
  - destruct C as (E & F & _). now apply small_ev.
  - destruct C as (E & S). apply overflow_ev with (Bsign x); [exact E|exact L|].
    destruct (Bsign x) eqn:Sx; symmetry in S.
    + apply rnd_nonpos. apply sign_nonpos in Sx. apply sign_nonpos in S. lra.
    + apply rnd_nonneg. apply sign_nonneg in Sx. apply sign_nonneg in S. lra.
Qed.
Lemma sub_ev (x y : f64) : is_finite x = true -> is_finite y = true -> num (fsub x y) /\ ev (fsub x y) = clamp (rnd64 (B2R x - B2R y)).
Proof.
  intros Fx Fy. assert (C := Bminus_correct prec64 emax64 prec64_gt_0 prec64_lt_emax mode_NE x y Fx Fy).
  rewrite <- BIG_eq in C. change (round radix2 (fexp prec64 emax64) (round_mode mode_NE)) with rnd64 in C. fold (fsub x y) in C.
  destruct (Rlt_bool_spec (Rabs (rnd64 (B2R x - B2R y))) BIG) as [L|L].
  - destruct C as (E & F & _). now apply small_ev.
  - destruct C as (E & S). apply overflow_ev with (Bsign x); [exact E|exact L|].
    destruct (Bsign x) eqn:Sx, (Bsign y) eqn:Sy; try discriminate S.
    + apply rnd_nonpos. apply sign_nonpos in Sx. apply sign_nonneg in Sy. lra.
    + apply rnd_nonneg. apply sign_nonneg in Sx. apply sign_nonpos in Sy. lra.
Qed.
Lemma mul_ev (x y : f64) : is_finite x = true -> is_finite y = true -> num (fmul x y) /\ ev (fmul x y) = clamp (rnd64 (B2R x * B2R y)).
Proof.
  intros Fx Fy. assert (C := Bmult_correct prec64 emax64 prec64_gt_0 prec64_lt_emax mode_NE x y).
  rewrite <- BIG_eq in C. change (round radix2 (fexp prec64 emax64) (round_mode mode_NE)) with rnd64 in C. fold (fmul x y) in C.
  destruct (Rlt_bool_spec (Rabs (rnd64 (B2R x * B2R y))) BIG) as [L|L].
  - destruct C as (E & F & _). rewrite Fx, Fy in F. now apply small_ev.
  - apply overflow_ev with (xorb (Bsign x) (Bsign y)); [exact C|exact L|].
    destruct (Bsign x) eqn:Sx, (Bsign y) eqn:Sy; cbn [xorb].
    + apply rnd_nonneg. apply sign_nonpos in Sx. apply sign_nonpos in Sy. nra.
    + apply rnd_nonpos. apply sign_nonpos in Sx. apply sign_nonneg in Sy. nra.
    + apply rnd_nonpos. apply sign_nonneg in Sx. apply sign_nonpos in Sy. nra.
    + apply rnd_nonneg. apply sign_nonneg in Sx. apply sign_nonneg in Sy. nra.
Qed.
Lemma div_ev (x y : f64) : is_finite x = true -> 0 < B2R y -> num (fdiv x y) /\ ev (fdiv x y) = clamp (rnd64 (B2R x / B2R y)).
Proof.
  intros Fx Py. assert (C := Bdiv_correct prec64 emax64 prec64_gt_0 prec64_lt_emax mode_NE x y ltac:(lra)).
  rewrite <- BIG_eq in C. change (round radix2 (fexp prec64 emax64) (round_mode mode_NE)) with rnd64 in C. fold (fdiv x y) in C.
  assert (I : 0 < / B2R y) by now apply Rinv_0_lt_compat.
  destruct (Rlt_bool_spec (Rabs (rnd64 (B2R x / B2R y))) BIG) as [L|L].
  - destruct C as (E & F & _). rewrite Fx in F. now apply small_ev.
  - assert (Sy : Bsign y = false) by (destruct (Bsign y) eqn:Sy; [apply sign_nonpos in Sy; lra|reflexivity]).
    rewrite Sy, xorb_false_r in C. apply overflow_ev with (Bsign x); [exact C|exact L|].
    destruct (Bsign x) eqn:Sx; [apply rnd_nonpos; apply sign_nonpos in Sx|apply rnd_nonneg; apply sign_nonneg in Sx]; unfold Rdiv; nra.
Qed.

(** the two infinities bound everything *)
Lemma inf_low y : num y -> fle (B754_infinity true) y.
Proof. intros H. apply fle_ev; [reflexivity|exact H|]. cbn. apply ev_range. Qed.
Lemma inf_high y : num y -> fle y (B754_infinity false).
Proof. intros H. apply fle_ev; [exact H|reflexivity|]. cbn. apply ev_range. Qed.
Lemma above_inf y : fle (B754_infinity false) y -> y = B754_infinity false.
Proof.
  intros H. destruct (fle_num _ _ H) as (_ & N). apply fle_le in H. cbn in H. assert (P := BIG_pos).
  destruct (is_finite y) eqn:F; [destruct (ev_finite y F); lra|]. destruct y as [| [|] | |]; try discriminate F; try discriminate N; [cbn in H; lra|reflexivity].
Qed.
Lemma below_inf y : fle y (B754_infinity true) -> y = B754_infinity true.
Proof.
  intros H. destruct (fle_num _ _ H) as (N & _). apply fle_le in H. cbn in H. assert (P := BIG_pos).
  destruct (is_finite y) eqn:F; [destruct (ev_finite y F); lra|]. destruct y as [| [|] | |]; try discriminate F; try discriminate N; [reflexivity|cbn in H; lra].
Qed.
Lemma cases (x : f64) : num x -> is_finite x = true \/ x = B754_infinity true \/ x = B754_infinity false.
Proof. destruct x as [| [|] | |]; intros H; try discriminate H; auto. Qed.
Lemma inf_add_r s (b : f64) : num (fadd (B754_infinity s) b) -> fadd (B754_infinity s) b = B754_infinity s.
Proof. destruct s, b as [|[|]| |]; intros H; try reflexivity; discriminate H. Qed.
Lemma inf_add_l s (b : f64) : num (fadd b (B754_infinity s)) -> fadd b (B754_infinity s) = B754_infinity s.
Proof. destruct s, b as [|[|]| |]; intros H; try reflexivity; discriminate H. Qed.

Lemma add_mono a a' b b' : fle a a' -> fle b b' -> num (fadd a b) -> num (fadd a' b') -> fle (fadd a b) (fadd a' b').
Proof.
  intros H K N N'. destruct (fle_num _ _ H) as (Na & Na'). destruct (fle_num _ _ K) as (Nb & Nb').
  destruct (cases a Na) as [Fa|[->| ->]]. 2: { rewrite (inf_add_r true b N). now apply inf_low. } 2: { apply above_inf in H as ->. rewrite (inf_add_r false b' N'). now apply inf_high. }
  destruct (cases b Nb) as [Fb|[->| ->]]. 2: { rewrite (inf_add_l true a N). now apply inf_low. } 2: { apply above_inf in K as ->. rewrite (inf_add_l false a' N'). now apply inf_high. }
  destruct (cases a' Na') as [Fa'|[->| ->]]. 2: { apply below_inf in H as ->. discriminate Fa. } 2: { rewrite (inf_add_r false b' N'). now apply inf_high. }
  destruct (cases b' Nb') as [Fb'|[->| ->]]. 2: { apply below_inf in K as ->. discriminate Fb. } 2: { rewrite (inf_add_l false a' N'). now apply inf_high. }
  apply fle_ev; try assumption. destruct (add_ev a b Fa Fb) as (_ & ->), (add_ev a' b' Fa' Fb') as (_ & ->).
  apply clamp_le, rnd64_le. apply fle_le in H. apply fle_le in K.
  destruct (ev_finite a Fa) as (E & _), (ev_finite a' Fa') as (E' & _), (ev_finite b Fb) as (G & _), (ev_finite b' Fb') as (G' & _). lra.
Qed.
Lemma opp_num a : num a -> num (Bopp a). Proof. destruct a; auto. Qed.
Lemma opp_ev (a : f64) : ev (Bopp a) = - ev a.
Proof.
  destruct (is_finite a) eqn:F.
  - assert (F' : is_finite (Bopp a) = true) by (now rewrite is_finite_Bopp). destruct (ev_finite _ F) as (-> & _), (ev_finite _ F') as (-> & _). apply B2R_Bopp.
  - destruct a as [| [|] | |]; try discriminate F; cbn; lra.
Qed.
Lemma opp_mono a b : fle a b -> fle (Bopp b) (Bopp a).
Proof. intros H. destruct (fle_num _ _ H). apply fle_ev; try (now apply opp_num). rewrite !opp_ev. apply fle_le in H. lra. Qed.
(** differences with a finite first argument *)
Lemma sub_mono a b b' : is_finite a = true -> fle b b' -> fle (fsub a b') (fsub a b).
Proof.
  intros Fa K. destruct (fle_num _ _ K) as (Nb & Nb').
  assert (I : forall s, fsub a (B754_infinity s) = B754_infinity (negb s)) by (intros s; destruct a as [|[|]| |]; try discriminate Fa; reflexivity).
  assert (T : forall b, num b -> num (fsub a b)).
  { intros x Hx. destruct (cases x Hx) as [F|[->| ->]]; [now apply sub_ev| |]; now rewrite I. }
  destruct (cases b Nb) as [Fb|[->| ->]]. 2: { rewrite (I true). now apply inf_high, T. } 2: { apply above_inf in K as ->. now apply fle_refl, T. }
  destruct (cases b' Nb') as [Fb'|[->| ->]]. 2: { apply below_inf in K as ->. discriminate Fb. } 2: { rewrite (I false). now apply inf_low, T. }
  apply fle_ev; try (now apply T). destruct (sub_ev a b Fa Fb) as (_ & ->), (sub_ev a b' Fa Fb') as (_ & ->).
  apply clamp_le, rnd64_le. apply fle_le in K. destruct (ev_finite b Fb) as (G & _), (ev_finite b' Fb') as (G' & _). lra.
Qed.
(** products with a non-negative factor *)
Lemma mul_mono k a a' : is_finite k = true -> 0 <= B2R k -> fle a a' -> num (fmul k a) -> num (fmul k a') -> fle (fmul k a) (fmul k a').
Proof.
  intros Fk Pk H N N'. destruct (fle_num _ _ H) as (Na & Na').
  assert (I : forall s, num (fmul k (B754_infinity s)) -> fmul k (B754_infinity s) = B754_infinity s).
  { intros s M. destruct k as [sk|? | |sk m e bd]; try discriminate Fk; [discriminate M|]. destruct sk; [|now destruct s].
    exfalso. cbn in Pk. assert (F2R (Float radix2 (Z.neg m) e) < 0) by (apply F2R_lt_0; reflexivity). lra. }
  destruct (cases a Na) as [Fa|[->| ->]]. 2: { rewrite (I true N). now apply inf_low. } 2: { apply above_inf in H as ->. now apply fle_refl. }
  destruct (cases a' Na') as [Fa'|[->| ->]]. 2: { apply below_inf in H as ->. discriminate Fa. } 2: { rewrite (I false N'). now apply inf_high. }
  apply fle_ev; try assumption. destruct (mul_ev k a Fk Fa) as (_ & ->), (mul_ev k a' Fk Fa') as (_ & ->).
  apply clamp_le, rnd64_le. apply fle_le in H. destruct (ev_finite a Fa) as (G & _), (ev_finite a' Fa') as (G' & _). nra.
Qed.
(** quotients by a positive number *)
Lemma div_num a d : num a -> is_finite d = true -> 0 < B2R d -> num (fdiv a d).
Proof.
  intros Na Fd Pd. destruct (cases a Na) as [F|[->| ->]]; [now apply div_ev| |]; destruct d as [| | |[|] m e bd]; try discriminate Fd; reflexivity.
Qed.
Lemma div_mono a a' d : is_finite d = true -> 0 < B2R d -> fle a a' -> fle (fdiv a d) (fdiv a' d).
Proof.
  intros Fd Pd H. destruct (fle_num _ _ H) as (Na & Na').
  assert (I : forall s, fdiv (B754_infinity s) d = B754_infinity s).
  { intros s. destruct d as [sk|? | |sk m e bd]; try discriminate Fd; [cbn in Pd; lra|]. destruct sk; [|now destruct s].
    exfalso. cbn in Pd. assert (F2R (Float radix2 (Z.neg m) e) < 0) by (apply F2R_lt_0; reflexivity). lra. }
  assert (T := fun x Hx => div_num x d Hx Fd Pd).
  destruct (cases a Na) as [Fa|[->| ->]]. 2: { rewrite I. now apply inf_low, T. } 2: { apply above_inf in H as ->. now apply fle_refl, T. }
  destruct (cases a' Na') as [Fa'|[->| ->]]. 2: { apply below_inf in H as ->. discriminate Fa. } 2: { rewrite I. now apply inf_high, T. }
  apply fle_ev; try (now apply T). destruct (div_ev a d Fa Pd) as (_ & ->), (div_ev a' d Fa' Pd) as (_ & ->).
  apply clamp_le, rnd64_le. apply fle_le in H. destruct (ev_finite a Fa) as (G & _), (ev_finite a' Fa') as (G' & _).
  apply Rmult_le_compat_r; [left; now apply Rinv_0_lt_compat|lra].
Qed.
(** the reciprocal direction: a larger positive divisor of a non-negative number *)
Lemma div_anti a d d' : is_finite a = true -> 0 <= B2R a -> is_finite d = true -> is_finite d' = true -> 0 < B2R d -> fle d d' -> fle (fdiv a d') (fdiv a d).
Proof.
  intros Fa Pa Fd Fd' Pd H. apply fle_le in H. destruct (ev_finite d Fd) as (G & _), (ev_finite d' Fd') as (G' & _).
  destruct (div_ev a d Fa Pd) as (N & E), (div_ev a d' Fa ltac:(lra)) as (N' & E'). apply fle_ev; try assumption. rewrite E, E'.
  apply clamp_le, rnd64_le. apply Rmult_le_compat_l; [exact Pa|]. apply Rinv_le_contravar; lra.
Qed.
(** sums of lists, entry by entry *)
Lemma fold_mono (l l' : list f64) : Forall2 fle l l' -> forall a a', fle a a' ->
  (forall k, num (fold_left fadd (firstn k l) a)) -> (forall k, num (fold_left fadd (firstn k l') a')) ->
  fle (fold_left fadd l a) (fold_left fadd l' a').
Proof.
  induction 1 as [|x x' l l' Hx Hl IH]; intros a a' Ha N N'; cbn [fold_left]; [exact Ha|].
  apply IH; [apply add_mono; try assumption; [exact (N 1%nat)|exact (N' 1%nat)]|intros k; exact (N (S k))|intros k; exact (N' (S k))].
Qed.

(** *** sums that never meet infinities of both signs *)
Definition zero : f64 := fofZ 0.
Lemma zero_val : is_finite zero = true /\ B2R zero = 0. Proof. exact (fofZ_val 0 ltac:(reflexivity)). Qed.
Lemma zero_ev : ev zero = 0. Proof. destruct zero_val as (F & E). destruct (ev_finite _ F) as (-> & _). exact E. Qed.
Definition summable (l : list f64) : Prop := forall k, num (fold_left fadd (firstn k l) zero).
Lemma add_finite_num (a b : f64) : num a -> is_finite b = true -> num (fadd a b).
Proof. intros N F. destruct (cases a N) as [Fa|[->| ->]]; [now apply add_ev| |]; destruct b; try discriminate F; reflexivity. Qed.
Lemma summable_finite l : Forall finite l -> summable l.
Proof.
  intros H k. assert (N : num zero) by reflexivity. revert k N. generalize zero. induction H as [|x l Hx Hl IH]; intros a [|k] N; cbn [firstn fold_left]; try exact N.
  apply IH. now apply add_finite_num.
Qed.
Lemma summable_inf l : Forall (fun x => x = finf) l -> summable l.
Proof.
  intros H k. assert (N : is_finite zero = true \/ zero = finf) by now left. revert k N. generalize zero. induction H as [|x l -> Hl IH]; intros a [|k] N; cbn [firstn fold_left].
  1-3: destruct N as [F| ->]; [now apply finite_notnan|reflexivity].
  apply IH. right. destruct N as [F| ->]; [destruct a; try discriminate F; reflexivity|reflexivity].
Qed.
(** adding something non-negative does not decrease *)
Lemma add_nonneg (a t : f64) : fle zero a -> fle zero t -> fle a (fadd a t) /\ fle zero (fadd a t).
Proof.
  intros Ha Ht. destruct (fle_num _ _ Ha) as (_ & Na). destruct (fle_num _ _ Ht) as (_ & Nt).
  assert (Za := fle_le _ _ Ha). assert (Zt := fle_le _ _ Ht). rewrite zero_ev in Za, Zt. assert (P := BIG_pos).
  assert (G : fle a (fadd a t)); [|split; [exact G|exact (fle_trans _ _ _ Ha G)]].
  destruct (cases a Na) as [Fa|[->| ->]]; [| cbn [ev] in Za; lra|].
  - destruct (cases t Nt) as [Ft|[->| ->]]; [|cbn [ev] in Zt; lra|].
    + destruct (add_ev a t Fa Ft) as (N & E). apply fle_ev; [exact Na|exact N|]. rewrite E. destruct (ev_finite a Fa) as (EA & BA). destruct (ev_finite t Ft) as (ET & _).
      rewrite <- (clamp_id (ev a)) by lra. apply clamp_le. rewrite EA. apply Rle_trans with (rnd64 (B2R a)); [|apply rnd64_le; lra].
      rewrite rnd64_id; [lra|]. apply generic_format_B2R.
    + replace (fadd a (B754_infinity false)) with (B754_infinity false : f64) by (destruct a; try discriminate Fa; reflexivity). now apply inf_high.
  - rewrite inf_add_r; [now apply inf_high|]. destruct (cases t Nt) as [Ft|[->| ->]]; [|cbn [ev] in Zt; lra|reflexivity]. destruct t; try discriminate Ft; reflexivity.
Qed.
Lemma summable_nonneg l : Forall (fle zero) l -> summable l.
Proof.
  intros H k. assert (N : fle zero zero) by reflexivity. revert N. generalize zero at 2 3. revert k. induction H as [|x l Hx Hl IH]; intros [|k] a N; cbn [firstn fold_left].
  1-3: exact (proj2 (fle_num _ _ N)).
  apply IH. exact (proj2 (add_nonneg a x N Hx)).
Qed.
Lemma Forall2_len {A B} (P : A -> B -> Prop) l l' : Forall2 P l l' -> length l = length l'.
Proof. induction 1; cbn; congruence. Qed.
Lemma nmean_mono (l l' : list f64) : Forall2 fle l l' -> summable l -> summable l' -> l <> [] -> few (length l) -> fle (nmean NumF l) (nmean NumF l').
Proof.
  intros H S S' NE FW. unfold nmean. change (@length (car NumF) l') with (@length f64 l'). rewrite <- (Forall2_len _ _ _ H).
  assert (L : (0 < length l)%nat) by (destruct l; [congruence|cbn; lia]).
  destruct (fofZ_val (Z.of_nat (length l)) ltac:(unfold few in FW; lia)) as (F & E).
  apply div_mono; [exact F|change (nofnat NumF (length l)) with (fofZ (Z.of_nat (length l))); rewrite E; apply IZR_lt; lia|].
  apply fold_mono; [exact H|reflexivity|exact S|exact S'].
Qed.

(** *** means of columns of ordered rows *)
Lemma Forall2_maps {A} (f g : A -> f64) l : (forall x, In x l -> fle (f x) (g x)) -> Forall2 fle (map f l) (map g l).
Proof. induction l as [|x l IH]; intros H; cbn [map]; constructor; [apply H; now left|apply IH; intros; apply H; now right]. Qed.
Lemma column_mean_mono (rows : list (list f64)) w j k : (forall r, In r rows -> length r = w) -> rows <> [] -> few (length rows) -> (j < w)%nat -> (k < w)%nat ->
  summable (map (fun r => nth j r zero) rows) -> summable (map (fun r => nth k r zero) rows) ->
  (forall r, In r rows -> fle (nth j r zero) (nth k r zero)) ->
  fle (nmean NumF (column NumF j rows)) (nmean NumF (column NumF k rows)).
Proof.
  intros W NE FW J K Sj Sk H. rewrite (column_eq NumF j rows zero) by (intros r Hr; pose proof (W r Hr) as E; change (j < @length f64 r)%nat; lia).
  rewrite (column_eq NumF k rows zero) by (intros r Hr; pose proof (W r Hr) as E; change (k < @length f64 r)%nat; lia).
  apply nmean_mono; try assumption; [apply Forall2_maps; exact H| |rewrite map_length; exact FW]. destruct rows; [congruence|discriminate].
Qed.
Lemma sorted_nth (l : list f64) : StronglySorted fle l -> Forall num l -> forall i j, (i <= j)%nat -> (j < length l)%nat -> fle (nth i l zero) (nth j l zero).
Proof.
  induction 1 as [|x l Hs IH Hx]; intros N [|i] [|j] L L'; cbn [length nth] in *; try lia.
  - apply fle_refl. now inversion N.
  - rewrite Forall_forall in Hx. apply Hx, nth_In. lia.
  - apply IH; [now inversion N|lia|lia].
Qed.
Lemma cumsum_sorted (l : list f64) : Forall (fle zero) l -> forall a, fle zero a -> Sorted fle (a :: cumsum_from fadd a l) /\ Forall (fle zero) (a :: cumsum_from fadd a l).
Proof.
  induction 1 as [|x l Hx Hl IH]; intros a Ha; cbn [cumsum_from]; [split; repeat constructor; exact Ha|].
  destruct (add_nonneg a x Ha Hx) as (G & Z). destruct (IH _ Z) as (S & F). split; constructor; try assumption. now constructor.
Qed.
Lemma round_time_sorted num_init inc (row : list f64) : Forall (fle zero) row ->
  StronglySorted fle (round_time NumF num_init inc row) /\ Forall (fle zero) (round_time NumF num_init inc row).
Proof.
  intros H. unfold round_time. assert (K : Forall (fle zero) (if inc then slice_from row num_init else row)).
  { destruct inc; [|exact H]. unfold slice_from. rewrite Forall_forall in *. intros x Hx. apply H. rewrite <- (firstn_skipn (slice_pos row num_init) row). apply in_or_app. now right. }
  set (l := if inc then slice_from row num_init else row) in *. change (if inc then @slice_from (car NumF) row num_init else row) with l. clearbody l.
  assert (T : Sorted fle (zero :: np_cumsum NumF l) /\ Forall (fle zero) (zero :: np_cumsum NumF l)).
  { destruct K as [|x l Hx Hl]; cbn [np_cumsum]; [split; repeat constructor|]. destruct (cumsum_sorted l Hl x Hx) as (A & B).
    split; constructor; [exact A|now constructor|reflexivity|exact B]. }
  destruct T as (A & B). split; [|exact B]. apply Sorted_StronglySorted; [exact fle_trans|exact A].
Qed.
Lemma get_time_nondecreasing (T : mat NumF) num_init inc (out : list f64) : mat_wf T -> few (nrows T) ->
  (forall row t, In row (mrows T) -> In t row -> nle NumF (nofZ NumF 0) t = true) -> get_time NumF T num_init inc = Ok out ->
  forall k l v w, (k <= l)%nat -> nth_error out k = Some v -> nth_error out l = Some w -> nle NumF v w = true.
Proof.
  intros WF FW NN H k l v w KL Hv Hw. unfold get_time in H. destruct (assert_ _) as [[]|]; cbn [rbind] in H; [|discriminate].
  set (times := map (round_time NumF num_init inc) (mrows T)) in H.
  assert (RS : forall r, In r times -> StronglySorted fle r /\ Forall (fle zero) r).
  { intros r Hr. apply in_map_iff in Hr as (row & <- & Hr). apply round_time_sorted. apply Forall_forall. intros t Ht. exact (NN row t Hr Ht). }
  assert (LT : forall r r', In r times -> In r' times -> length r = length r').
  { intros r r' Hr Hr'. apply in_map_iff in Hr as (row & <- & Hr). apply in_map_iff in Hr' as (row' & <- & Hr'). rewrite !round_time_length.
    unfold slice_pos. rewrite (WF row Hr), (WF row' Hr'). reflexivity. }
  assert (FL : few (length times)) by (unfold times; rewrite map_length; exact FW).
  clearbody times. destruct times as [|t0 times]; [discriminate|]. injection H as <-.
  apply nth_error_map_some in Hv as (j & Hj & Hv). apply nth_error_map_some in Hw as (j' & Hj' & Hw). apply nth_error_seq in Hj as [-> Lk]. apply nth_error_seq in Hj' as [-> Ll].
  rewrite Nat.add_0_l in *. subst v w. change (fle (nmean NumF (column NumF k (t0 :: times))) (nmean NumF (column NumF l (t0 :: times)))).
  assert (W : forall r, In r (t0 :: times) -> length r = length t0) by (intros r Hr; apply LT; [exact Hr|now left]).
  assert (S : forall i, summable (map (fun r => nth i r zero) (t0 :: times))).
  { intros i. apply summable_nonneg, Forall_forall. intros x Hx. apply in_map_iff in Hx as (r & <- & Hr). destruct (RS r Hr) as (_ & F).
    destruct (Nat.lt_ge_cases i (length r)) as [L|L]; [|rewrite nth_overflow by exact L; reflexivity]. rewrite Forall_forall in F. apply F, nth_In, L. }
  apply column_mean_mono with (length t0); try assumption; try apply S; [discriminate|]. intros r Hr. destruct (RS r Hr) as (A & B).
  apply sorted_nth; try assumption; [|exact (eq_ind_r (fun n => (l < n)%nat) Ll (W r Hr))]. eapply Forall_impl; [|exact B]. intros a Ha. exact (proj2 (fle_num _ _ Ha)).
Qed.

(** *** the mean of the best responses so far *)
Lemma finite_ltinf (y : f64) : finite y -> nltinf NumF y = true.
Proof. unfold finite. cbn [nltinf NumF]. intros F. destruct y as [[|]| | |[|] ? ? ?]; try discriminate F; reflexivity. Qed.
Lemma get_minimum_mean_nonincreasing (Y : mat NumF) num_init out : mat_wf Y -> few (nrows Y) ->
  (forall row y, In row (mrows Y) -> In y row -> finite y) -> get_minimum NumF Y num_init = Ok out ->
  forall k l v w, (k <= l)%nat -> nth_error (mo_mean out) k = Some v -> nth_error (mo_mean out) l = Some w -> nle NumF w v = true.
Proof.
  intros WF FW NN H k l v w KL Hv Hw. destruct (@get_minimum_best NumF NumF_ord Y num_init out WF H) as (LM & BE).
  assert (NI := fun i mi k v w => @get_minimum_nonincreasing NumF NumF_ord Y num_init out i mi k v w WF H).
  unfold get_minimum in H. destruct (assert_ _) as [[]|]; cbn [rbind] in H; [|discriminate].
  destruct (mapM _ _) as [minima|]; cbn [rbind] in H; [|discriminate]. destruct minima as [|m0 ms]; [discriminate|]. injection H as <-. cbn [mo_minima mo_mean] in *.
  set (M := m0 :: ms) in *.
  assert (RW : forall m, In m M -> exists row i, In row (mrows Y) /\ nth_error (mrows Y) i = Some row /\ nth_error M i = Some m).
  { intros m Hm. apply In_nth_error in Hm as (i & Hi). assert (L : (i < nrows Y)%nat) by (refine (eq_ind _ (fun n => (i < n)%nat) _ _ LM); apply nth_error_Some; intros NE; pose proof (eq_trans (eq_sym Hi) NE) as K; discriminate K).
    destruct (nth_error (mrows Y) i) as [row|] eqn:E; [|apply nth_error_None in E; unfold nrows in L; lia]. exists row, i. split; [now apply nth_error_In in E|now split]. }
  set (c := mcols Y) in *. assert (SP : forall row, In row (mrows Y) -> slice_pos row num_init = slice_pos (repeat (nofZ NumF 0) c) num_init).
  { intros row Hr. unfold slice_pos. rewrite repeat_length. rewrite (WF row Hr). reflexivity. }
  set (p := slice_pos (repeat (nofZ NumF 0) c) num_init) in *.
  assert (W : forall m, In m M -> length m = (c - p + 1)%nat).
  { intros m Hm. destruct (RW m Hm) as (row & i & R1 & R2 & R3). destruct (BE i row m R2 R3) as (L & _). rewrite (SP row R1) in L. exact L. }
  assert (E : forall k, (k < c - p + 1)%nat -> (forall m, In m M -> finite (nth k m zero)) \/ (forall m, In m M -> nth k m zero = finf)).
  { intros i Hi. destruct (Nat.eq_dec (Nat.min (p + i) c) 0) as [Z|Z]; [right|left]; intros m Hm; destruct (RW m Hm) as (row & n & R1 & R2 & R3);
      destruct (BE n row m R2 R3) as (_ & B); rewrite (SP row R1) in B;
      specialize (B i (nth i m zero) (nth_error_nth' m zero (eq_ind_r (fun n => (i < n)%nat) Hi (W m Hm))));
      assert (FL : List.length (firstn (p + i) row) = Nat.min (p + i) c) by (rewrite firstn_length; f_equal; exact (WF row R1)).
    - destruct B as [(I & _)|(I & _)]; [|now injection I]. destruct (firstn (p + i) row); [destruct I|cbn in FL; lia].
    - assert (FF : forall y, In y (firstn (p + i) row) -> finite y) by (intros y Hy; apply (NN row y R1); rewrite <- (firstn_skipn (p + i) row); apply in_or_app; now left).
      destruct B as [(I & _)|(_ & I)]; [now apply FF|]. destruct (firstn (p + i) row) as [|y r]; [cbn in FL; lia|].
      specialize (I y (or_introl eq_refl)). rewrite (finite_ltinf y) in I by (apply FF; now left). discriminate I. }
  assert (S : forall k, (k < c - p + 1)%nat -> summable (map (fun r => nth k r zero) M)).
  { intros i Hi. destruct (E i Hi) as [F|F]; [apply summable_finite|apply summable_inf]; apply Forall_forall; intros x Hx; apply in_map_iff in Hx as (m & <- & Hm); now apply F. }
  rewrite map_map in Hv, Hw. apply nth_error_map_some in Hv as (j & Hj & Hv). apply nth_error_map_some in Hw as (j' & Hj' & Hw). apply nth_error_seq in Hj as [-> Lk]. apply nth_error_seq in Hj' as [-> Ll].
  rewrite Nat.add_0_l in *. subst v w. change (fle (nmean NumF (column NumF l M)) (nmean NumF (column NumF k M))).
  assert (L0 : List.length m0 = (c - p + 1)%nat) by (apply W; now left). apply (fun H => eq_ind _ (fun n => (k < n)%nat) H _ L0) in Lk. apply (fun H => eq_ind _ (fun n => (l < n)%nat) H _ L0) in Ll.
  apply column_mean_mono with (c - p + 1)%nat; try assumption; [discriminate|exact (eq_ind_r few FW LM)|now apply S|now apply S|].
  intros m Hm. destruct (RW m Hm) as (row & i & _ & _ & R3). clear - KL Ll NI R3 W Hm E.
  induction KL as [|l KL IH].
  - apply fle_refl. destruct (E k Ll) as [F|F]; [apply finite_notnan; now apply F|now rewrite F].
  - apply fle_trans with (nth l m zero); [|apply IH; lia].
    apply (NI i m l (nth l m zero) (nth (S l) m zero) R3); apply nth_error_nth'; [exact (eq_ind_r (fun n => (l < n)%nat) (Nat.lt_succ_l _ _ Ll) (W m Hm))|exact (eq_ind_r (fun n => (S l < n)%nat) Ll (W m Hm))].
Qed.

(** *** acquisition values *)
Lemma fle_B2R (x y : f64) : finite x -> finite y -> (fle x y <-> B2R x <= B2R y).
Proof.
  intros Fx Fy. destruct (ev_finite x Fx) as (Ex & _), (ev_finite y Fy) as (Ey & _). rewrite <- Ex, <- Ey.
  apply fle_ev; now apply finite_notnan.
Qed.
Section Acq.
Context (cdf pdf lg : f64 -> f64).
Hypotheses (HM : monotone cdf) (HL : log_like lg).
Lemma ucb_mono k m s m' s' : within 54 k -> 0 <= B2R k -> within 480 m -> within 480 m' -> within 482 s -> within 482 s' ->
  B2R m' <= B2R m -> B2R s <= B2R s' -> B2R (nadd NumF (nopp NumF m) (nmul NumF k s) : f64) <= B2R (nadd NumF (nopp NumF m') (nmul NumF k s') : f64).
Proof.
  intros Hk Pk Hm Hm' Hs Hs' LM LS.
  assert (V : forall s, within 482 s -> within (54 + 482) (fmul k s)) by (intros x Hx; apply (mul_e 54 482); [lia|exact Hk|exact Hx]).
  assert (F : forall m s, within 480 m -> within 482 s -> finite (fadd (Bopp m) (fmul k s))).
  { intros x y Hx Hy. apply (add_e 536); [lia|apply bounded_le with 480%Z; [lia|now apply bounded_opp]|exact (V y Hy)]. }
  apply fle_B2R; [now apply F|now apply F|]. apply add_mono.
  - apply opp_mono. apply fle_B2R; [exact (proj1 Hm')|exact (proj1 Hm)|exact LM].
  - apply mul_mono; [exact (proj1 Hk)|exact Pk|apply fle_B2R; [exact (proj1 Hs)|exact (proj1 Hs')|exact LS]| |]; apply finite_notnan; apply V; assumption.
  - apply finite_notnan. now apply F.
  - apply finite_notnan. now apply F.
Qed.
Lemma pi_mono b m s m' : within 480 b -> within 480 m -> within 480 m' -> within 482 s -> 0 <= B2R s -> B2R m' <= B2R m ->
  B2R (cdf (val_z NumF b (JITTER_ACQ NumF) m s)) <= B2R (cdf (val_z NumF b (JITTER_ACQ NumF) m' s)).
Proof.
  intros Hb Hm Hm' Hs Ps LM. assert (Fz := fun m Hm => proj1 (val_z_bnd b m s Hb Hm Hs Ps)).
  apply HM; [now apply Fz|now apply Fz|]. apply fle_B2R; [now apply Fz|now apply Fz|]. unfold val_z. destruct jitter_val as (FJ & J1 & J2).
  destruct (lower_sum s (JITTER_ACQ NumF) 482 (-17)) as (FS & LS); try lia; try assumption.
  { split; [exact FJ|]. rewrite Rabs_pos_eq by (eapply Rle_trans; [apply (bpow_ge_0 radix2 (-17))|exact J1]). apply Rle_trans with 1; [exact J2|]. change 1 with (bpow radix2 0). apply bpow_le. lia. }
  apply div_mono; [exact FS|eapply Rlt_le_trans; [apply (bpow_gt_0 radix2 (-17))|exact LS]|]. apply sub_mono; [exact (proj1 Hb)|]. apply fle_B2R; [exact (proj1 Hm')|exact (proj1 Hm)|exact LM].
Qed.
Lemma kappa_pos (n : nat) : few n -> 0 <= B2R (nmul NumF (nofZ NumF 2) (lg (nadd NumF (nofnat NumF n) (nofZ NumF 1))) : f64).
Proof.
  intros H. destruct (fofZ_val 2 ltac:(reflexivity)) as (F2 & E2). destruct (fofZ_val 1 ltac:(reflexivity)) as (F1 & E1). destruct (fofZ_val (Z.of_nat n) ltac:(unfold few in H; lia)) as (F & E).
  assert (PN : 0 <= IZR (Z.of_nat n)) by (apply IZR_le; lia).
  assert (UN : IZR (Z.of_nat n) + 1 <= bpow radix2 53).
  { unfold few in H. replace (bpow radix2 53) with (IZR (2 ^ 53)) by (rewrite <- (IZR_Zpower radix2 53) by lia; reflexivity). rewrite <- (plus_IZR _ 1). apply IZR_le. lia. }
  destruct (fadd_val (fofZ (Z.of_nat n)) (fofZ 1) (bpow radix2 53) F F1) as ((FS & BS) & V); [apply F64_bpow; lia|apply bpow_lt_max; lia|rewrite E, E1, Rabs_pos_eq by lra; exact UN|].
  assert (GE : 1 <= B2R (fadd (fofZ (Z.of_nat n)) (fofZ 1))).
  { rewrite V, E, E1. apply Rle_trans with (rnd64 1); [right; symmetry; apply rnd64_id, (F64_Z 1); reflexivity|apply rnd64_le; lra]. }
  destruct (HL _ FS GE) as (FL & L1 & L2). pose proof (kappa_bnd lg HL n H) as (FK & _).
  destruct (mul_ev (fofZ 2) _ F2 FL) as (_ & EV). destruct (ev_finite _ FK) as (A & B). 
  change (nmul NumF (nofZ NumF 2) (lg (nadd NumF (nofnat NumF n) (nofZ NumF 1)))) with (fmul (fofZ 2) (lg (fadd (fofZ (Z.of_nat n)) (fofZ 1)))) in *.
  rewrite <- A, EV. rewrite <- (clamp_id 0) by (pose proof BIG_pos; lra). apply clamp_le. apply rnd64_pos. rewrite E2. lra.
Qed.
Lemma map2_nth (f : f64 -> f64 -> f64) (mu sd : list f64) i m s v : nth_error mu i = Some m -> nth_error sd i = Some s ->
  nth_error (AcqModel.map2 NumF f mu sd) i = Some v -> v = f m s.
Proof.
  revert sd i. induction mu as [|x mu IH]; intros [|y sd] [|i] A B C; try discriminate; cbn in A, B, C; [congruence|exact (IH sd i A B C)].
Qed.
Local Open Scope string_scope.
Lemma acquisitions_mono str_acq noise mu sd Y f a i j (m s v m' s' v' : f64) : In str_acq ["pi"; "ucb"; "pure_exploit"; "pure_explore"] ->
  preds_ok mu sd -> Y <> [] -> few (List.length Y) -> Forall (within 480) Y ->
  choose_fun_acquisition NumF cdf pdf lg str_acq noise = Ok f -> f mu sd Y = Ok a ->
  nth_error mu i = Some m -> nth_error sd i = Some s -> nth_error a i = Some v ->
  nth_error mu j = Some m' -> nth_error sd j = Some s' -> nth_error a j = Some v' ->
  B2R m' <= B2R m -> B2R s <= B2R s' -> (str_acq = "pi" -> s' = s) -> B2R v <= B2R v'.
Proof.
  intros HA OK NE FY HY EF EA A1 A2 A3 B1 B2 B3 LM LS PS. pose proof OK as (L & HMu & HS). rewrite Forall_forall in HMu, HS.
  assert (Wm := HMu m (nth_error_In _ _ A1)). assert (Wm' := HMu m' (nth_error_In _ _ B1)). destruct (HS s (nth_error_In _ _ A2)) as (Ws & Ps), (HS s' (nth_error_In _ _ B2)) as (Ws' & Ps').
  assert (SL : same_len NumF mu sd = true) by (apply Nat.eqb_eq; exact L).
  destruct HA as [<-|[<-|[<-|[<-|[]]]]].
  - specialize (PS eq_refl). subst s'. injection EF as <-. unfold acq_pi in EA. rewrite SL in EA. cbn [assert_ rbind] in EA.
    destruct (npmin NumF Y) as [b|] eqn:EB; [|discriminate EA]. cbn [rbind] in EA. injection EA as <-.
    assert (Hb : within 480 b). { rewrite Forall_forall in HY. apply HY. apply (npmin_F Y b); [apply Forall_forall; intros y Hy; now apply HY|exact EB]. }
    rewrite (map2_nth _ _ _ _ _ _ _ A1 A2 A3), (map2_nth _ _ _ _ _ _ _ B1 B2 B3). now apply pi_mono.
  - injection EF as <-. unfold acq_ucb in EA. rewrite SL in EA. cbn [assert_ rbind] in EA. injection EA as <-.
    rewrite (map2_nth _ _ _ _ _ _ _ A1 A2 A3), (map2_nth _ _ _ _ _ _ _ B1 B2 B3). apply ucb_mono; try assumption; [now apply kappa_bnd|now apply kappa_pos].
  - injection EF as <-. injection EA as <-. change (nth_error (map (@Bopp prec64 emax64) mu) i = Some v) in A3. change (nth_error (map (@Bopp prec64 emax64) mu) j = Some v') in B3.
    rewrite (map_nth_error _ _ _ A1) in A3. rewrite (map_nth_error _ _ _ B1) in B3. injection A3 as <-. injection B3 as <-. rewrite !B2R_Bopp. lra.
  - injection EF as <-. injection EA as <-. pose proof (eq_trans (eq_sym A2) A3) as E1. pose proof (eq_trans (eq_sym B2) B3) as E2. injection E1 as <-. injection E2 as <-. exact LS.
Qed.
End Acq.
