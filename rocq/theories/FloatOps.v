(** binary64: bounds on the results of operations, sums and means, all rounding errors included. *)
From Verif Require Import Base Num NumLaws SamplingFloat.
From Coq Require Import Reals ZArith Bool List Lra Lia Floats.SpecFloat.
From Flocq Require Import Core IEEE754.BinarySingleNaN.
Import ListNotations.
Local Open Scope R_scope.
#[local] Existing Instance vexp64.
#[local] Existing Instance vrndE.

(** a finite number of absolute value at most [B] *)
Definition fbnd (B : R) (x : f64) : Prop := is_finite x = true /\ Rabs (B2R x) <= B.

Lemma fbnd_le A B (x : f64) : fbnd A x -> A <= B -> fbnd B x.
Proof. intros (F & H) L. split; [exact F|lra]. Qed.
Lemma fbnd_notnan B (x : f64) : fbnd B x -> is_nan x = false.
Proof. intros (F & _). destruct x; try reflexivity; discriminate F. Qed.
Lemma finite_notnan (x : f64) : is_finite x = true -> is_nan x = false.
Proof. destruct x; try reflexivity; discriminate. Qed.

Lemma F64_bpow e : (-1074 <= e)%Z -> F64 (bpow radix2 e).
Proof. intros H. apply generic_format_bpow. unfold fexp64, SpecFloat.fexp, SpecFloat.emin, prec64, emax64. lia. Qed.
Lemma F64_mult z e : (Z.abs z < 2 ^ 53)%Z -> (-1074 <= e)%Z -> F64 (IZR z * bpow radix2 e).
Proof.
  intros H E. rewrite fexp64_flt. apply generic_format_FLT. exists (Float radix2 z e); [reflexivity|exact H|exact E].
Qed.
Lemma F64_Z z : (Z.abs z < 2 ^ 53)%Z -> F64 (IZR z).
Proof. intros H. replace (IZR z) with (IZR z * bpow radix2 0) by (cbn; lra). apply F64_mult; [exact H|lia]. Qed.
Lemma rnd64_abs r C : F64 C -> Rabs r <= C -> Rabs (rnd64 r) <= C.
Proof. intros F H. apply abs_round_le_generic; [exact _|exact _|exact F|exact H]. Qed.
Lemma bpow_lt_max e : (e < 1024)%Z -> bpow radix2 e < bpow radix2 emax64.
Proof. intros H. apply bpow_lt. exact H. Qed.

Lemma fadd_val (x y : f64) C : is_finite x = true -> is_finite y = true -> F64 C -> C < bpow radix2 emax64 -> Rabs (B2R x + B2R y) <= C ->
  fbnd C (fadd x y) /\ B2R (fadd x y) = rnd64 (B2R x + B2R y).
Proof.
  intros Fx Fy FC LC H. pose proof (rnd64_abs _ _ FC H) as R. destruct (fadd_small x y Fx Fy) as (F & E); [lra|].
  split; [split; [exact F|rewrite E; exact R]|exact E].
Qed.
Lemma fadd_bnd A B C x y : fbnd A x -> fbnd B y -> F64 C -> C < bpow radix2 emax64 -> A + B <= C -> fbnd C (fadd x y).
Proof.
  intros (Fx & Hx) (Fy & Hy) FC LC H. apply fadd_val; try assumption. pose proof (Rabs_triang (B2R x) (B2R y)). lra.
Qed.
Lemma fsub_val (x y : f64) C : is_finite x = true -> is_finite y = true -> F64 C -> C < bpow radix2 emax64 -> Rabs (B2R x - B2R y) <= C ->
  fbnd C (fsub x y) /\ B2R (fsub x y) = rnd64 (B2R x - B2R y).
Proof.
  intros Fx Fy FC LC H. pose proof (rnd64_abs _ _ FC H) as R.
  assert (K := Bminus_correct prec64 emax64 prec64_gt_0 prec64_lt_emax mode_NE x y Fx Fy).
  change (round radix2 (SpecFloat.fexp prec64 emax64) (round_mode mode_NE)) with rnd64 in K. rewrite Rlt_bool_true in K by lra.
  destruct K as (E & F & _). fold (fsub x y) in *. split; [split; [exact F|rewrite E; exact R]|exact E].
Qed.
Lemma fsub_bnd A B C x y : fbnd A x -> fbnd B y -> F64 C -> C < bpow radix2 emax64 -> A + B <= C -> fbnd C (fsub x y).
Proof.
  intros (Fx & Hx) (Fy & Hy) FC LC H. apply fsub_val; try assumption. pose proof (Rabs_triang (B2R x) (- B2R y)). rewrite Rabs_Ropp in *. unfold Rminus. lra.
Qed.
Lemma fmul_val (x y : f64) C : is_finite x = true -> is_finite y = true -> F64 C -> C < bpow radix2 emax64 -> Rabs (B2R x * B2R y) <= C ->
  fbnd C (fmul x y) /\ B2R (fmul x y) = rnd64 (B2R x * B2R y).
Proof.
  intros Fx Fy FC LC H. pose proof (rnd64_abs _ _ FC H) as R. destruct (fmul_small x y Fx Fy) as (F & E); [lra|].
  split; [split; [exact F|rewrite E; exact R]|exact E].
Qed.
Lemma fmul_bnd A B C x y : fbnd A x -> fbnd B y -> F64 C -> C < bpow radix2 emax64 -> A * B <= C -> fbnd C (fmul x y).
Proof.
  intros (Fx & Hx) (Fy & Hy) FC LC H. apply fmul_val; try assumption. rewrite Rabs_mult.
  pose proof (Rmult_le_compat _ _ _ _ (Rabs_pos _) (Rabs_pos _) Hx Hy). lra.
Qed.
Lemma fdiv_val (x y : f64) C : is_finite x = true -> B2R y <> 0 -> F64 C -> C < bpow radix2 emax64 -> Rabs (B2R x / B2R y) <= C ->
  fbnd C (fdiv x y) /\ B2R (fdiv x y) = rnd64 (B2R x / B2R y).
Proof.
  intros Fx Ny FC LC H. pose proof (rnd64_abs _ _ FC H) as R.
  assert (K := Bdiv_correct prec64 emax64 prec64_gt_0 prec64_lt_emax mode_NE x y Ny).
  change (round radix2 (SpecFloat.fexp prec64 emax64) (round_mode mode_NE)) with rnd64 in K. rewrite Rlt_bool_true in K by lra.
  destruct K as (E & F & _). fold (fdiv x y) in *. rewrite Fx in F. split; [split; [exact F|rewrite E; exact R]|exact E].
Qed.
Lemma fsqrt_val (x : f64) C : is_finite x = true -> 0 <= B2R x -> F64 C -> sqrt (B2R x) <= C ->
  fbnd C (fsqrt x) /\ B2R (fsqrt x) = rnd64 (sqrt (B2R x)) /\ 0 <= B2R (fsqrt x).
Proof.
  intros Fx Px FC H. destruct (Bsqrt_correct prec64 emax64 prec64_gt_0 prec64_lt_emax mode_NE x) as (E & F & _).
  change (round radix2 (SpecFloat.fexp prec64 emax64) (round_mode mode_NE)) with rnd64 in E. fold (fsqrt x) in *.
  assert (R : Rabs (rnd64 (sqrt (B2R x))) <= C) by (apply rnd64_abs; [exact FC|rewrite Rabs_pos_eq; [exact H|apply sqrt_pos]]).
  assert (F' : is_finite (fsqrt x) = true).
  { rewrite F. destruct x as [s|s| |s m e b]; try reflexivity; try discriminate Fx. destruct s; [|reflexivity].
    exfalso. cbn in Px. pose proof (F2R_lt_0 radix2 (Float radix2 (Z.neg m) e) ltac:(reflexivity)). unfold F2R in *. cbn in *. lra. }
  split; [split; [exact F'|rewrite E; exact R]|]. split; [exact E|]. rewrite E.
  apply round_ge_generic; [exact _|exact _|apply generic_format_0|apply sqrt_pos].
Qed.

Lemma rnd64_pos r : 0 <= r -> 0 <= rnd64 r.
Proof. intros H. apply round_ge_generic; [exact _|exact _|apply generic_format_0|exact H]. Qed.
Lemma rnd64_le a b : a <= b -> rnd64 a <= rnd64 b.
Proof. intros H. apply round_le; [exact _|exact _|exact H]. Qed.
Lemma rnd64_id a : F64 a -> rnd64 a = a.
Proof. intros H. apply round_generic; [exact _|exact H]. Qed.

(** integers below 2^53 are exact *)
Lemma fofZ_val z : (Z.abs z < 2 ^ 53)%Z -> is_finite (fofZ z) = true /\ B2R (fofZ z) = IZR z.
Proof.
  intros H. pose proof (binary_normalize_correct prec64 emax64 prec64_gt_0 prec64_lt_emax mode_NE z 0 false) as K.
  change (round radix2 (SpecFloat.fexp prec64 emax64) (round_mode mode_NE)) with rnd64 in K. fold (fofZ z) in K.
  cbv zeta in K. assert (EF : F2R (Float radix2 z 0) = IZR z) by (unfold F2R; cbn; lra). rewrite EF in K. rewrite (rnd64_id _ (F64_Z z H)) in K.
  rewrite Rlt_bool_true in K; [tauto|].
  apply Rlt_trans with (bpow radix2 53); [|apply bpow_lt; reflexivity]. rewrite <- abs_IZR.
  replace (bpow radix2 53) with (IZR (2 ^ 53)) by (rewrite <- (IZR_Zpower radix2 53) by lia; reflexivity). now apply IZR_lt.
Qed.

(** ** sums and means *)
Lemma F64_count k e : (Z.of_nat k < 2 ^ 53)%Z -> (-1074 <= e)%Z -> F64 (INR k * bpow radix2 e).
Proof. intros H E. rewrite INR_IZR_INZ. apply F64_mult; [lia|exact E]. Qed.
Lemma count_small k e : (Z.of_nat k < 2 ^ 53)%Z -> (e <= 970)%Z -> INR k * bpow radix2 e < bpow radix2 emax64.
Proof.
  intros H E. rewrite INR_IZR_INZ. apply Rlt_le_trans with (bpow radix2 53 * bpow radix2 e).
  - apply Rmult_lt_compat_r; [apply bpow_gt_0|]. replace (bpow radix2 53) with (IZR (2 ^ 53)) by (rewrite <- (IZR_Zpower radix2 53) by lia; reflexivity). now apply IZR_lt.
  - rewrite <- bpow_plus. apply bpow_le. unfold emax64. lia.
Qed.
Lemma fsum_from e l : (-1074 <= e <= 970)%Z -> Forall (fbnd (bpow radix2 e)) l -> forall k acc, fbnd (INR k * bpow radix2 e) acc ->
  (Z.of_nat (k + length l) < 2 ^ 53)%Z -> fbnd (INR (k + length l) * bpow radix2 e) (fold_left fadd l acc).
Proof.
  intros E. induction l as [|x l IH]; intros HF k acc HA L; cbn [fold_left length] in *; [now rewrite Nat.add_0_r|].
  inversion HF; subst. replace (k + S (length l))%nat with (S k + length l)%nat in * by lia. apply IH; [assumption| |exact L].
  eapply fadd_bnd; [exact HA|eassumption|apply F64_count; lia|apply count_small; lia|]. rewrite S_INR. lra.
Qed.
Lemma zero_bnd B : 0 <= B -> fbnd B (fofZ 0).
Proof. intros H. destruct (fofZ_val 0 ltac:(reflexivity)) as (F & E). split; [exact F|]. rewrite E, Rabs_R0. exact H. Qed.
Lemma nsum_bnd e (l : list f64) : (-1074 <= e <= 970)%Z -> Forall (fbnd (bpow radix2 e)) l -> (Z.of_nat (length l) < 2 ^ 53)%Z ->
  fbnd (INR (length l) * bpow radix2 e) (nsum NumF l).
Proof.
  intros E HF L. apply (fsum_from e l E HF 0); [|exact L]. apply zero_bnd. cbn. lra.
Qed.
Lemma fsum_from_pos (l : list f64) e : (-1074 <= e <= 970)%Z -> Forall (fbnd (bpow radix2 e)) l -> Forall (fun x => 0 <= B2R x) l ->
  forall k acc, fbnd (INR k * bpow radix2 e) acc -> 0 <= B2R acc -> (Z.of_nat (k + length l) < 2 ^ 53)%Z -> 0 <= B2R (fold_left fadd l acc).
Proof.
  intros E. induction l as [|x l IH]; intros HF HP k acc HA PA L; cbn [fold_left length] in *; [exact PA|].
  inversion HF; subst. inversion HP; subst. replace (k + S (length l))%nat with (S k + length l)%nat in * by lia.
  destruct HA as [FA BA]. match goal with H : fbnd _ x |- _ => destruct H as [Fx Bx] end.
  destruct (fadd_val acc x (INR (S k) * bpow radix2 e) FA Fx) as (B & V).
  - apply F64_count; lia.
  - apply count_small; lia.
  - rewrite S_INR. pose proof (Rabs_triang (B2R acc) (B2R x)). lra.
  - apply (IH ltac:(assumption) ltac:(assumption) (S k)); [exact B| |exact L]. rewrite V. apply rnd64_pos. lra.
Qed.
Lemma nsum_pos e (l : list f64) : (-1074 <= e <= 970)%Z -> Forall (fbnd (bpow radix2 e)) l -> Forall (fun x => 0 <= B2R x) l -> (Z.of_nat (length l) < 2 ^ 53)%Z ->
  0 <= B2R (nsum NumF l : f64).
Proof.
  intros E HF HP L. assert (Z0 : fbnd (INR 0 * bpow radix2 e) (fofZ 0)) by (apply zero_bnd; cbn; lra).
  apply (fsum_from_pos l e E HF HP 0 (fofZ 0)); [exact Z0| |exact L].
  rewrite (proj2 (fofZ_val 0 ltac:(reflexivity))). lra.
Qed.

Lemma fdiv_count e k x : (-1074 <= e <= 1023)%Z -> (0 < k)%nat -> (Z.of_nat k < 2 ^ 53)%Z -> fbnd (INR k * bpow radix2 e) x ->
  fbnd (bpow radix2 e) (fdiv x (fofZ (Z.of_nat k))) /\ (0 <= B2R x -> 0 <= B2R (fdiv x (fofZ (Z.of_nat k)))).
Proof.
  intros E K L (F & B). destruct (fofZ_val (Z.of_nat k) ltac:(lia)) as (FZ & EZ). rewrite <- INR_IZR_INZ in EZ.
  assert (KP : 0 < INR k) by now apply lt_0_INR.
  destruct (fdiv_val x (fofZ (Z.of_nat k)) (bpow radix2 e) F) as (BD & V).
  - rewrite EZ. lra.
  - apply F64_bpow; lia.
  - apply bpow_lt_max; lia.
  - rewrite EZ. unfold Rdiv. rewrite Rabs_mult, Rabs_inv, (Rabs_pos_eq (INR k)) by lra.
    apply Rmult_le_reg_r with (INR k); [exact KP|]. rewrite Rmult_assoc, Rinv_l by lra. lra.
  - split; [exact BD|]. intros P. rewrite V, EZ. apply rnd64_pos. apply Rmult_le_pos; [exact P|]. left. now apply Rinv_0_lt_compat.
Qed.
Lemma nmean_bnd e (l : list f64) : (-1074 <= e <= 970)%Z -> l <> [] -> Forall (fbnd (bpow radix2 e)) l -> (Z.of_nat (length l) < 2 ^ 53)%Z ->
  fbnd (bpow radix2 e) (nmean NumF l) /\ (Forall (fun x => 0 <= B2R x) l -> 0 <= B2R (nmean NumF l : f64)).
Proof.
  intros E NE HF L. unfold nmean, nofnat. assert (K : (0 < length l)%nat) by (destruct l; [congruence|cbn; lia]).
  destruct (fdiv_count e (length l) (nsum NumF l)) as (A & B); [lia|exact K|exact L|now apply nsum_bnd|].
  split; [exact A|]. intros HP. apply B. now apply (nsum_pos e).
Qed.

(** ** squares, deviations, impurities *)
Lemma nsq_bnd e x : (-537 <= e)%Z -> (2 * e < 1024)%Z -> fbnd (bpow radix2 e) x -> fbnd (bpow radix2 (2 * e)) (nsq NumF x) /\ 0 <= B2R (nsq NumF x : f64).
Proof.
  intros E1 E2 (F & B).
  destruct (fmul_val x x (bpow radix2 (2 * e)) F F) as (A & V).
  - apply F64_bpow; lia.
  - now apply bpow_lt_max.
  - rewrite Rabs_mult. replace (2 * e)%Z with (e + e)%Z by lia. rewrite bpow_plus. apply Rmult_le_compat; auto using Rabs_pos.
  - split; [exact A|]. change (nsq NumF x) with (fmul x x). rewrite V. apply rnd64_pos. apply Rle_0_sqr.
Qed.
Lemma sub_bnd e x y : (-1074 <= e)%Z -> (e < 1023)%Z -> fbnd (bpow radix2 e) x -> fbnd (bpow radix2 e) y -> fbnd (bpow radix2 (e + 1)) (fsub x y).
Proof.
  intros E1 E2 Hx Hy. eapply fsub_bnd; [exact Hx|exact Hy|apply F64_bpow; lia|apply bpow_lt_max; lia|]. rewrite bpow_plus. change (bpow radix2 1) with 2. lra.
Qed.
Lemma add_bnd e x y : (-1074 <= e)%Z -> (e < 1023)%Z -> fbnd (bpow radix2 e) x -> fbnd (bpow radix2 e) y -> fbnd (bpow radix2 (e + 1)) (fadd x y).
Proof.
  intros E1 E2 Hx Hy. eapply fadd_bnd; [exact Hx|exact Hy|apply F64_bpow; lia|apply bpow_lt_max; lia|]. rewrite bpow_plus. change (bpow radix2 1) with 2. lra.
Qed.
Definition squares (l : list f64) : list f64 := map (fun y => nsq NumF (nsub NumF y (nmean NumF l))) l.
Lemma squares_bnd e l : (0 <= e <= 480)%Z -> l <> [] -> Forall (fbnd (bpow radix2 e)) l -> (Z.of_nat (length l) < 2 ^ 53)%Z ->
  Forall (fbnd (bpow radix2 (2 * e + 2))) (squares l) /\ Forall (fun x => 0 <= B2R x) (squares l).
Proof.
  intros E NE HF L. destruct (nmean_bnd e l ltac:(lia) NE HF L) as (BM & _).
  assert (G : forall y, In y l -> fbnd (bpow radix2 (2 * e + 2)) (nsq NumF (nsub NumF y (nmean NumF l))) /\ 0 <= B2R (nsq NumF (nsub NumF y (nmean NumF l)) : f64)).
  { intros y Hy. rewrite Forall_forall in HF. replace (2 * e + 2)%Z with (2 * (e + 1))%Z by lia. apply nsq_bnd; [lia|lia|].
    apply sub_bnd; [lia|lia|now apply HF|exact BM]. }
  split; apply Forall_forall; intros x Hx; apply in_map_iff in Hx as (y & <- & Hy); now apply G.
Qed.
Lemma nstd_bnd e (l : list f64) : (0 <= e <= 480)%Z -> l <> [] -> Forall (fbnd (bpow radix2 e)) l -> (Z.of_nat (length l) < 2 ^ 53)%Z ->
  fbnd (bpow radix2 (e + 1)) (nstd NumF 0 l) /\ 0 <= B2R (nstd NumF 0 l : f64).
Proof.
  intros E NE HF L. destruct (squares_bnd e l E NE HF L) as (BS & PS). unfold nstd.
  change (map (fun x => nsq NumF (nsub NumF x (nmean NumF l))) l) with (squares l).
  assert (LS : length (squares l) = length l) by apply map_length.
  assert (K : (0 < length l)%nat) by (destruct l; [congruence|cbn; lia]).
  rewrite Z.sub_0_r.
  destruct (fdiv_count (2 * e + 2) (length l) (nsum NumF (squares l))) as (A & B); [lia|exact K|exact L| |].
  { rewrite <- LS. apply nsum_bnd; [lia|exact BS|rewrite LS; exact L]. }
  assert (P : 0 <= B2R (nsum NumF (squares l) : f64)) by (apply (nsum_pos (2 * e + 2)); [lia|exact BS|exact PS|rewrite LS; exact L]).
  specialize (B P). destruct A as [FA BA]. rewrite Rabs_pos_eq in BA by exact B.
  destruct (fsqrt_val _ (bpow radix2 (e + 1)) FA B) as (R1 & _ & R2).
  - apply F64_bpow. lia.
  - rewrite <- (sqrt_Rsqr (bpow radix2 (e + 1))) by apply bpow_ge_0. apply sqrt_le_1_alt. unfold Rsqr. rewrite <- bpow_plus.
    replace (e + 1 + (e + 1))%Z with (2 * e + 2)%Z by lia. exact BA.
  - split; [exact R1|exact R2].
Qed.
