(** Monotonicity of the acquisition formulas with a positive jitter. *)
From Verif Require Import Gauss AcqSpec AcqProofs.
From Coq Require Import Reals Lra Psatz List.
From Coquelicot Require Import Coquelicot.
Local Open Scope R_scope.

(** lower bound of the normal tail: - z phi z / (1 + z^2) < Phi z *)
Definition tail (z : R) : R := z * hfun z + Phi z.
Lemma tail_derive z : is_derive tail z (2 * hfun z).
Proof.
  unfold tail. evar_last.
  { apply (is_derive_plus (fun z => z * hfun z) Phi); [|apply Phi_derive].
    apply (is_derive_mult (fun z => z) hfun z 1 (Phi z)); [apply (is_derive_id z)|apply hfun_derive|]. intros a b. apply Rmult_comm. }
  unfold plus, mult; cbn. unfold hfun. ring.
Qed.
Lemma tail_incr x y : x < y -> tail x < tail y.
Proof.
  intros H. apply (incr_function tail m_infty p_infty (fun z => 2 * hfun z)); try exact Logic.I; try assumption; intros; [apply tail_derive|].
  assert (P := hfun_pos x0). lra.
Qed.
Lemma tail_is z : tail z = Phi z * (1 + z * z) + z * phi z.
Proof. unfold tail, hfun. ring. Qed.
Lemma phi_small z : z < 0 -> - z * phi z <= 2 / - z.
Proof.
  intros N. unfold phi. assert (E := exp_ineq1_le (z * z / 2)). assert (X := exp_pos (z * z / 2)).
  assert (S : 1 <= sqrt (2 * PI)). { rewrite <- sqrt_1 at 1. apply sqrt_le_1_alt. assert (P := PI2_1). lra. }
  rewrite exp_Ropp. set (x := exp (z * z / 2)) in *. set (q := sqrt (2 * PI)) in *.
  apply (Rmult_le_reg_r (x * q * - z)); [assert (0 < x * q) by nra; nra|].
  replace (- z * (/ x / q) * (x * q * - z)) with (z * z) by (field; split; lra).
  replace (2 / - z * (x * q * - z)) with (2 * x * q) by (field; lra). nra.
Qed.
Lemma tail_pos z : 0 < tail z.
Proof.
  destruct (Rlt_or_le 0 (tail z)) as [H|H]; [exact H|]. exfalso.
  set (c := - tail (z - 1)). assert (C : 0 < c) by (unfold c; assert (T := tail_incr (z - 1) z ltac:(lra)); lra).
  set (y := Rmin (z - 2) (Rmin (- 1) (- (3 / c)))).
  assert (Y1 : y <= z - 2) by apply Rmin_l. assert (Y2 : y <= - 1) by (eapply Rle_trans; [apply Rmin_r|apply Rmin_l]).
  assert (Y3 : y <= - (3 / c)) by (eapply Rle_trans; [apply Rmin_r|apply Rmin_r]).
  assert (T := tail_incr y (z - 1) ltac:(lra)). rewrite tail_is in T. assert (P := Phi_bounds y). assert (Q := phi_small y ltac:(lra)).
  assert (c <= - y * phi y) by (unfold c; nra). assert (A : 3 / c <= - y) by lra.
  assert (B : 2 / - y < c); [|lra]. apply (Rmult_lt_reg_r (- y)); [lra|]. unfold Rdiv at 1. rewrite Rmult_assoc, Rinv_l by lra.
  assert (c * (3 / c) <= c * - y) by (apply Rmult_le_compat_l; lra). replace (c * (3 / c)) with 3 in * by (field; lra). lra.
Qed.

(** slope of ei in z = (best - m) / (s + j): (s + j) Phi z + j z phi z *)
Lemma ei_slope j s z : 0 < j -> 0 <= s -> 0 <= z \/ j * (z * z) <= s -> 0 < (s + j) * Phi z + j * (z * phi z).
Proof.
  intros J S C. assert (P := Phi_bounds z). assert (Q := phi_pos z). destruct (Rle_or_lt 0 z) as [Z|Z].
  - assert (0 <= z * phi z) by (apply Rmult_le_pos; lra). nra.
  - destruct C as [C|C]; [lra|]. assert (T := tail_pos z). rewrite tail_is in T. nra.
Qed.
Definition ei_z (j s z : R) : R := (s + j) * (z * Phi z) + s * phi z.
Lemma ei_z_derive j s z : is_derive (ei_z j s) z ((s + j) * Phi z + j * (z * phi z)).
Proof.
  unfold ei_z. evar_last.
  { apply (is_derive_plus (fun z => (s + j) * (z * Phi z)) (fun z => s * phi z)).
    - apply (is_derive_scal (fun z => z * Phi z)). apply (is_derive_mult (fun z => z) Phi z 1 (phi z)); [apply (is_derive_id z)|apply Phi_derive|]. intros a b. apply Rmult_comm.
    - apply (is_derive_scal phi), phi_derive. }
  unfold plus, mult, scal; cbn. unfold mult; cbn. ring.
Qed.
Lemma ei_is_z j best m s : s + j <> 0 -> ei_formula j best m s = ei_z j s ((best - m) / (s + j)).
Proof. intros H. unfold ei_formula, ei_z. field. exact H. Qed.
Lemma ei_z_incr j s z z' : 0 < j -> 0 <= s -> z < z' -> 0 <= z \/ j * (z * z) <= s -> ei_z j s z < ei_z j s z'.
Proof.
  intros J S L C. destruct (MVT_gen (ei_z j s) z z' (fun z => (s + j) * Phi z + j * (z * phi z))) as (x & X & E).
  - intros x _. apply ei_z_derive.
  - intros x _. apply continuity_pt_filterlim. apply (ex_derive_continuous (ei_z j s)). eexists. apply ei_z_derive.
  - rewrite Rmin_left, Rmax_right in X by lra. assert (0 < ((s + j) * Phi x + j * (x * phi x)) * (z' - z)); [|lra].
    apply Rmult_lt_0_compat; [|lra]. apply ei_slope; try assumption.
    destruct (Rle_or_lt 0 x) as [P|P]; [now left|]. right. destruct C as [C|C]; [lra|]. assert (x * x <= z * z) by nra. nra.
Qed.
(** the mean counts as long as it is at most (s + j) sqrt (s / j) above the best response *)
Lemma ei_jit_mean j best m m' s : 0 < j -> 0 <= s -> m < m' -> m' <= best \/ j * (best - m')^2 <= s * (s + j)^2 ->
  ei_formula j best m' s < ei_formula j best m s.
Proof.
  intros J S L C. rewrite !ei_is_z by lra. assert (K : 0 < / (s + j)) by (apply Rinv_0_lt_compat; lra). apply ei_z_incr; try assumption.
  - unfold Rdiv. nra.
  - destruct C as [C|C]; [left; unfold Rdiv; apply Rmult_le_pos; lra|right].
    apply (Rmult_le_reg_r ((s + j)^2)); [nra|]. replace (j * ((best - m') / (s + j) * ((best - m') / (s + j))) * (s + j) ^ 2) with (j * (best - m')^2) by (field; lra).
    exact C.
Qed.
Definition ei_s (j d s : R) : R := d * Phi (d / (s + j)) + s * phi (d / (s + j)).
Lemma ei_s_derive j d s : 0 < s + j -> is_derive (ei_s j d) s (phi (d / (s + j)) * (1 - j * d^2 / (s + j)^3)).
Proof.
  intros P. unfold ei_s.
  assert (D : is_derive (fun t => d / (t + j)) s (- (d / ((s + j) * (s + j))))) by (auto_derive; [lra|field; lra]).
  evar_last.
  { apply (is_derive_plus (fun t => d * Phi (d / (t + j))) (fun t => t * phi (d / (t + j)))).
    - apply (is_derive_scal (fun t => Phi (d / (t + j)))). apply (is_derive_comp Phi (fun t => d / (t + j)) s _ _ (Phi_derive _) D).
    - apply (is_derive_mult (fun t => t) (fun t => phi (d / (t + j))) s 1); [apply (is_derive_id s)| |intros a b; apply Rmult_comm].
      apply (is_derive_comp phi (fun t => d / (t + j)) s _ _ (phi_derive _) D). }
  unfold plus, mult, scal; cbn. unfold mult; cbn. field. lra.
Qed.
Lemma ei_s_mvt j d s s' : 0 < j -> 0 <= s -> s < s' ->
  exists x, s < x < s' /\ ei_s j d s' - ei_s j d s = phi (d / (x + j)) * (1 - j * d^2 / (x + j)^3) * (s' - s).
Proof.
  intros J S L. destruct (MVT_cor2 (ei_s j d) (fun x => phi (d / (x + j)) * (1 - j * d^2 / (x + j)^3)) s s' L) as (x & E & X).
  - intros x X. apply is_derive_Reals. apply ei_s_derive. lra.
  - exists x. split; [exact X|exact E].
Qed.
Lemma cube_incr x y : 0 < x -> x < y -> x^3 < y^3.
Proof. intros P L. assert (0 < x * x) by nra. assert (x * x < y * y) by nra. cbn. nra. Qed.
(** the deviation counts exactly as long as (s + j)^3 is at least j (best - m)^2; below, it counts against *)
Lemma ei_jit_std j best m s s' : 0 < j -> 0 <= s -> s < s' -> j * (best - m)^2 <= (s + j)^3 -> ei_formula j best m s < ei_formula j best m s'.
Proof.
  intros J S L C. destruct (ei_s_mvt j (best - m) s s' J S L) as (x & X & E). unfold ei_s in E. unfold ei_formula.
  assert (Q := phi_pos ((best - m) / (x + j))). assert (CU := cube_incr (s + j) (x + j) ltac:(lra) ltac:(lra)).
  assert (0 < 1 - j * (best - m)^2 / (x + j)^3).
  { assert (P3 : 0 < (x + j)^3) by (apply pow_lt; lra). apply (Rmult_lt_reg_r ((x + j)^3)); [exact P3|]. unfold Rdiv. rewrite Rmult_0_l, Rmult_minus_distr_r, Rmult_assoc, Rinv_l by lra. lra. }
  assert (0 < phi ((best - m) / (x + j)) * (1 - j * (best - m) ^ 2 / (x + j) ^ 3) * (s' - s)) by (apply Rmult_lt_0_compat; [apply Rmult_lt_0_compat; assumption|lra]). lra.
Qed.
Lemma ei_jit_std_dec j best m s s' : 0 < j -> 0 <= s -> s < s' -> (s' + j)^3 <= j * (best - m)^2 -> ei_formula j best m s' < ei_formula j best m s.
Proof.
  intros J S L C. destruct (ei_s_mvt j (best - m) s s' J S L) as (x & X & E). unfold ei_s in E. unfold ei_formula.
  assert (Q := phi_pos ((best - m) / (x + j))). assert (CU := cube_incr (x + j) (s' + j) ltac:(lra) ltac:(lra)).
  assert (1 - j * (best - m)^2 / (x + j)^3 < 0).
  { assert (P3 : 0 < (x + j)^3) by (apply pow_lt; lra). apply (Rmult_lt_reg_r ((x + j)^3)); [exact P3|]. unfold Rdiv. rewrite Rmult_0_l, Rmult_minus_distr_r, Rmult_assoc, Rinv_l by lra. lra. }
  assert (0 < phi ((best - m) / (x + j)) * - (1 - j * (best - m) ^ 2 / (x + j) ^ 3) * (s' - s)) by (apply Rmult_lt_0_compat; [apply Rmult_lt_0_compat; lra|lra]). lra.
Qed.
Lemma ei_jit_mono j best m m' s s' : 0 < j -> 0 <= s -> s <= s' -> m' <= m -> j * (best - m)^2 <= s * (s + j)^2 ->
  ei_formula j best m s <= ei_formula j best m' s' /\ (s < s' \/ m' < m -> ei_formula j best m s < ei_formula j best m' s').
Proof.
  intros J S LS LM C.
  assert (A : ei_formula j best m s <= ei_formula j best m s' /\ (s < s' -> ei_formula j best m s < ei_formula j best m s')).
  { destruct (Req_dec s s') as [<- |N]; [split; [lra|intros H; lra]|]. assert (T : ei_formula j best m s < ei_formula j best m s'); [|split; intros; lra].
    apply ei_jit_std; try lra. eapply Rle_trans; [exact C|]. cbn. assert (0 <= (s + j) * ((s + j) * 1)) by nra. nra. }
  assert (B : ei_formula j best m s' <= ei_formula j best m' s' /\ (m' < m -> ei_formula j best m s' < ei_formula j best m' s')).
  { destruct (Req_dec m' m) as [-> |N]; [split; [lra|intros H; lra]|]. assert (T : ei_formula j best m s' < ei_formula j best m' s'); [|split; intros; lra].
    apply ei_jit_mean; try lra. right. eapply Rle_trans; [exact C|]. apply Rmult_le_compat; try lra; [apply pow2_ge_0|]. apply pow_incr. lra. }
  split; [lra|]. intros [H|H]; [destruct A as (A1 & A2); specialize (A2 H)|destruct B as (B1 & B2); specialize (B2 H)]; lra.
Qed.

(** at deviation 0 a mean twice as far above the best response is worth more *)
Lemma exp32 : exp (- (3 / 2)) < / 2.
Proof.
  rewrite exp_Ropp. apply Rinv_lt_contravar; [apply Rmult_lt_0_compat; [lra|apply exp_pos]|]. assert (H := exp_ineq1 (3 / 2) ltac:(lra)). lra.
Qed.
Lemma phi_21 : phi (- 2) < phi (- 1) / 2.
Proof.
  unfold phi. assert (I := Rinv_0_lt_compat _ s2pi_pos). assert (A : - (-2 * -2 / 2) = - (-1 * -1 / 2) + - (3 / 2)) by lra.
  rewrite A, exp_plus. assert (E := exp32). assert (X := exp_pos (- (-1 * -1 / 2))).
  set (x := exp (- (-1 * -1 / 2))) in *. set (y := exp (- (3 / 2))) in *. unfold Rdiv.
  assert (0 < x * / sqrt (2 * PI)) by (apply Rmult_lt_0_compat; assumption). set (q := / sqrt (2 * PI)) in *. nra.
Qed.
Lemma ei_zero_far j best : 0 < j -> ei_formula j best (best + j) 0 < ei_formula j best (best + 2 * j) 0.
Proof.
  intros J. assert (Q := @ei_lower j best (best + 2 * j) 0 ltac:(lra)). unfold ei_formula at 1.
  replace ((best - (best + j)) / (0 + j)) with (- 1) by (field; lra). replace ((best - (best + 2 * j)) / (0 + j)) with (- 2) in Q by (field; lra).
  assert (P := phi_21). assert (T := tail_pos (- 1)). rewrite tail_is in T. nra.
Qed.

(** probability of improvement: uncertainty helps above the best response and hurts below *)
Lemma pi_std_above j best m s s' : 0 < s + j -> s < s' -> best < m -> pi_formula j best m s < pi_formula j best m s'.
Proof.
  intros P L B. apply Phi_incr. assert (I : / (s' + j) < / (s + j)) by (apply Rinv_lt_contravar; nra). unfold Rdiv. nra.
Qed.
Lemma pi_std_below j best m s s' : 0 < s + j -> s < s' -> m < best -> pi_formula j best m s' < pi_formula j best m s.
Proof.
  intros P L B. apply Phi_incr. assert (I : / (s' + j) < / (s + j)) by (apply Rinv_lt_contravar; nra). unfold Rdiv. nra.
Qed.

(** augmented expected improvement *)
Lemma factor_mono noise s s' : 0 <= noise -> 0 <= s -> s <= s' -> noise <> 0 \/ s <> 0 -> aei_factor noise s <= aei_factor noise s'.
Proof.
  intros N S L Z. unfold aei_factor.
  assert (0 < s^2 + noise^2) by (destruct Z; cbn; nra). assert (A : 0 < sqrt (s^2 + noise^2)) by now apply sqrt_lt_R0.
  assert (B : sqrt (s^2 + noise^2) <= sqrt (s'^2 + noise^2)) by (apply sqrt_le_1_alt; cbn; nra).
  assert (I : / sqrt (s'^2 + noise^2) <= / sqrt (s^2 + noise^2)) by (apply Rinv_le_contravar; assumption).
  unfold Rdiv. nra.
Qed.
Lemma aei_mono j noise best m m' s s' : 0 <= noise -> 0 <= s -> s <= s' -> noise <> 0 \/ s <> 0 ->
  0 <= ei_formula j best m s -> ei_formula j best m s <= ei_formula j best m' s' ->
  aei_formula j noise best m s <= aei_formula j noise best m' s'.
Proof.
  intros N S L Z E0 E. rewrite !aei_is. assert (F := factor_mono noise s s' N S L Z). assert (R := @factor_range noise s N Z).
  apply Rmult_le_compat; lra.
Qed.
