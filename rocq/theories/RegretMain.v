(** Regret of the upper confidence bound and uncertainty left by pure exploration. *)
From Verif Require Import Base Num UtilsSpec UtilsModel HypsModel CovModel KernelSpec CovSpec CovProofs CovProofs2 GPModel GPSpec GPProofs GPProofs2 GPProofs3 PredSpec PredProofs NearSpec NearReal NearProofs2
  UtilsRProofs AcqModel BOAcqModel BOTotalSpec BOTotalProofs RegretSpec RegretReal RegretProofs RegretRun.
From Coq Require Import List Reals Lra Lia Arith String Bool Classical ZArith.
From Coq Require ClassicalEpsilon.
Import ListNotations.
Open Scope R_scope.
Set Implicit Arguments.
Unset Strict Implicit.
Unset Asymmetric Patterns.
Set Bullet Behavior "Strict Subproofs".

Lemma abs_sqrt e b v : 0 <= b -> e * e <= b * b * v -> 0 <= v -> Rabs e <= b * sqrt v.
Proof.
  intros Hb H Hv. rewrite <- sqrt_Rsqr_abs. rewrite <- (sqrt_square b Hb) at 1. rewrite <- sqrt_mult; [|now apply Rmult_le_pos|exact Hv]. now apply sqrt_le_1_alt.
Qed.
(** one round: [v] are variances without the jitter [j] *)
Lemma round_regret fn mn vn fs ms vs B kap j v0 delta : 0 <= vn -> 0 <= vs <= v0 -> 0 < j -> 0 < kap -> 0 <= B ->
  Rabs (fn - mn) <= B * sqrt vn -> Rabs (fs - ms) <= B * sqrt vs ->
  - ms + kap * sqrt (vs + j) <= - mn + kap * sqrt (vn + j) + delta ->
  fn - fs <= delta + B * B * (sqrt (v0 + j) + sqrt j) / (4 * kap) + kap * vn / (2 * sqrt j) + B * sqrt vn.
Proof.
  intros Hn Hs Hj Hk HB En Es L. assert (Sj := sqrt_lt_R0 j Hj). set (D := sqrt (v0 + j) + sqrt j). assert (PD : 0 < D) by (unfold D; assert (P := sqrt_pos (v0 + j)); lra).
  assert (Qj := sqrt_sqrt j ltac:(lra)).
  assert (A : sqrt (vn + j) - sqrt j <= vn / (2 * sqrt j)).
  { assert (P : 0 <= vn / (2 * sqrt j)) by (apply Rmult_le_pos; [lra|]; left; apply Rinv_0_lt_compat; lra).
    cut (sqrt (vn + j) <= sqrt j + vn / (2 * sqrt j)); [lra|]. rewrite <- (sqrt_square (sqrt j + vn / (2 * sqrt j))) by lra. apply sqrt_le_1_alt.
    replace ((sqrt j + vn / (2 * sqrt j)) * (sqrt j + vn / (2 * sqrt j))) with (sqrt j * sqrt j + vn + vn / (2 * sqrt j) * (vn / (2 * sqrt j))) by (field; lra).
    rewrite Qj. assert (Q := Rle_0_sqr (vn / (2 * sqrt j))). unfold Rsqr in Q. lra. }
  assert (C : vs / D <= sqrt (vs + j) - sqrt j).
  { apply (Rmult_le_reg_r D); [exact PD|]. unfold Rdiv. rewrite Rmult_assoc, Rinv_l, Rmult_1_r by lra.
    assert (Le : sqrt (vs + j) <= sqrt (v0 + j)) by (apply sqrt_le_1_alt; lra). assert (Ge : sqrt j <= sqrt (vs + j)) by (apply sqrt_le_1_alt; lra).
    assert (Qv := sqrt_sqrt (vs + j) ltac:(lra)). apply Rle_trans with ((sqrt (vs + j) - sqrt j) * (sqrt (vs + j) + sqrt j)); [lra|]. apply Rmult_le_compat_l; unfold D; lra. }
  assert (E : B * sqrt vs - kap * (vs / D) <= B * B * D / (4 * kap)).
  { set (y := sqrt vs). assert (Qy := sqrt_sqrt vs ltac:(lra)). fold y in Qy. rewrite <- Qy.
    assert (Q : 0 <= kap / D * ((y - B * D / (2 * kap)) * (y - B * D / (2 * kap)))).
    { apply Rmult_le_pos; [apply Rmult_le_pos; [lra|left; now apply Rinv_0_lt_compat]|apply Rle_0_sqr]. }
    replace (kap / D * ((y - B * D / (2 * kap)) * (y - B * D / (2 * kap)))) with (kap * (y * y / D) - B * y + B * B * D / (4 * kap)) in Q by (field; lra). lra. }
  assert (An : kap * sqrt (vn + j) <= kap * sqrt j + kap * vn / (2 * sqrt j)).
  { apply (Rmult_le_compat_l kap) in A; [|lra]. replace (kap * (vn / (2 * sqrt j))) with (kap * vn / (2 * sqrt j)) in A by (field; lra). lra. }
  assert (Cs : kap * (vs / D) <= kap * sqrt (vs + j) - kap * sqrt j) by (apply (Rmult_le_compat_l kap) in C; [|lra]; lra).
  assert (En1 := Rle_abs (fn - mn)). assert (Es1 := Rle_abs (- (fs - ms))). rewrite Rabs_Ropp in Es1. lra.
Qed.

Section Main.
Variables (name : string) (h : dict NumR) (d : nat) (ls : pyval NumR) (s nz : R) (K : elem -> elem -> R) (pm : prior NumR) (m : elem -> R).
Variables (inv : list (list R) -> res (list (list R))) (cdf pdf : R -> R).
Hypotheses (RG : regression name h d ls s nz K pm m) (HI : inv_contract inv) (HN : profile_of name <> None).
Variable range : list (R * R).
Hypothesis HR : List.length range = d.
Let t := nz * nz + jitter_cov.
Let t_pos : 0 < t. Proof. exact (noise_pos nz). Qed.
Let Dsq := scaled_sq (ls_at ls) d (map snd range) (map fst range).
Let C := s * s * curvature name * Dsq.

Lemma box_len x : in_box range x -> List.length x = d.
Proof. intros H. rewrite <- HR. clear HR. induction H as [|b v r x _ _ IH]; [reflexivity|]. cbn. now rewrite IH. Qed.
Lemma sq_ge0 x y : 0 <= scaled_sq (ls_at ls) d x y.
Proof. unfold scaled_sq. induction (seq 0 d) as [|i l IH]; cbn [map Rsum]; [lra|]. assert (Q := Rle_0_sqr ((nth i x 0 - nth i y 0) / ls_at ls i)). unfold Rsqr in Q. cbv zeta. lra. Qed.
Lemma C_ge0 : 0 <= C.
Proof. unfold C. assert (P := curvature_pos name). assert (S0 := Rle_0_sqr s). unfold Rsqr in S0. apply Rmult_le_pos; [apply Rmult_le_pos; lra|apply sq_ge0]. Qed.
Lemma same_cell q x y : (0 < q)%nat -> in_box range x -> in_box range y -> cell q range x = cell q range y -> scaled_sq (ls_at ls) d x y <= Dsq / (INR q * INR q).
Proof.
  intros Hq Hx Hy E. assert (Pq : 0 < INR q) by (apply lt_0_INR; lia). unfold Dsq, scaled_sq. unfold Rdiv at 3. rewrite (Rmult_comm _ (/ (INR q * INR q))), <- Rsum_mul. apply Rsum_le. intros i Hi. apply in_seq in Hi. cbv zeta.
  assert (B := cell_close Hq Hx Hy E (i := i) ltac:(lia)).
  rewrite (nth_indep (map snd range) 0 (snd (0, 0))), (map_nth snd), (nth_indep (map fst range) 0 (fst (0, 0))), (map_nth fst) by (rewrite map_length; lia).
  set (w := snd (nth i range (0, 0)) - fst (nth i range (0, 0))) in *. set (e := nth i x 0 - nth i y 0) in *.
  assert (Sq : e * e <= w / INR q * (w / INR q)).
  { assert (A := Rabs_pos e). replace (e * e) with (Rabs e * Rabs e) by (rewrite <- Rabs_mult; apply Rabs_right; apply Rle_ge, Rle_0_sqr). apply Rmult_le_compat; assumption. }
  replace (/ (INR q * INR q) * (w / ls_at ls i * (w / ls_at ls i))) with ((w / INR q * (w / INR q)) * (/ ls_at ls i * / ls_at ls i)) by (unfold Rdiv; rewrite Rinv_mult; ring).
  replace (e / ls_at ls i * (e / ls_at ls i)) with (e * e * (/ ls_at ls i * / ls_at ls i)) by (unfold Rdiv; ring).
  apply Rmult_le_compat_r; [apply Rle_0_sqr|exact Sq].
Qed.

(** among [len] points of the box some point has many close predecessors *)
Lemma crowded (x : nat -> list R) n0 q k len : (0 < q)%nat -> (forall n, (n0 <= n)%nat -> in_box range (x n)) -> (q ^ d * k < len)%nat ->
  exists n I, (n0 <= n < n0 + len)%nat /\ NoDup I /\ (k <= List.length I)%nat /\ forall i, In i I -> (i < n)%nat /\ scaled_sq (ls_at ls) d (x i) (x n) <= Dsq / (INR q * INR q).
Proof.
  intros Hq HB HL. destruct (@often (fun n => cell q range (x n)) (q ^ d) k n0 len) as (n & Hn & HC).
  - intros n Hn. rewrite <- HR. apply cell_lt; [exact Hq|now apply HB].
  - exact HL.
  - eexists n, _. split; [exact Hn|]. split; [|split; [exact HC|]].
    + apply NoDup_filter, seq_NoDup.
    + intros i Hi. apply filter_In in Hi as (Hi & E). apply in_seq in Hi. apply Nat.eqb_eq in E. split; [lia|]. apply same_cell; [exact Hq|apply HB; lia|apply HB; lia|exact E].
Qed.

(** ** the numbers *)
Lemma numbers eta (kap : R) : 0 < eta -> 0 <= kap -> exists q, (0 < q)%nat /\ INR q <= 2 * (2 * (C + t) / eta + 1) * (1 + kap) /\
  C / (INR q * INR q) + t / INR q <= eta / (1 + kap).
Proof.
  intros He Hk. set (a := 2 * (C + t) / eta + 1). assert (CG := C_ge0).
  assert (Pa : 1 <= a). { unfold a. assert (P : 0 <= 2 * (C + t) / eta) by (apply Rmult_le_pos; [lra|left; now apply Rinv_0_lt_compat]). lra. }
  set (y := a * (1 + kap)). assert (Py : 1 <= y) by (unfold y; nra).
  destruct (archimed y) as [U1 U2]. assert (PZ : (0 <= up y)%Z) by (apply le_IZR; lra). exists (Z.to_nat (up y)). rewrite INR_IZR_INZ, Z2Nat.id by exact PZ. set (q := IZR (up y)) in *.
  assert (Pq : y <= q <= 2 * y) by lra. assert (Q1 : 1 <= q) by lra.
  split; [|split].
  - apply INR_lt. change (INR 0) with 0. rewrite INR_IZR_INZ, Z2Nat.id by exact PZ. fold q. lra.
  - unfold y in Pq. lra.
  - assert (G : C / (q * q) <= C / q).
    { unfold Rdiv. apply Rmult_le_compat_l; [exact CG|]. apply Rinv_le_contravar; [lra|]. nra. }
    apply Rle_trans with ((C + t) / q); [unfold Rdiv in *; lra|].
    apply (Rmult_le_reg_r (q * (1 + kap))); [nra|]. replace ((C + t) / q * (q * (1 + kap))) with ((C + t) * (1 + kap)) by (field; lra).
    replace (eta / (1 + kap) * (q * (1 + kap))) with (eta * q) by (field; lra).
    assert (E1 : (C + t) * (1 + kap) <= eta * y). { unfold y, a. replace (eta * ((2 * (C + t) / eta + 1) * (1 + kap))) with ((2 * (C + t) + eta) * (1 + kap)) by (field; lra). nra. }
    nra.
Qed.
(** in a long run some point, proposed after [n1], has a variance that is small even after multiplication with the factor of the last round *)
Lemma settles eta n1 : 0 < eta -> exists N, (n1 < N)%nat /\ forall x : nat -> list R, (forall i, (i < n1)%nat -> List.length (x i) = d) -> (forall n, (n1 <= n)%nat -> in_box range (x n)) ->
  exists n, (n1 <= n < N)%nat /\ forall fe pts mu sd S j, Forall (fun p => List.length p = d) pts ->
    @predict_with_hyps NumR exp inv (A2 NumR (points_of d x n)) (column_of NumR (values_of (fun x => fe (EPoint x)) x n)) (A2 NumR (mkmat pts d)) h name pm = Ok (mu, sd, S) ->
    (j < List.length pts)%nat -> nth j pts [] = x n -> at_ S j j - jitter_cov <= eta / (1 + 2 * ln (INR N + 1)).
Proof.
  intros He. set (A := 2 * (2 * (C + t) / eta + 1)). assert (CG := C_ge0).
  assert (PA : 0 < A). { unfold A. assert (P : 0 <= 2 * (C + t) / eta) by (apply Rmult_le_pos; [lra|left; now apply Rinv_0_lt_compat]). lra. }
  destruct (log_grows (S d) n1 PA) as (N & HN1 & HG). exists N. split; [exact HN1|]. intros x HL HB.
  set (kap := 2 * ln (INR N + 1)) in *. assert (Pk : 0 <= kap). { unfold kap. assert (P := pos_INR N). assert (L : 0 <= ln (INR N + 1)); [|lra]. rewrite <- ln_1. destruct (Req_dec (INR N) 0) as [->|]; [rewrite Rplus_0_l; lra|]. left. apply ln_increasing; lra. }
  destruct (numbers He Pk) as (q & Hq & Lq & Bq). fold A in Lq.
  assert (ML : (q ^ d * q < N - n1)%nat).
  { apply INR_lt. rewrite mult_INR, pow_INR, minus_INR by lia. assert (P : INR q ^ S d <= (A * (1 + kap)) ^ S d) by (apply pow_incr; split; [apply pos_INR|exact Lq]). cbn [pow] in P, HG. fold kap in HG. lra. }
  destruct (crowded Hq HB ML) as (n & I & Hn & ND & LI & HC). exists n. split; [lia|].
  intros fe pts mu sd S j FP E Hj Ez.
  assert (HX : forall i, (i < n)%nat -> List.length (x i) = d). { intros i Hi. destruct (Nat.lt_ge_cases i n1) as [L|G]; [now apply HL|apply box_len, HB, G]. }
  assert (V := var_near RG HI HN HX FP E Hj Ez ND ltac:(lia) HC). fold t in V.
  assert (Pq : 0 < INR q) by (apply lt_0_INR; lia).
  assert (T2 : t / INR (List.length I) <= t / INR q) by (unfold Rdiv; apply Rmult_le_compat_l; [lra|]; apply Rinv_le_contravar; [exact Pq|now apply le_INR]).
  replace (s * s * curvature name * (Dsq / (INR q * INR q))) with (C / (INR q * INR q)) in V by (unfold C, Rdiv; ring). lra.
Qed.

(** ** the upper confidence bound *)
Theorem ucb_regret B eps n0 : 0 <= B -> 0 < eps -> (0 < n0)%nat -> exists N, forall (fe : elem -> R) delta x, in_ball K m B fe ->
  (forall i, (i < n0)%nat -> List.length (x i) = d) ->
  follows (acquisition_values cdf pdf inv d name h pm "ucb") d range (fun x => fe (EPoint x)) n0 delta x ->
  exists n, (n0 <= n < N)%nat /\ forall z, in_box range z -> fe (EPoint (x n)) <= fe (EPoint z) + eps + delta.
Proof.
  intros HB He Hn0. set (D0 := sqrt (s * s + jitter_cov) + sqrt jitter_cov).
  assert (J : 0 < jitter_cov) by (unfold jitter_cov; lra). assert (Sj := sqrt_lt_R0 _ J). assert (PD : 0 < D0) by (unfold D0; assert (P := sqrt_pos (s * s + jitter_cov)); lra).
  set (L := 3 * (B * B * D0) / (4 * eps) + 1). assert (PB : 0 <= B * B) by (apply Rle_0_sqr).
  assert (PL : 1 <= L). { unfold L. assert (P : 0 <= 3 * (B * B * D0) / (4 * eps)) by (apply Rmult_le_pos; [assert (0 <= B * B * D0) by (apply Rmult_le_pos; lra); lra|left; apply Rinv_0_lt_compat; lra]). lra. }
  destruct (above (exp L)) as [n2 Hn2]. set (n1 := Nat.max n0 n2).
  set (eta := Rmin (2 * eps * sqrt jitter_cov / 3) (eps * eps / (9 * (B * B + 1)))).
  assert (Pe1 : 0 < 2 * eps * sqrt jitter_cov / 3) by (assert (0 < eps * sqrt jitter_cov) by (now apply Rmult_lt_0_compat); lra).
  assert (Pe2 : 0 < eps * eps / (9 * (B * B + 1))) by (apply Rmult_lt_0_compat; [now apply Rmult_lt_0_compat|apply Rinv_0_lt_compat; lra]).
  assert (Pe : 0 < eta) by (unfold eta; now apply Rmin_glb_lt). 
  assert (Le1 : eta <= 2 * eps * sqrt jitter_cov / 3) by apply Rmin_l. assert (Le2 : eta <= eps * eps / (9 * (B * B + 1))) by apply Rmin_r. clearbody eta.
  destruct (settles n1 Pe) as (N & HN1 & HS). exists N. intros fe delta x HF HL FO.
  assert (HX : forall i, List.length (x i) = d). { intros i. destruct (Nat.lt_ge_cases i n0) as [Lt|Ge]; [now apply HL|apply box_len, FO, Ge]. }
  destruct (HS x) as (n & Hn & HV); [intros; apply HX|intros n Hn; apply FO; unfold n1 in Hn; lia|].
  exists n. assert (n0 <= n)%nat by (unfold n1 in Hn; lia). split; [lia|]. intros z Hz.
  destruct (FO n ltac:(assumption)) as [Bn Mn].
  assert (EA : choose_fun_acquisition NumR cdf pdf ln "ucb" (Some nz) = Ok (fun m s Y => acq_ucb NumR ln m s (Some Y) (nofZ NumR 2) true)) by reflexivity.
  destruct (@two_values name h d ls s nz K pm m inv cdf pdf RG HI HN x n fe (fun i _ => HX i) "ucb" _ (x n) z ltac:(lia) (HX n) (box_len Hz) EA) as (mu & sd & S & EP & SD & EV).
  set (kap := 2 * ln (INR n + 1)).
  assert (EV' : acquisition_values cdf pdf inv d name h pm "ucb" (points_of d x n) (values_of (fun x => fe (EPoint x)) x n) [x n; z] = Ok [- at_ mu 0 0 + kap * at_ sd 0 0; - at_ mu 1 0 + kap * at_ sd 1 0]).
  { refine (eq_trans EV _). unfold acq_ucb, same_len. cbn [List.length Nat.eqb assert_ rbind]. unfold values_of. rewrite map_length, seq_length. unfold AcqModel.map2. cbn [combine map fst snd nopp nadd nmul nofZ nofnat NumR].
    unfold kap. rewrite <- ?INR_IZR_INZ. reflexivity. }
  specialize (Mn z _ _ Hz EV').
  assert (FP : Forall (fun p => List.length p = d) [x n; z]) by (repeat constructor; [apply HX|now apply box_len]).
  assert (Fs : fits name (A2 NumR (mkmat [x n; z] d)) d).
  { split; [|split; [exact HN|reflexivity]]. intros r Hr. rewrite Forall_forall in FP. now apply FP. }
  assert (V0 := HV fe _ _ _ _ 0%nat FP EP ltac:(cbn; lia) eq_refl).
  assert (V1 := @var_prior name h d ls s nz K pm m inv RG HI HN x n fe (fun i _ => HX i) _ _ _ _ 1%nat FP EP ltac:(cbn; lia)).
  assert (XF := @X_fits name d HN x n (fun i _ => HX i)). assert (YC := @Y_column d x n fe).
  destruct (@band name h d ls s nz K pm m inv RG HI _ _ _ _ _ _ B fe XF Fs YC EP HF 0%nat ltac:(cbn; lia)) as [G0 E0].
  destruct (@band name h d ls s nz K pm m inv RG HI _ _ _ _ _ _ B fe XF Fs YC EP HF 1%nat ltac:(cbn; lia)) as [G1 E1].
  rewrite no_errors in E0, E1. rewrite (Rdiv_0_l) in E0, E1 || unfold Rdiv in E0, E1.
  set (v0 := at_ S 0 0 - jitter_cov) in *. set (v1 := at_ S 1 1 - jitter_cov) in *.
  assert (Hkn : L <= kap).
  { unfold kap. assert (LL : L <= ln (INR n + 1)); [|lra]. rewrite <- (ln_exp L). left. apply ln_increasing; [apply exp_pos|]. assert (INR n2 <= INR n) by (apply le_INR; unfold n1 in Hn; lia). lra. }
  assert (KN : kap <= 2 * ln (INR N + 1)).
  { unfold kap. assert (Lt : INR n < INR N) by (apply lt_INR; lia). assert (P := pos_INR n). assert (ln (INR n + 1) < ln (INR N + 1)) by (apply ln_increasing; lra). lra. }
  set (kN := 2 * ln (INR N + 1)) in *.
  assert (RR := @round_regret (fe (EPoint (x n))) (at_ mu 0 0) v0 (fe (EPoint z)) (at_ mu 1 0) v1 B kap jitter_cov (s * s) delta G0 (conj G1 V1) J ltac:(lra) HB).
  assert (R2 : fe (EPoint (x n)) - fe (EPoint z) <= delta + B * B * (sqrt (s * s + jitter_cov) + sqrt jitter_cov) / (4 * kap) + kap * v0 / (2 * sqrt jitter_cov) + B * sqrt v0).
  { apply RR.
    - apply abs_sqrt; [exact HB| |exact G0]. replace (B * B * v0) with ((B * B + 0 * / (nz * nz + jitter_cov)) * v0) by ring. exact E0.
    - apply abs_sqrt; [exact HB| |exact G1]. replace (B * B * v1) with ((B * B + 0 * / (nz * nz + jitter_cov)) * v1) by ring. exact E1.
    - rewrite (SD 0%nat), (SD 1%nat) in Mn by lia. replace (v1 + jitter_cov) with (at_ S 1 1) by (unfold v1; ring). replace (v0 + jitter_cov) with (at_ S 0 0) by (unfold v0; ring). exact Mn. }
  fold D0 in R2.
  assert (T1 : B * B * D0 / (4 * kap) <= eps / 3).
  { apply (Rmult_le_reg_r (4 * kap)); [lra|]. replace (B * B * D0 / (4 * kap) * (4 * kap)) with (B * B * D0) by (field; lra).
    assert (EL : B * B * D0 <= eps / 3 * (4 * L)) by (unfold L; replace (eps / 3 * (4 * (3 * (B * B * D0) / (4 * eps) + 1))) with (B * B * D0 + 4 * eps / 3) by (field; lra); lra). nra. }
  assert (VN : v0 * (1 + kN) <= eta). { apply (Rmult_le_compat_r (1 + kN)) in V0; [|lra]. replace (eta / (1 + kN) * (1 + kN)) with eta in V0 by (field; lra). exact V0. }
  assert (T2 : kap * v0 / (2 * sqrt jitter_cov) <= eps / 3).
  { apply (Rmult_le_reg_r (2 * sqrt jitter_cov)); [lra|]. replace (kap * v0 / (2 * sqrt jitter_cov) * (2 * sqrt jitter_cov)) with (kap * v0) by (field; lra). nra. }
  assert (T3 : B * sqrt v0 <= eps / 3).
  { assert (VE : v0 <= eta) by nra. apply Rsqr_incr_0_var; [|lra]. unfold Rsqr. replace (B * sqrt v0 * (B * sqrt v0)) with (B * B * (sqrt v0 * sqrt v0)) by ring. rewrite sqrt_sqrt by exact G0.
    assert (U : v0 * (9 * (B * B + 1)) <= eps * eps). { apply Rle_trans with (eps * eps / (9 * (B * B + 1)) * (9 * (B * B + 1))); [apply Rmult_le_compat_r; lra|right; field; lra]. }
    nra. }
  lra.
Qed.

(** ** pure exploration *)
Lemma one_value x n fe pts pts' j j' mu sd S mu' sd' S' : (forall i, (i < n)%nat -> List.length (x i) = d) ->
  Forall (fun p => List.length p = d) pts -> Forall (fun p => List.length p = d) pts' ->
  (j < List.length pts)%nat -> (j' < List.length pts')%nat -> nth j pts [] = nth j' pts' [] ->
  let X := A2 NumR (points_of d x n) in let Y := column_of NumR (values_of (fun x => fe (EPoint x)) x n) in
  @predict_with_hyps NumR exp inv X Y (A2 NumR (mkmat pts d)) h name pm = Ok (mu, sd, S) ->
  @predict_with_hyps NumR exp inv X Y (A2 NumR (mkmat pts' d)) h name pm = Ok (mu', sd', S') -> at_ mu j 0 = at_ mu' j' 0 /\ at_ sd j 0 = at_ sd' j' 0.
Proof.
  intros HX FP FP' Hj Hj' E X Y E1 E2.
  assert (FS : forall p, Forall (fun p => List.length p = d) p -> fits name (A2 NumR (mkmat p d)) d).
  { intros p H. split; [|split; [exact HN|reflexivity]]. intros r Hr. rewrite Forall_forall in H. now apply H. }
  assert (XF := @X_fits name d HN x n HX). assert (YC := @Y_column d x n fe).
  destruct (predict_ok RG HI XF (FS _ FP) YC) as (a1 & b1 & c1 & P1 & _ & _ & _ & M1 & D1 & S1). destruct (predict_ok RG HI XF (FS _ FP') YC) as (a2 & b2 & c2 & P2 & _ & _ & _ & M2 & D2 & S2).
  unfold X, Y in E1, E2. rewrite P1 in E1. rewrite P2 in E2. apply Ok_inj in E1. apply Ok_inj in E2. injection E1 as <- <- <-. injection E2 as <- <- <-.
  rewrite (M1 j Hj), (M2 j' Hj'), (D1 j Hj), (D2 j' Hj'), (S1 j j Hj Hj), (S2 j' j' Hj' Hj'), !Nat.eqb_refl.
  assert (EN : elem_nth (A2 NumR (mkmat pts d)) j = elem_nth (A2 NumR (mkmat pts' d)) j').
  { unfold elem_nth, elems. cbn [mrows]. change (EPoint []) with (EPoint ([] : list R)). rewrite !(map_nth EPoint). now f_equal. }
  now rewrite EN.
Qed.
Theorem explore eps n0 : 0 < eps -> (0 < n0)%nat -> exists N, forall (fe : elem -> R) delta x,
  (forall i, (i < n0)%nat -> List.length (x i) = d) ->
  follows (acquisition_values cdf pdf inv d name h pm "pure_explore") d range (fun x => fe (EPoint x)) n0 delta x ->
  forall n pts mu sd S, (N <= n)%nat -> Forall (in_box range) pts ->
    @predict_with_hyps NumR exp inv (A2 NumR (points_of d x n)) (column_of NumR (values_of (fun x => fe (EPoint x)) x n)) (A2 NumR (mkmat pts d)) h name pm = Ok (mu, sd, S) ->
    forall j, (j < List.length pts)%nat -> at_ sd j 0 <= sqrt (jitter_cov + eps) + delta.
Proof.
  intros He Hn0. destruct (settles n0 He) as (N & HN1 & HS). exists N. intros fe delta x HL FO n' pts mu' sd' S' Hn' HP EP' j Hj.
  assert (HX : forall i, List.length (x i) = d). { intros i. destruct (Nat.lt_ge_cases i n0) as [Lt|Ge]; [now apply HL|apply box_len, FO, Ge]. }
  destruct (HS x) as (n & Hn & HV); [intros; apply HX|intros n Hn; apply FO, Hn|].
  destruct (FO n ltac:(lia)) as [Bn Mn]. set (z := nth j pts []).
  assert (Hz : in_box range z). { rewrite Forall_forall in HP. apply HP. now apply nth_In. }
  assert (EA : choose_fun_acquisition NumR cdf pdf ln "pure_explore" (Some nz) = Ok (fun _ s _ => acq_pure_explore NumR s)) by reflexivity.
  destruct (@two_values name h d ls s nz K pm m inv cdf pdf RG HI HN x n fe (fun i _ => HX i) "pure_explore" _ (x n) z ltac:(lia) (HX n) (box_len Hz) EA) as (mu & sd & S & EP & SD & EV).
  assert (Mz := Mn z _ _ Hz EV).
  assert (FP : Forall (fun p => List.length p = d) [x n; z]) by (repeat constructor; [apply HX|now apply box_len]).
  assert (FP' : Forall (fun p => List.length p = d) pts) by (eapply Forall_impl; [|exact HP]; intros p; apply box_len).
  assert (V0 := HV fe _ _ _ _ 0%nat FP EP ltac:(cbn; lia) eq_refl).
  assert (KN : 0 <= 2 * ln (INR N + 1)). { assert (P := pos_INR N). assert (LL : 0 <= ln (INR N + 1)); [|lra]. rewrite <- ln_1. destruct (Req_dec (INR N) 0) as [->|]; [rewrite Rplus_0_l; lra|]. left. apply ln_increasing; lra. }
  assert (V1 : eps / (1 + 2 * ln (INR N + 1)) <= eps).
  { apply (Rmult_le_reg_r (1 + 2 * ln (INR N + 1))); [lra|]. unfold Rdiv. rewrite Rmult_assoc, Rinv_l by lra. nra. }
  assert (S0 : at_ sd 0 0 <= sqrt (jitter_cov + eps)). { rewrite SD by lia. apply sqrt_le_1_alt. lra. }
  (* the same history at the points asked for, and then the longer history *)
  assert (Fs : fits name (A2 NumR (mkmat pts d)) d).
  { split; [|split; [exact HN|reflexivity]]. intros r Hr. rewrite Forall_forall in FP'. now apply FP'. }
  assert (XF := @X_fits name d HN x n (fun i _ => HX i)). assert (YC := @Y_column d x n fe).
  assert (XF' := @X_fits name d HN x n' (fun i _ => HX i)). assert (YC' := @Y_column d x n' fe).
  destruct (predict_ok RG HI XF Fs YC) as (a1 & b1 & c1 & P1 & _).
  assert (E1 := @one_value x n fe pts [x n; z] j 1 _ _ _ _ _ _ (fun i _ => HX i) FP' FP Hj ltac:(cbn; lia) eq_refl P1 EP).
  assert (EL : elems (A2 NumR (points_of d x n')) = (elems (A2 NumR (points_of d x n)) ++ map EPoint (map x (seq n (n' - n))))%list).
  { unfold elems, points_of. cbn [mrows]. rewrite <- map_app, <- map_app. do 2 f_equal. replace n' with (n + (n' - n))%nat at 1 by lia. now rewrite seq_app. }
  assert (MD := @predict_more name h d ls s nz K pm m inv RG HI _ _ _ _ _ _ _ _ _ _ _ _ XF XF' Fs YC YC' EL P1 EP' j Hj).
  rewrite (proj2 E1) in MD. change (at_ sd 1 0 <= at_ sd 0 0 + delta) in Mz. lra.
Qed.

(** and then the predictions of a function of the kernel's space are accurate *)
Theorem explore_error eps n0 : 0 < eps -> (0 < n0)%nat -> exists N, forall (fe : elem -> R) delta x B, 0 <= B -> in_ball K m B fe ->
  (forall i, (i < n0)%nat -> List.length (x i) = d) ->
  follows (acquisition_values cdf pdf inv d name h pm "pure_explore") d range (fun x => fe (EPoint x)) n0 delta x ->
  forall n pts mu sd S, (N <= n)%nat -> Forall (in_box range) pts ->
    @predict_with_hyps NumR exp inv (A2 NumR (points_of d x n)) (column_of NumR (values_of (fun x => fe (EPoint x)) x n)) (A2 NumR (mkmat pts d)) h name pm = Ok (mu, sd, S) ->
    let err := B * sqrt ((sqrt (jitter_cov + eps) + delta) * (sqrt (jitter_cov + eps) + delta) - jitter_cov) in
    (forall j, (j < List.length pts)%nat -> Rabs (fe (EPoint (nth j pts [])) - at_ mu j 0) <= err) /\
    forall j, (j < List.length pts)%nat -> (forall i, (i < List.length pts)%nat -> at_ mu j 0 <= at_ mu i 0) ->
      forall i, (i < List.length pts)%nat -> fe (EPoint (nth j pts [])) <= fe (EPoint (nth i pts [])) + 2 * err.
Proof.
  intros He Hn0. destruct (explore He Hn0) as [N HN']. exists N. intros fe delta x B B0 HB HL FO n pts mu sd S Hn HP E err.
  assert (HX : forall i, List.length (x i) = d). { intros i. destruct (Nat.lt_ge_cases i n0) as [Lt|Ge]; [now apply HL|apply box_len, FO, Ge]. }
  assert (FP : Forall (fun p => List.length p = d) pts) by (eapply Forall_impl; [|exact HP]; intros p; apply box_len).
  assert (Fs : fits name (A2 NumR (mkmat pts d)) d).
  { split; [|split; [exact HN|reflexivity]]. intros r Hr. rewrite Forall_forall in FP. now apply FP. }
  assert (XF := @X_fits name d HN x n (fun i _ => HX i)). assert (YC := @Y_column d x n fe).
  assert (AC : forall j, (j < List.length pts)%nat -> Rabs (fe (EPoint (nth j pts [])) - at_ mu j 0) <= err).
  { intros j Hj. assert (SD := HN' fe delta x HL FO n pts mu sd S Hn HP E j Hj).
    assert (EN : elem_nth (A2 NumR (mkmat pts d)) j = EPoint (nth j pts [])).
    { unfold elem_nth, elems. cbn [mrows]. change (EPoint []) with (EPoint ([] : list R)). now rewrite (map_nth EPoint). }
    destruct (band_sd RG HI XF Fs YC E HB Hj) as [G L]. rewrite EN in L.
    rewrite (@no_errors d x n fe) in L. replace (B * B + 0 / (nz * nz + jitter_cov)) with (B * B) in L by (unfold Rdiv; ring). rewrite sqrt_square in L by exact B0.
    destruct (predict_ok RG HI XF Fs YC) as (a1 & b1 & c1 & P1 & _ & _ & _ & _ & D1 & _). assert (EQ := eq_trans (eq_sym P1) E). apply Ok_inj in EQ. injection EQ as -> -> ->.
    assert (SP : 0 <= at_ sd j 0) by (rewrite (D1 j Hj); apply sqrt_pos).
    eapply Rle_trans; [exact L|]. unfold err. apply Rmult_le_compat_l; [exact B0|]. apply sqrt_le_1_alt.
    assert (Q : at_ sd j 0 * at_ sd j 0 <= (sqrt (jitter_cov + eps) + delta) * (sqrt (jitter_cov + eps) + delta)) by (apply Rmult_le_compat; lra). lra. }
  split; [exact AC|]. intros j Hj MJ i Hi. assert (A1 := AC j Hj). assert (A2 := AC i Hi). assert (MI := MJ i Hi).
  assert (B1 := Rle_abs (fe (EPoint (nth j pts [])) - at_ mu j 0)). assert (B2 := Rle_abs (- (fe (EPoint (nth i pts [])) - at_ mu i 0))). rewrite Rabs_Ropp in B2. lra.
Qed.

(** ** such loops exist: for every positive tolerance there is a point to evaluate next *)
Section Exist.
Variables (fe : elem -> R) (str_acq : string) (fa : list R -> list R -> list R -> res (list R)) (phi : nat -> R -> R -> R).
Hypothesis EA : choose_fun_acquisition NumR cdf pdf ln str_acq (Some nz) = Ok fa.
Hypothesis EF : forall n a b u v Y, List.length Y = n -> fa [a; b] [u; v] Y = Ok [phi n a u; phi n b v].
Hypothesis BF : forall n M, exists P, forall a u, Rabs a <= M -> 0 <= u <= M -> phi n a u <= P.
Hypothesis BM : exists M, forall z, in_box range z -> Rabs (m (EPoint z)) <= M.
Variable z0 : list R.
Hypothesis Z0 : in_box range z0.
Variable delta : R.
Hypothesis HDel : 0 < delta.
Let f := fun x => fe (EPoint x).

Lemma next_point x n : (0 < n)%nat -> (forall i, List.length (x i) = d) -> exists y, in_box range y /\
  forall z a b, in_box range z -> acquisition_values cdf pdf inv d name h pm str_acq (points_of d x n) (values_of f x n) [y; z] = Ok [a; b] -> b <= a + delta.
Proof.
  intros Hn HX. set (X := A2 NumR (points_of d x n)). set (Y := column_of NumR (values_of f x n)).
  set (E := fun v => exists z mu sd S, in_box range z /\ @predict_with_hyps NumR exp inv X Y (A2 NumR (mkmat [z] d)) h name pm = Ok (mu, sd, S) /\ v = phi n (at_ mu 0 0) (at_ sd 0 0)).
  assert (XF := @X_fits name d HN x n (fun i _ => HX i)). assert (YC := @Y_column d x n fe).
  assert (F1 : forall z, in_box range z -> fits name (A2 NumR (mkmat [z] d)) d).
  { intros z Hz. split; [|split; [exact HN|reflexivity]]. intros r [<-|[]]. now apply box_len. }
  assert (BE : bound E).
  { destruct BM as [M HM]. set (Q := s * s * deviation_sq m X Y / (nz * nz + jitter_cov)). destruct (BF n (Rabs M + sqrt Q + sqrt (s * s + jitter_cov))) as [P HP]. exists P. intros v (z & mu & sd & S & Hz & EP & ->).
    assert (MS := @mean_size name h d ls s nz K pm m inv RG HI X (A2 NumR (mkmat [z] d)) Y mu sd S XF (F1 z Hz) YC EP 0%nat ltac:(cbn; lia)). cbv zeta in MS. change (elem_nth (A2 NumR (mkmat [z] d)) 0) with (EPoint z) in MS.
    assert (VP := @var_prior name h d ls s nz K pm m inv RG HI HN x n fe (fun i _ => HX i) [z] mu sd S 0%nat ltac:(repeat constructor; now apply box_len) EP ltac:(cbn; lia)).
    destruct (predict_ok RG HI XF (F1 z Hz) YC) as (a1 & b1 & c1 & P1 & _ & _ & _ & _ & D1 & _). assert (EQ := eq_trans (eq_sym P1) EP). apply Ok_inj in EQ. injection EQ as -> -> ->.
    assert (LQ : sqrt (K (EPoint z) (EPoint z) * deviation_sq m X Y / (nz * nz + jitter_cov)) <= sqrt Q).
    { apply sqrt_le_1_alt. unfold Q, Rdiv. apply Rmult_le_compat_r; [left; apply Rinv_0_lt_compat; exact (noise_pos nz)|]. apply Rmult_le_compat_r; [apply deviation_ge0|]. apply (@K_points name h d ls s nz K pm m RG HN). }
    assert (HMz := HM z Hz). assert (AM := Rle_abs M). assert (SQ := sqrt_pos Q). assert (SS := sqrt_pos (s * s + jitter_cov)).
    assert (T := Rabs_triang (at_ mu 0 0 - m (EPoint z)) (m (EPoint z))). replace (at_ mu 0 0 - m (EPoint z) + m (EPoint z)) with (at_ mu 0 0) in T by ring.
    assert (RM := Rabs_pos M). apply HP; [lra|]. rewrite (D1 0%nat) by (cbn; lia). split; [apply sqrt_pos|].
    assert (sqrt (at_ S 0 0) <= sqrt (s * s + jitter_cov)) by (apply sqrt_le_1_alt; lra). lra. }
  assert (NE : exists v, E v).
  { destruct (predict_ok RG HI XF (F1 z0 Z0) YC) as (a1 & b1 & c1 & P1 & _). exists (phi n (at_ a1 0 0) (at_ b1 0 0)), z0, a1, b1, c1. repeat split; [exact Z0|exact P1]. }
  destruct (completeness E BE NE) as [u [UB LU]].
  assert (NB : exists v, E v /\ u - delta < v).
  { apply NNPP. intros C0. assert (u <= u - delta); [|lra]. apply LU. intros v Ev. apply Rnot_lt_le. intros L. apply C0. now exists v. }
  destruct NB as (v & (y & mu & sd & S & Hy & EP & ->) & LV). exists y. split; [exact Hy|]. intros z a b Hz EV.
  destruct (@two_values name h d ls s nz K pm m inv cdf pdf RG HI HN x n fe (fun i _ => HX i) str_acq fa y z Hn (box_len Hy) (box_len Hz) EA) as (mu2 & sd2 & S2 & EP2 & _ & EV2).
  assert (EV3 := eq_trans (eq_sym EV2) EV). clear EV. rename EV3 into EV. rewrite (EF (n := n)) in EV by (unfold values_of; now rewrite map_length, seq_length). apply Ok_inj in EV. injection EV as <- <-.
  assert (F2 : Forall (fun p => List.length p = d) [y; z]) by (repeat constructor; now apply box_len).
  destruct (@one_value x n fe [y] [y; z] 0 0 _ _ _ _ _ _ (fun i _ => HX i) ltac:(repeat constructor; now apply box_len) F2 ltac:(cbn; lia) ltac:(cbn; lia) eq_refl EP EP2) as [A1 A2].
  destruct (predict_ok RG HI XF (F1 z Hz) YC) as (mz & sz & cz & Pz & _).
  destruct (@one_value x n fe [z] [y; z] 0 1 _ _ _ _ _ _ (fun i _ => HX i) ltac:(repeat constructor; now apply box_len) F2 ltac:(cbn; lia) ltac:(cbn; lia) eq_refl Pz EP2) as [B1 B2].
  rewrite <- A1, <- A2, <- B1, <- B2. assert (L := UB (phi n (at_ mz 0 0) (at_ sz 0 0)) ltac:(exists z, mz, sz, cz; repeat split; [exact Hz|exact Pz])). lra.
Qed.

(** the sequence that evaluates [start] and then follows the acquisition function *)
Variables (start : list (list R)).
Hypotheses (HS0 : start <> []) (HS1 : Forall (fun p => List.length p = d) start).
Definition seq_of (l : list (list R)) (i : nat) : list R := nth i l z0.
Definition is_next (l : list (list R)) (y : list R) : Prop := in_box range y /\
  forall z a b, in_box range z -> acquisition_values cdf pdf inv d name h pm str_acq (points_of d (seq_of l) (List.length l)) (values_of f (seq_of l) (List.length l)) [y; z] = Ok [a; b] -> b <= a + delta.
Definition next (l : list (list R)) : list R := ClassicalEpsilon.epsilon (inhabits []) (is_next l).
Fixpoint upto (k : nat) : list (list R) := match k with O => start | S k => (upto k ++ [next (upto k)])%list end.
Definition loop (i : nat) : list R := seq_of (upto (S i)) i.
Lemma upto_len k : List.length (upto k) = (List.length start + k)%nat.
Proof. induction k as [|k IH]; cbn [upto]; [lia|]. rewrite app_length, IH. cbn. lia. Qed.
Lemma upto_ok k : Forall (fun p => List.length p = d) (upto k) /\ is_next (upto k) (next (upto k)).
Proof.
  assert (G : forall l, Forall (fun p => List.length p = d) l -> (0 < List.length l)%nat -> is_next l (next l)).
  { intros l Fl Pl. unfold next. apply ClassicalEpsilon.epsilon_spec. apply next_point; [exact Pl|]. intros i. unfold seq_of. destruct (Nat.lt_ge_cases i (List.length l)) as [L|L].
    - rewrite Forall_forall in Fl. apply Fl. now apply nth_In.
    - rewrite nth_overflow by exact L. now apply box_len. }
  assert (PS : (0 < List.length start)%nat) by (destruct start; [congruence|cbn; lia]).
  induction k as [|k [IH1 IH2]]; [split; [exact HS1|now apply G]|].
  assert (F' : Forall (fun p => List.length p = d) (upto (S k))) by (cbn [upto]; apply Forall_app; split; [exact IH1|]; repeat constructor; apply box_len, IH2).
  split; [exact F'|]. apply G; [exact F'|]. rewrite upto_len. lia.
Qed.
Lemma upto_nth k k' i : (k <= k')%nat -> (i < List.length start + k)%nat -> nth i (upto k') z0 = nth i (upto k) z0.
Proof.
  intros H. induction H as [|k' H IH]; intros Hi; [reflexivity|]. cbn [upto]. rewrite app_nth1 by (rewrite upto_len; lia). now apply IH.
Qed.
Lemma loop_prefix k i : (i < List.length start + k)%nat -> loop i = seq_of (upto k) i.
Proof.
  intros Hi. unfold loop, seq_of. assert (PS : (0 < List.length start)%nat) by (destruct start; [congruence|cbn; lia]). destruct (Nat.le_ge_cases (S i) k) as [L|L].
  - symmetry. apply upto_nth; lia.
  - apply upto_nth; lia.
Qed.
Theorem loop_follows : follows (acquisition_values cdf pdf inv d name h pm str_acq) d range f (List.length start) delta loop /\
  (forall i, (i < List.length start)%nat -> loop i = nth i start z0).
Proof.
  split.
  - intros n Hn. set (k := (n - List.length start)%nat). assert (En : (n = List.length start + k)%nat) by lia.
    assert (EL : loop n = next (upto k)).
    { rewrite (@loop_prefix (S k)) by lia. unfold seq_of. cbn [upto]. rewrite app_nth2 by (rewrite upto_len; lia). rewrite upto_len. now replace (n - (List.length start + k))%nat with 0%nat by lia. }
    destruct (proj2 (upto_ok k)) as [B0 B1]. rewrite EL. split; [exact B0|]. intros z a b Hz EV. apply (B1 z a b Hz). rewrite <- EV. rewrite upto_len, <- En.
    assert (EX : forall i, In i (seq 0 n) -> seq_of (upto k) i = loop i) by (intros i Hi; apply in_seq in Hi; symmetry; apply loop_prefix; lia).
    unfold points_of, values_of. now rewrite (map_ext_in _ _ _ EX), (map_ext_in (fun i => f (seq_of (upto k) i)) (fun i => f (loop i)) (seq 0 n)) by (intros i Hi; now rewrite (EX i Hi)).
  - intros i Hi. rewrite (@loop_prefix 0) by lia. reflexivity.
Qed.
End Exist.

Theorem loops_exist fe str_acq delta start z0 : In str_acq ["ucb"; "pure_explore"]%string ->
  (exists M, forall z, in_box range z -> Rabs (m (EPoint z)) <= M) -> in_box range z0 -> 0 < delta -> start <> [] -> Forall (fun p => List.length p = d) start ->
  exists x, follows (acquisition_values cdf pdf inv d name h pm str_acq) d range (fun x => fe (EPoint x)) (List.length start) delta x /\ forall i, (i < List.length start)%nat -> x i = nth i start z0.
Proof.
  intros HA BM Z0 HD H0 H1. destruct HA as [<-|[<-|[]]]; eexists.
  - apply (@loop_follows fe "ucb" (fun m s Y => acq_ucb NumR ln m s (Some Y) (nofZ NumR 2) true) (fun n a u => - a + 2 * ln (INR n + 1) * u)); try assumption; [reflexivity| |].
    + intros n a b u v Y L. unfold acq_ucb, same_len. cbn [List.length Nat.eqb assert_ rbind]. unfold AcqModel.map2. cbn [combine map fst snd nopp nadd nmul nofZ nofnat NumR].
      rewrite <- ?INR_IZR_INZ. now rewrite <- L.
    + intros n M. exists (Rabs M + Rabs (2 * ln (INR n + 1)) * Rabs M). intros a u Ha Hu. assert (A := Rle_abs (- a)). rewrite Rabs_Ropp in A. assert (AM := Rle_abs M).
      assert (2 * ln (INR n + 1) * u <= Rabs (2 * ln (INR n + 1)) * Rabs M); [|lra]. apply Rle_trans with (Rabs (2 * ln (INR n + 1)) * u); [apply Rmult_le_compat_r; [lra|apply Rle_abs]|apply Rmult_le_compat_l; [apply Rabs_pos|lra]].
  - apply (@loop_follows fe "pure_explore" (fun _ s _ => acq_pure_explore NumR s) (fun n a u => u)); try assumption; [reflexivity|reflexivity|].
    intros n M. exists M. intros a u _ Hu. lra.
Qed.
Theorem ucb_recorded B eps n0 : 0 <= B -> 0 < eps -> (0 < n0)%nat -> exists N, forall (fe : elem -> R) delta x, in_ball K m B fe ->
  (forall i, (i < n0)%nat -> List.length (x i) = d) ->
  follows (acquisition_values cdf pdf inv d name h pm "ucb") d range (fun x => fe (EPoint x)) n0 delta x ->
  forall n best, (N <= n)%nat -> npmin NumR (values_of (fun x => fe (EPoint x)) x n) = Ok best -> forall z, in_box range z -> best <= fe (EPoint z) + eps + delta.
Proof.
  intros HB He Hn. destruct (ucb_regret HB He Hn) as [N HU]. exists N. intros fe delta x HF HL FO n best LE EM z Hz. destruct (HU fe delta x HF HL FO) as (k & Hk & HZ).
  apply Rle_trans with (fe (EPoint (x k))); [|now apply HZ].
  assert (I : In (fe (EPoint (x k))) (values_of (fun x => fe (EPoint x)) x n)) by (apply in_map_iff; exists k; split; [reflexivity|apply in_seq; lia]).
  exact (proj2 (npmin_R _ _ EM) _ I).
Qed.
End Main.
