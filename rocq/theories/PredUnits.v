(** Kernels under a change of units, and their decay with the distance. *)
From Verif Require Import Base Num UtilsSpec UtilsRProofs HypsModel CovModel KernelSpec CovSpec CovMx CovProofs CovProofs2 GPModel GPSpec PredSpec.
From Coq Require Import List ZArith Bool String Reals Lra Lia Arith Permutation.
Import ListNotations.
Open Scope R_scope.
Set Implicit Arguments.

(** ** change of units *)
Section Units.
Variables (d : nat) (p : list nat) (sc tr : nat -> R).
Hypotheses (HP : Permutation p (seq 0 d)) (HS : forall i, (i < d)%nat -> sc i <> 0).
Notation phi := (recoord d p sc tr).

Lemma recoord_len x : List.length (phi x) = d.
Proof. unfold recoord. now rewrite map_length, seq_length. Qed.
Lemma recoord_nth x i : (i < d)%nat -> nth i (phi x) 0 = sc i * nth (nth i p 0%nat) x 0 + tr i.
Proof.
  intros H. unfold recoord. rewrite (@nth_map_in _ _ _ _ 0%nat 0 i) by now rewrite seq_length. now rewrite seq_nth.
Qed.
Lemma perm_len : List.length p = d.
Proof. rewrite (Permutation_length HP). apply seq_length. Qed.
Lemma perm_bound i : (i < d)%nat -> (nth i p 0%nat < d)%nat.
Proof.
  intros H. assert (I : In (nth i p 0%nat) p) by (apply nth_In; now rewrite perm_len).
  apply (Permutation_in _ HP) in I. apply in_seq in I. lia.
Qed.
Lemma map_nth_seq {A} (l : list A) dv : map (fun i => nth i l dv) (seq 0 (List.length l)) = l.
Proof.
  induction l as [|a l IH]; [reflexivity|]. cbn [List.length seq map nth]. f_equal.
  rewrite <- seq_shift, map_map. exact IH.
Qed.
Variables (ls ls' : pyval NumR).
Hypotheses (HL : recoord_ls d p sc ls ls') (HN : ls_nonzero ls d).
Lemma scaled_recoord x y : scaled_sq (ls_at ls') d (phi x) (phi y) = scaled_sq (ls_at ls) d x y.
Proof.
  unfold scaled_sq.
  set (g := fun i => let e := (nth i x 0 - nth i y 0) / ls_at ls i in e * e).
  rewrite <- (Rsum_perm (Permutation_map g HP)).
  replace (map g p) with (map (fun i => g (nth i p 0%nat)) (seq 0 d)) by (rewrite <- perm_len, <- (map_map (fun i => nth i p 0%nat) g); now rewrite map_nth_seq).
  apply Rsum_map_ext. intros i Hi. apply in_seq in Hi. unfold g. rewrite !recoord_nth by lia.
  pose proof (perm_bound (i := i) ltac:(lia)) as B. set (k := nth i p 0%nat) in *.
  pose proof (HL (i := i) ltac:(lia)) as E. pose proof (HS (i := i) ltac:(lia)) as S. pose proof (HN B) as N. fold k in E.
  assert (E2 : ls_at ls' i * ls_at ls' i = (sc i * ls_at ls k) * (sc i * ls_at ls k)).
  { change (Rsqr (ls_at ls' i) = Rsqr (sc i * ls_at ls k)). rewrite (Rsqr_abs (ls_at ls' i)), (Rsqr_abs (sc i * _)). now rewrite E. }
  assert (N' : ls_at ls' i <> 0).
  { intros Z. rewrite Z in E2. assert (sc i * ls_at ls k <> 0) by now apply Rmult_integral_contrapositive. nra. }
  set (a := nth k x 0). set (b := nth k y 0). set (t := tr i). set (l := ls_at ls' i) in *. set (l0 := ls_at ls k) in *. set (c := sc i) in *.
  cbn zeta. replace ((c * a + t - (c * b + t)) / l * ((c * a + t - (c * b + t)) / l)) with ((c * (a - b)) * (c * (a - b)) / (l * l)) by (field; assumption).
  rewrite E2. field. split; assumption.
Qed.
Lemma base_recoord pr s x y : base_kernel pr ls' s d (phi x) (phi y) = base_kernel pr ls s d x y.
Proof. unfold base_kernel, scaled_dist. now rewrite scaled_recoord. Qed.
Lemma set_recoord pr s xs ys : set_average (base_kernel pr ls' s d) (map phi xs) (map phi ys) = set_average (base_kernel pr ls s d) xs ys.
Proof.
  unfold set_average. rewrite !map_length, map_map. f_equal. apply Rsum_map_ext. intros x _. rewrite map_map.
  apply Rsum_map_ext. intros y _. apply base_recoord.
Qed.
Lemma recoord_alen X : alen (recoord_arr d p sc tr X) = alen X.
Proof. destruct X as [x|l s0 d0]; cbn; [unfold nrows; cbn|]; now rewrite map_length. Qed.
Lemma recoord_elems X : elems (recoord_arr d p sc tr X) = map (recoord_elem d p sc tr) (elems X).
Proof. destruct X as [x|l s0 d0]; cbn; rewrite !map_map; reflexivity. Qed.
Lemma recoord_elem_nth X i : (i < alen X)%nat -> elem_nth (recoord_arr d p sc tr X) i = recoord_elem d p sc tr (elem_nth X i).
Proof.
  intros H. unfold elem_nth. rewrite recoord_elems. apply nth_map_in. destruct X; cbn in *; now rewrite map_length.
Qed.
Lemma recoord_fits name X : fits name X d -> fits name (recoord_arr d p sc tr X) d.
Proof.
  intros [W F]. destruct X as [x|l s0 d0]; cbn in *.
  - split; [|exact F]. destruct F as [_ F]. intros r Hr. cbn in Hr. apply in_map_iff in Hr as [x0 [<- _]]. cbn. rewrite recoord_len. congruence.
  - split; [|exact F]. destruct F as [_ [F _]]. intros r Hr. apply in_map_iff in Hr as [x0 [<- Hx]].
    destruct (W _ Hx) as (W1 & W2 & W3). repeat split.
    + intros q Hq. cbn in *. apply in_map_iff in Hq as [x1 [<- _]]. rewrite recoord_len. congruence.
    + unfold nrows in *. cbn. now rewrite map_length.
    + exact W3.
Qed.
Lemma cov_recoord name s K K' X Xs i j : cov_of name ls s d = Some K -> cov_of name ls' s d = Some K' ->
  fits name X d -> fits name Xs d -> (i < alen X)%nat -> (j < alen Xs)%nat ->
  K' (elem_nth (recoord_arr d p sc tr X) i) (elem_nth (recoord_arr d p sc tr Xs) j) = K (elem_nth X i) (elem_nth Xs j).
Proof.
  intros E E' [_ F] [_ Fs] Hi Hj. rewrite !recoord_elem_nth by assumption. unfold cov_of in *.
  destruct (profile_of name) as [pr|] eqn:P.
  - injection E as <-. injection E' as <-.
    destruct X as [x|l s0 d0]; [|destruct F as [F _]; exfalso; apply F; destruct (set_profile_of name) as [q|] eqn:Q; [|reflexivity];
      destruct (set_profile Q) as [Q' _]; congruence].
    destruct Xs as [xs|l s0 d0]; [|destruct Fs as [Fs _]; exfalso; apply Fs; destruct (set_profile_of name) as [q|] eqn:Q; [|reflexivity];
      destruct (set_profile Q) as [Q' _]; congruence].
    rewrite !elem_nth_point by assumption. cbn [recoord_elem point]. apply base_recoord.
  - destruct (set_profile_of name) as [q|] eqn:Q; [|discriminate]. injection E as <-. injection E' as <-.
    replace (points (recoord_elem d p sc tr (elem_nth X i))) with (map phi (points (elem_nth X i))) by now destruct (elem_nth X i).
    replace (points (recoord_elem d p sc tr (elem_nth Xs j))) with (map phi (points (elem_nth Xs j))) by now destruct (elem_nth Xs j).
    apply set_recoord.
Qed.
End Units.

(** ** decay *)
Lemma exp_neg_le u : 0 <= u -> exp (- u) <= / (1 + u).
Proof.
  intros H. rewrite exp_Ropp. apply Rinv_le_contravar; [lra|]. pose proof (exp_ineq1_le u). lra.
Qed.
(** (16 + 8 u + u^2) e^-u = 16 (1 + u / 4)^2 e^-u <= 16 / (1 + u / 4) *)
Lemma quad_exp u : 0 <= u -> (16 + 8 * u + u * u) * exp (- u) <= 16 / (1 + u / 4).
Proof.
  intros H. pose proof (exp_neg_le (u := u / 4) ltac:(lra)) as E.
  replace (exp (- u)) with (exp (- (u / 4)) * exp (- (u / 4)) * (exp (- (u / 4)) * exp (- (u / 4))))
    by (rewrite <- !exp_plus; f_equal; field).
  set (e := exp (- (u / 4))) in *. assert (P : 0 < e) by apply exp_pos.
  set (v := 1 + u / 4) in *. assert (V : 1 <= v) by (unfold v; lra).
  assert (EV : e * v <= 1).
  { apply (Rmult_le_compat_r v) in E; [|lra]. rewrite Rinv_l in E by lra. exact E. }
  assert (E1 : 0 <= e * v) by nra.
  replace (16 + 8 * u + u * u) with (16 * (v * v)) by (unfold v; field).
  replace (16 * (v * v) * (e * e * (e * e))) with (16 * ((e * v) * (e * v)) * (e * e)) by ring.
  assert (Q : (e * v) * (e * v) <= 1) by nra.
  assert (e <= / v) by exact E. assert (IV : / v <= 1) by (rewrite <- Rinv_1; apply Rinv_le_contravar; lra).
  assert (e * e <= / v) by nra. unfold Rdiv. nra.
Qed.
Lemma profile_decay name pr r : profile_of name = Some pr -> 0 <= r -> 0 <= pr r <= 16 / (1 + r / 4).
Proof.
  intros P H. unfold profile_of in P.
  assert (SE : 0 <= se_profile r <= 16 / (1 + r / 4)).
  { unfold se_profile. split; [left; apply exp_pos|]. replace (- (r * r) / 2) with (- (r * r / 2)) by field.
    eapply Rle_trans; [apply exp_neg_le; nra|]. unfold Rdiv.
    apply Rmult_le_reg_r with ((1 + r * r * / 2) * (1 + r * / 4)); [nra|].
    replace (/ (1 + r * r * / 2) * ((1 + r * r * / 2) * (1 + r * / 4))) with (1 + r * / 4) by (field; nra).
    replace (16 * / (1 + r * / 4) * ((1 + r * r * / 2) * (1 + r * / 4))) with (16 * (1 + r * r * / 2)) by (field; nra). nra. }
  assert (MON : forall c, 1 <= c -> 16 / (1 + c * r / 4) <= 16 / (1 + r / 4)).
  { intros c Hc. unfold Rdiv. apply Rmult_le_compat_l; [lra|]. apply Rinv_le_contravar; nra. }
  assert (S3 : 1 <= sqrt 3) by (rewrite <- sqrt_1 at 1; apply sqrt_le_1_alt; lra).
  assert (S5 : 1 <= sqrt 5) by (rewrite <- sqrt_1 at 1; apply sqrt_le_1_alt; lra).
  destruct (_ || _); [injection P as <-; exact SE|]. destruct (_ =? _)%string.
  - injection P as <-. unfold matern32_profile. assert (0 <= sqrt 3 * r) by nra. pose proof (exp_pos (- (sqrt 3 * r))).
    split; [apply Rmult_le_pos; lra|]. eapply Rle_trans; [|apply (MON (sqrt 3) S3)].
    eapply Rle_trans; [|apply quad_exp; assumption]. apply Rmult_le_compat_r; [lra|]. nra.
  - destruct (_ =? _)%string; [|discriminate]. injection P as <-. unfold matern52_profile.
    assert (0 <= sqrt 5 * r) by nra. pose proof (exp_pos (- (sqrt 5 * r))).
    assert (Q : 5 / 3 * (r * r) = (sqrt 5 * r) * (sqrt 5 * r) / 3).
    { replace (sqrt 5 * r * (sqrt 5 * r)) with ((sqrt 5 * sqrt 5) * (r * r)) by ring. rewrite sqrt_sqrt by lra. field. }
    rewrite Q. set (u := sqrt 5 * r) in *.
    split; [apply Rmult_le_pos; nra|]. eapply Rle_trans; [|apply (MON (sqrt 5) S5)]. fold u.
    eapply Rle_trans; [|apply quad_exp; assumption]. apply Rmult_le_compat_r; [lra|]. nra.
Qed.
Lemma base_decay name pr ls s d x y D : profile_of name = Some pr -> 0 <= D -> D < scaled_dist (ls_at ls) d x y ->
  0 <= base_kernel pr ls s d x y <= s * s * (16 / (1 + D / 4)).
Proof.
  intros P H0 H. unfold base_kernel. destruct (@profile_decay name pr (scaled_dist (ls_at ls) d x y) P ltac:(lra)) as [A B].
  pose proof (Rle_0_sqr s) as SS. unfold Rsqr in SS. split; [apply Rmult_le_pos; assumption|].
  apply Rmult_le_compat_l; [exact SS|]. eapply Rle_trans; [exact B|]. unfold Rdiv. apply Rmult_le_compat_l; [lra|].
  apply Rinv_le_contravar; lra.
Qed.
Lemma set_average_bounds_in {T} (k : T -> T -> R) xs ys hi : xs <> [] -> ys <> [] -> 0 <= hi ->
  (forall x y, In x xs -> In y ys -> 0 <= k x y <= hi) -> 0 <= set_average k xs ys <= hi.
Proof.
  intros Hx Hy H0 H.
  replace (set_average k xs ys) with (set_average (fun x y => Rmax 0 (Rmin (k x y) hi)) xs ys).
  - apply set_average_bounds; try assumption. intros x y. split; [apply Rmax_l|]. apply Rmax_lub; [exact H0|apply Rmin_r].
  - unfold set_average. f_equal. apply Rsum_map_ext. intros x Ix. apply Rsum_map_ext. intros y Iy.
    destruct (H x y Ix Iy). rewrite Rmin_left, Rmax_right by assumption. reflexivity.
Qed.
Lemma far_cov name ls s d K X Xs i j D : cov_of name ls s d = Some K -> fits name X d -> fits name Xs d ->
  (i < alen X)%nat -> (j < alen Xs)%nat -> 0 <= D -> far ls d D (elem_nth X i) (elem_nth Xs j) ->
  0 <= K (elem_nth X i) (elem_nth Xs j) <= s * s * (16 / (1 + D / 4)).
Proof.
  intros E [W F] [Ws Fs] Hi Hj H0 H. unfold cov_of in *.
  assert (NN : 0 <= s * s * (16 / (1 + D / 4))).
  { apply Rmult_le_pos; [apply Rle_0_sqr|]. apply Rmult_le_pos; [lra|]. left. apply Rinv_0_lt_compat. lra. }
  destruct (profile_of name) as [pr|] eqn:P.
  - injection E as <-.
    destruct X as [x|l s0 d0]; [|destruct F as [F _]; exfalso; apply F; destruct (set_profile_of name) as [q|] eqn:Q; [|reflexivity];
      destruct (set_profile Q) as [Q' _]; congruence].
    destruct Xs as [xs|l s0 d0]; [|destruct Fs as [Fs _]; exfalso; apply Fs; destruct (set_profile_of name) as [q|] eqn:Q; [|reflexivity];
      destruct (set_profile Q) as [Q' _]; congruence].
    rewrite !elem_nth_point in * by assumption. cbn [point]. eapply base_decay; [exact P|exact H0|]. apply H; left; reflexivity.
  - destruct (set_profile_of name) as [q|] eqn:Q; [|discriminate]. injection E as <-.
    destruct (set_profile Q) as (_ & _ & _ & _ & b & _ & Pb).
    destruct X as [x|l s0 d0]; [destruct F; congruence|]. destruct Xs as [xs|l' s1 d1]; [destruct Fs; congruence|].
    assert (NE : forall (L : list (mat NumR)) sz dd i, arr_wf (A3 NumR L sz dd) -> (0 < sz)%nat -> (i < List.length L)%nat -> points (elem_nth (A3 NumR L sz dd) i) <> []).
    { intros L sz dd q0 WL Sz Hq. rewrite elem_nth_set by exact Hq. cbn [points].
      destruct (WL (nth q0 L (mkmat [] 0)) (nth_In _ _ Hq)) as (_ & NR & _). unfold nrows in NR. intros Z. rewrite Z in NR. cbn in NR. lia. }
    apply set_average_bounds_in; [| |exact NN|].
    + apply NE; [exact W|apply F|exact Hi].
    + apply NE; [exact Ws|apply Fs|exact Hj].
    + intros x y Ix Iy. eapply base_decay; [exact Pb|exact H0|]. now apply H.
Qed.
Lemma profile_0 name pr : profile_of name = Some pr -> pr 0 = 1.
Proof.
  intros P. unfold profile_of in P. destruct (_ || _); [injection P as <-; unfold se_profile; replace (- (0 * 0) / 2) with 0 by field; apply exp_0|].
  destruct (_ =? _)%string; [injection P as <-; unfold matern32_profile; rewrite Rmult_0_r, Ropp_0, exp_0; ring|].
  destruct (_ =? _)%string; [|discriminate]. injection P as <-. unfold matern52_profile. rewrite !Rmult_0_r, Ropp_0, exp_0. ring.
Qed.
(** a point's own variance under a base kernel *)
Lemma self_cov name pr ls s d K (x : mat NumR) j : profile_of name = Some pr -> cov_of name ls s d = Some K ->
  K (elem_nth (A2 NumR x) j) (elem_nth (A2 NumR x) j) = s * s.
Proof.
  intros P E. unfold cov_of in E. rewrite P in E. injection E as <-. unfold base_kernel.
  replace (scaled_dist _ _ _ _) with 0; [rewrite (profile_0 _ P); ring|]. unfold scaled_dist.
  replace (scaled_sq _ _ _ _) with 0; [now rewrite sqrt_0|]. unfold scaled_sq. symmetry.
  replace 0 with (Rsum (map (fun _ : nat => 0) (seq 0 d))) at 1; [|rewrite Rsum_const; ring].
  apply Rsum_map_ext. intros i _. unfold Rdiv. rewrite Rminus_eq_0 by reflexivity. ring.
Qed.
