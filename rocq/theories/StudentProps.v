(** Properties C108-C110: predictions of Student-t processes.  Exact real arithmetic. *)
From Verif Require Import Base Num UtilsSpec HypsModel CovModel KernelSpec CovSpec CovProps GPModel GPSpec Contracts GPProps
  PredSpec PredProofs PredProps GPProofs3 StudentProofs.
From Coq Require Import List ZArith Bool String Reals Lra Lia Arith Permutation.
Import ListNotations.
Open Scope R_scope.
Local Open Scope string_scope.
Unset Asymmetric Patterns.
Set Bullet Behavior "Strict Subproofs".

(** ** C108: order of the observations, other test points, units of the coordinates, points far from the data *)
Theorem C108_order : forall name h d ls s nz K pm m inv nu X Xs Y p,
  regression name h d ls s nz K pm m -> inv_contract inv -> dget h "dof" = Some (PFloat NumR nu) ->
  fits name X d -> fits name Xs d -> column (alen X) Y -> Permutation p (seq 0 (alen X)) ->
  @tp_predict_with_hyps NumR exp inv (take_rows X p) (take_out Y p) Xs h name pm = @tp_predict_with_hyps NumR exp inv X Y Xs h name pm.
Proof. intros name h d ls s nz K pm m inv nu X Xs Y p RG HI ND. exact (@tp_perm name h d ls s nz K pm m inv nu RG HI ND X Xs Y p). Qed.
Print Assumptions C108_order.
Theorem C108_batch : forall name h d ls s nz K pm m inv nu X Xs Y q r mu sd S,
  regression name h d ls s nz K pm m -> inv_contract inv -> dget h "dof" = Some (PFloat NumR nu) ->
  fits name X d -> fits name Xs d -> column (alen X) Y ->
  (forall k, In k q -> (k < alen Xs)%nat) -> @tp_predict_with_hyps NumR exp inv X Y Xs h name pm = Ok (r, mu, sd, S) ->
  exists mu' sd' S', @tp_predict_with_hyps NumR exp inv X Y (take_rows Xs q) h name pm = Ok (r, mu', sd', S') /\
    is_mx (List.length q) 1 mu' /\ is_mx (List.length q) 1 sd' /\ is_mx (List.length q) (List.length q) S' /\
    (forall j, (j < List.length q)%nat -> at_ mu' j 0 = at_ mu (nth j q 0%nat) 0 /\ at_ sd' j 0 = at_ sd (nth j q 0%nat) 0) /\
    (forall j k, (j < List.length q)%nat -> (k < List.length q)%nat -> j = k \/ nth j q 0%nat <> nth k q 0%nat ->
       at_ S' j k = at_ S (nth j q 0%nat) (nth k q 0%nat)).
Proof.
  intros name h d ls s nz K pm m inv nu X Xs Y q r mu sd S RG HI ND.
  exact (@tp_sub name h d ls s nz K pm m inv nu RG HI ND X Xs Y q r mu sd S).
Qed.
Print Assumptions C108_batch.
Theorem C108_units : forall name h h' d ls ls' s nz K K' pm pm' m m' inv nu p sc tr X Y Xs,
  regression name h d ls s nz K pm m -> regression name h' d ls' s nz K' pm' m' -> inv_contract inv ->
  dget h "dof" = Some (PFloat NumR nu) -> dget h' "dof" = Some (PFloat NumR nu) ->
  Permutation p (seq 0 d) -> (forall i, (i < d)%nat -> sc i <> 0) -> recoord_ls d p sc ls ls' -> ls_nonzero ls d ->
  fits name X d -> fits name Xs d -> column (alen X) Y ->
  (forall e, In e (elems X ++ elems Xs)%list -> m' (recoord_elem d p sc tr e) = m e) ->
  @tp_predict_with_hyps NumR exp inv (recoord_arr d p sc tr X) Y (recoord_arr d p sc tr Xs) h' name pm'
  = @tp_predict_with_hyps NumR exp inv X Y Xs h name pm.
Proof.
  intros name h h' d ls ls' s nz K K' pm pm' m m' inv nu p sc tr X Y Xs RG RG' HI ND ND' HP HS HL HN.
  exact (@tp_recoord name h h' d ls ls' s nz K K' pm pm' m m' inv nu RG RG' HI ND ND' p sc tr HP HS HL HN X Y Xs).
Qed.
Print Assumptions C108_units.
(** far from the data the mean is the prior mean, but the variance is the prior variance times the factor of C35 *)
Theorem C108_far : forall name h d ls s nz K pm m inv nu X Y eps C B,
  regression name h d ls s nz K pm m -> inv_contract inv -> dget h "dof" = Some (PFloat NumR nu) ->
  fits name X d -> column (alen X) Y -> 0 < eps -> @get_kernel_inverse NumR exp inv X h name true false = Ok (C, B, None) ->
  let f := t_factor nu (beta_of m X Y B) (alen X) in
  exists D, forall Xs r mu sd S j, fits name Xs d -> (j < alen Xs)%nat ->
    @tp_predict_with_hyps NumR exp inv X Y Xs h name pm = Ok (r, mu, sd, S) ->
    (forall i, (i < alen X)%nat -> far ls d D (elem_nth X i) (elem_nth Xs j)) ->
    Rabs (at_ mu j 0 - m (elem_nth Xs j)) < eps /\ Rabs (at_ S j j - f * (K (elem_nth Xs j) (elem_nth Xs j) + jitter_cov)) < eps.
Proof.
  intros name h d ls s nz K pm m inv nu X Y eps C B RG HI ND F HY He EB f.
  unfold f. rewrite (@beta_tbeta name h d ls s nz K pm m inv RG HI X Y C B F EB).
  exact (@tp_far name h d ls s nz K pm m inv nu RG HI ND X Y eps F HY He).
Qed.
Print Assumptions C108_far.
(** the data of the earlier examples with 5 degrees of freedom; permutation, selection, change of units and far points
    are those of C31, C32, C93 and C96 *)
Definition ex_hyps_sc_t : dict NumR := (ex_hyps_sc ++ [("dof", PFloat NumR 5)])%list.
Example C108_example : dget ex_hyps_t "dof" = Some (PFloat NumR 5) /\ dget ex_hyps_sc_t "dof" = Some (PFloat NumR 5) /\
  regression "matern52" ex_hyps_t 2 (PArr NumR [1; 3]) 2 (1 / 10) ex_K ex_prior ex_m /\
  regression "matern52" ex_hyps_sc_t 2 (PArr NumR [3 / 1000; 1]) 2 (1 / 10)
    (fun e e' => base_kernel matern52_profile (PArr NumR [3 / 1000; 1]) 2 2 (point e) (point e')) None (fun _ => 0) /\
  exists r mu sd S, @tp_predict_with_hyps NumR exp some_inv ex_X ex_Y ex_Xs ex_hyps_t "matern52" ex_prior = Ok (r, mu, sd, S) /\ r = 8.
Proof.
  destruct C35_example as (D & RG & _). split; [exact D|]. split; [reflexivity|]. split; [exact RG|].
  split; [split; [repeat split|reflexivity|intros e; reflexivity]|].
  destruct (C35_student _ _ _ _ _ _ _ _ _ _ _ _ _ _ RG some_inv_ok ex_fits ex_fits_s ex_column D) as (mu & sd & S & B & C & sd' & S' & _ & _ & E & _).
  exists (5 + INR 3), mu, sd', S'. split; [exact E|]. cbn. lra.
Qed.

(** ** C109: one more observation, at a point where a prediction has been made: the Kalman formula, times a factor that
    compares the error of the prediction with its variance *)
Theorem C109_one_more : forall name h d ls s nz K pm m inv nu X X' Xs Y Y' k C B r mu sd S r' mu' sd' S',
  regression name h d ls s nz K pm m -> inv_contract inv -> dget h "dof" = Some (PFloat NumR nu) -> 2 < nu ->
  fits name X d -> fits name X' d -> fits name Xs d ->
  column (alen X) Y -> column (alen X') Y' -> (k < alen Xs)%nat -> elems X' = (elems X ++ [elem_nth Xs k])%list ->
  (forall i, (i < alen X)%nat -> out Y' i = out Y i) ->
  @get_kernel_inverse NumR exp inv X h name true false = Ok (C, B, None) ->
  @tp_predict_with_hyps NumR exp inv X Y Xs h name pm = Ok (r, mu, sd, S) ->
  @tp_predict_with_hyps NumR exp inv X' Y' Xs h name pm = Ok (r', mu', sd', S') ->
  let f := t_factor nu (beta_of m X Y B) (alen X) in
  let v := at_ S k k + f * (nz * nz) in
  let c j := at_ S j k - (if Nat.eqb j k then f * jitter_cov else 0) in
  let e := out Y' (alen X) - at_ mu k 0 in
  let g := (r - 2 + e * e / v) / (r - 1) in
  0 < f /\ 0 < v /\ 0 < g /\ r' = r + 1 /\
  (forall j, (j < alen Xs)%nat -> at_ mu' j 0 = at_ mu j 0 + c j / v * e) /\
  (forall j l, (j < alen Xs)%nat -> (l < alen Xs)%nat -> at_ S' j l = g * (at_ S j l - c j * c l / v)).
Proof.
  intros name h d ls s nz K pm m inv nu X X' Xs Y Y' k C B r mu sd S r' mu' sd' S' RG HI ND N2 F F' Fs H H' Hk EX EY EB E E' f v c e g.
  unfold g, v, c, f. rewrite (@beta_tbeta name h d ls s nz K pm m inv RG HI X Y C B F EB).
  exact (@tp_one_more name h d ls s nz K pm m inv nu RG HI ND X X' Xs Y Y' k F F' Fs H H' Hk EX EY r mu sd S r' mu' sd' S' N2 E E').
Qed.
Print Assumptions C109_one_more.
Example C109_example : elems ex_X = (elems ex_X2 ++ [elem_nth ex_Xs 0])%list /\
  exists r mu sd S r' mu' sd' S' C B,
  @get_kernel_inverse NumR exp some_inv ex_X2 ex_hyps_t "matern52" true false = Ok (C, B, None) /\
  @tp_predict_with_hyps NumR exp some_inv ex_X2 ex_Y2 ex_Xs ex_hyps_t "matern52" ex_prior = Ok (r, mu, sd, S) /\
  @tp_predict_with_hyps NumR exp some_inv ex_X ex_Y ex_Xs ex_hyps_t "matern52" ex_prior = Ok (r', mu', sd', S') /\ r = 7 /\ r' = 8.
Proof.
  destruct C94_example as (EX & F2 & L2 & H2 & EY & O2). split; [exact EX|].
  destruct C35_example as (D & RG & _).
  destruct (C35_student _ _ _ _ _ _ _ _ _ _ _ _ _ _ RG some_inv_ok ex_fits ex_fits_s ex_column D) as (mu' & _ & _ & _ & _ & sd' & S' & _ & _ & E' & _).
  destruct (C35_student _ _ _ _ _ _ _ _ _ _ _ _ _ _ RG some_inv_ok F2 ex_fits_s H2 D) as (mu & _ & _ & B & C & sd & S & EB & _ & E & _).
  exists (5 + INR 2), mu, sd, S, (5 + INR 3), mu', sd', S', C, B. repeat (split; [eassumption|]). cbn. lra.
Qed.

(** ** C110: an observation within the predicted deviation (noise included) never increases a predicted deviation ... *)
Theorem C110_more_data_partial : forall name h d ls s nz K pm m inv nu X X' Xs Y Y' k C B r mu sd S r' mu' sd' S',
  regression name h d ls s nz K pm m -> inv_contract inv -> dget h "dof" = Some (PFloat NumR nu) -> 2 < nu ->
  fits name X d -> fits name X' d -> fits name Xs d ->
  column (alen X) Y -> column (alen X') Y' -> (k < alen Xs)%nat -> elems X' = (elems X ++ [elem_nth Xs k])%list ->
  (forall i, (i < alen X)%nat -> out Y' i = out Y i) ->
  @get_kernel_inverse NumR exp inv X h name true false = Ok (C, B, None) ->
  @tp_predict_with_hyps NumR exp inv X Y Xs h name pm = Ok (r, mu, sd, S) ->
  @tp_predict_with_hyps NumR exp inv X' Y' Xs h name pm = Ok (r', mu', sd', S') ->
  Rabs (out Y' (alen X) - at_ mu k 0) <= sqrt (at_ S k k + t_factor nu (beta_of m X Y B) (alen X) * (nz * nz)) ->
  forall j, (j < alen Xs)%nat -> at_ sd' j 0 <= at_ sd j 0.
Proof.
  intros name h d ls s nz K pm m inv nu X X' Xs Y Y' k C B r mu sd S r' mu' sd' S' RG HI ND N2 F F' Fs H H' Hk EX EY EB E E' HE j Hj.
  destruct (C109_one_more _ _ _ _ _ _ _ _ _ _ _ _ _ _ _ _ _ _ _ _ _ _ _ _ _ _ _ RG HI ND N2 F F' Fs H H' Hk EX EY EB E E') as (FP & VP & GP & ER & _ & CV).
  set (f := t_factor _ _ _) in *. set (v := at_ S k k + f * (nz * nz)) in *. set (e := out Y' (alen X) - at_ mu k 0) in *.
  destruct (C35_covariance _ _ _ _ _ _ _ _ _ _ _ _ _ _ _ _ _ _ RG HI F Fs H ND N2 E) as (_ & _ & D1).
  destruct (C35_covariance _ _ _ _ _ _ _ _ _ _ _ _ _ _ _ _ _ _ RG HI F' Fs H' ND N2 E') as (_ & _ & D2).
  destruct (D1 j Hj) as [P1 ->]. destruct (D2 j Hj) as [P2 ->]. apply sqrt_le_1_alt. rewrite (CV j j Hj Hj) in P2 |- *.
  set (c := at_ S j k - _) in *. set (g := (r - 2 + e * e / v) / (r - 1)) in *.
  assert (EE : e * e <= v).
  { replace (e * e) with (Rabs e * Rabs e) by (rewrite <- Rabs_mult; apply Rabs_pos_eq, Rle_0_sqr). rewrite <- (sqrt_sqrt v) by lra.
    apply Rmult_le_compat; try apply Rabs_pos; exact HE. }
  assert (CC : 0 <= c * c / v) by (apply Rmult_le_pos; [apply Rle_0_sqr|left; now apply Rinv_0_lt_compat]).
  assert (ER2 : r = nu + INR (alen X)).
  { destruct (C35_student _ _ _ _ _ _ _ _ _ _ _ _ _ _ RG HI F Fs H ND) as (? & ? & ? & ? & ? & ? & ? & _ & _ & E0 & _). rewrite E in E0. now injection E0. }
  pose proof (pos_INR (alen X)) as N0.
  assert (GL : g <= 1).
  { unfold g. apply Rmult_le_reg_r with (r - 1); [lra|]. unfold Rdiv. rewrite Rmult_assoc, Rinv_l by lra. rewrite Rmult_1_r, Rmult_1_l.
    assert (e * e * / v <= 1); [|lra]. apply Rmult_le_reg_r with v; [lra|]. rewrite Rmult_assoc, Rinv_l by lra. lra. }
  assert (0 <= at_ S j j - c * c / v).
  { apply Rmult_le_reg_l with g; [exact GP|]. rewrite Rmult_0_r. exact P2. }
  nra.
Qed.
Print Assumptions C110_more_data_partial.

Lemma out_snoc : forall n Y y, column n Y -> column (n + 1) (mkmat (mrows Y ++ [[y]]) 1) /\
  (forall i, (i < n)%nat -> out (mkmat (mrows Y ++ [[y]]) 1) i = out Y i) /\ out (mkmat (mrows Y ++ [[y]]) 1) n = y.
Proof.
  intros n Y y (_ & L & W). split; [|split].
  - split; [reflexivity|]. split; [etransitivity; [apply app_length|]; exact (f_equal (fun k => (k + 1)%nat) L)|].
    cbn [mrows]. intros r I. apply in_app_or in I as [I|[<-|[]]]; [now apply W|reflexivity].
  - intros i Hi. unfold out, at_. cbn [mrows]. f_equal. apply app_nth1. eapply Nat.lt_le_trans; [exact Hi|]. apply Nat.eq_le_incl. symmetry. exact L.
  - unfold out, at_. cbn [mrows]. rewrite <- L. rewrite app_nth2 by apply Nat.le_refl. rewrite Nat.sub_diag. reflexivity.
Qed.
(** ... but for all data and every test point there are observations that increase the predicted deviation there *)
Theorem C110_surprise : forall name h d ls s nz K pm m inv nu X X' Xs Y k r mu sd S,
  regression name h d ls s nz K pm m -> inv_contract inv -> dget h "dof" = Some (PFloat NumR nu) -> 2 < nu ->
  fits name X d -> fits name X' d -> fits name Xs d ->
  column (alen X) Y -> (k < alen Xs)%nat -> elems X' = (elems X ++ [elem_nth Xs k])%list ->
  @tp_predict_with_hyps NumR exp inv X Y Xs h name pm = Ok (r, mu, sd, S) ->
  exists e, 0 <= e /\ forall Y', column (alen X') Y' -> (forall i, (i < alen X)%nat -> out Y' i = out Y i) ->
    e < Rabs (out Y' (alen X) - at_ mu k 0) ->
    exists r' mu' sd' S', @tp_predict_with_hyps NumR exp inv X' Y' Xs h name pm = Ok (r', mu', sd', S') /\
    forall j, (j < alen Xs)%nat -> at_ sd j 0 < at_ sd' j 0.
Proof.
  intros name h d ls s nz K pm m inv nu X X' Xs Y k r mu sd S RG HI ND N2 F F' Fs H Hk EX E.
  destruct (C35_student _ _ _ _ _ _ _ _ _ _ _ _ _ _ RG HI F Fs H ND) as (mu0 & sd0 & S0 & B & C & sd1 & S1 & EB & E0 & E1 & _ & _ & HB & V & W).
  rewrite E in E1. injection E1 as -> -> -> ->.
  destruct (C35_covariance _ _ _ _ _ _ _ _ _ _ _ _ _ _ _ _ _ _ RG HI F Fs H ND N2 E) as (_ & _ & D1).
  set (f := t_factor nu (beta_of m X Y B) (alen X)) in *.
  assert (FP : 0 < f) by now apply C35_positive.
  set (v := at_ S1 k k + f * (nz * nz)).
  pose proof (pos_INR (alen X)) as N0.
  assert (J0 : 0 < jitter_cov) by (unfold jitter_cov; lra).
  (* after one more observation the variance at [j] is at least [g * f * jitter] *)
  set (Smax := fold_right Rmax 0 (map (fun j => at_ S1 j j) (seq 0 (alen Xs)))).
  assert (SM : 0 <= Smax /\ forall j, (j < alen Xs)%nat -> at_ S1 j j <= Smax).
  { assert (G : forall l, 0 <= fold_right Rmax 0 l /\ forall x, In x l -> x <= fold_right Rmax 0 l).
    { induction l as [|a l [IH1 IH2]]; cbn; [split; [lra|intros _ []]|]. split; [eapply Rle_trans; [exact IH1|apply Rmax_r]|].
      intros x [<-|I]; [apply Rmax_l|]. eapply Rle_trans; [now apply IH2|apply Rmax_r]. }
    destruct (G (map (fun j => at_ S1 j j) (seq 0 (alen Xs)))) as [G1 G2]. split; [exact G1|]. intros j Hj. apply G2.
    apply in_map_iff. exists j. split; [reflexivity|]. apply in_seq. lia. }
  destruct SM as [SM0 SM]. set (a := f * jitter_cov). assert (A0 : 0 < a) by (unfold a; now apply Rmult_lt_0_compat).
  set (q := (nu + INR (alen X) - 1) * (Smax / a)). assert (Q0 : 0 <= q).
  { unfold q. apply Rmult_le_pos; [lra|]. apply Rmult_le_pos; [exact SM0|]. left. now apply Rinv_0_lt_compat. }
  exists (sqrt (v * q)). split; [apply sqrt_pos|]. intros Y' H' EY HE.
  destruct (C35_student _ _ _ _ _ _ _ _ _ _ _ _ _ _ RG HI F' Fs H' ND) as (mu2 & sd2 & S2 & B2 & C2 & sd3 & S3 & EB2 & E2 & E3 & _ & _ & HB2 & V2 & W2).
  exists (nu + INR (alen X')), mu2, sd3, S3. split; [exact E3|]. intros j Hj.
  destruct (C109_one_more _ _ _ _ _ _ _ _ _ _ _ _ _ _ _ _ _ _ _ _ _ _ _ _ _ _ _ RG HI ND N2 F F' Fs H H' Hk EX EY EB E E3) as (_ & VP & GP & _ & _ & CV).
  fold f in VP, GP, CV. fold v in VP, GP, CV. set (e := out Y' (alen X) - at_ mu0 k 0) in *.
  set (g := (nu + INR (alen X) - 2 + e * e / v) / (nu + INR (alen X) - 1)) in *.
  destruct (C35_covariance _ _ _ _ _ _ _ _ _ _ _ _ _ _ _ _ _ _ RG HI F' Fs H' ND N2 E3) as (_ & _ & D2).
  destruct (D1 j Hj) as [P1 ->]. destruct (D2 j Hj) as [P2 ->]. apply sqrt_lt_1_alt. split; [exact P1|].
  apply Rle_lt_trans with Smax; [now apply SM|].
  (* the Kalman part of the variance is at least the jitter times the factor *)
  assert (KP : a <= at_ S1 j j - (at_ S1 j k - (if Nat.eqb j k then f * jitter_cov else 0)) * (at_ S1 j k - (if Nat.eqb j k then f * jitter_cov else 0)) / v).
  { destruct (C94_one_more _ _ _ _ _ _ _ _ _ _ _ _ _ _ _ _ _ _ _ _ _ _ RG HI F F' Fs H H' Hk EX EY E0 E2) as (VP0 & _ & CV0).
    specialize (CV0 j j Hj Hj). destruct (posterior_definite RG HI F' Fs H') as (mu4 & sd4 & S4 & E4 & _ & _ & _ & _ & _ & _ & Dg).
    rewrite E2 in E4. injection E4 as <- <- <-. destruct (Dg j Hj) as (G & _).
    rewrite CV0 in G. rewrite !V by assumption.
    assert (EV : v = f * (at_ S0 k k + nz * nz)) by (unfold v; rewrite V by assumption; ring).
    set (w := at_ S0 k k + nz * nz) in *. set (c := at_ S0 j k - (if Nat.eqb j k then jitter_cov else 0)) in *.
    replace (f * at_ S0 j k - (if Nat.eqb j k then f * jitter_cov else 0)) with (f * c) by (unfold c; destruct (Nat.eqb j k); ring).
    rewrite EV. replace (f * at_ S0 j j - f * c * (f * c) / (f * w)) with (f * (at_ S0 j j - c * c / w)) by (field; split; lra).
    unfold a. apply Rmult_le_compat_l; [lra|]. exact G. }
  rewrite (CV j j Hj Hj). apply Rlt_le_trans with (g * a); [|apply Rmult_le_compat_l; [lra|exact KP]].
  assert (EE : v * q < e * e).
  { replace (e * e) with (Rabs e * Rabs e) by (rewrite <- Rabs_mult; apply Rabs_pos_eq, Rle_0_sqr).
    assert (VQ : 0 <= v * q) by (apply Rmult_le_pos; [left; exact VP|exact Q0]).
    rewrite <- (sqrt_sqrt (v * q)) by exact VQ. pose proof (sqrt_pos (v * q)). nra. }
  assert (EQ : q < e * e / v).
  { apply Rmult_lt_reg_r with v; [exact VP|]. unfold Rdiv. rewrite Rmult_assoc, Rinv_l, Rmult_1_r by lra. lra. }
  assert (GQ : Smax / a < g).
  { unfold g. apply Rmult_lt_reg_r with (nu + INR (alen X) - 1); [lra|]. unfold Rdiv at 2. rewrite Rmult_assoc, Rinv_l, Rmult_1_r by lra.
    unfold q in EQ. lra. }
  apply Rmult_lt_compat_r with (r := a) in GQ; [|exact A0]. unfold Rdiv in GQ. rewrite Rmult_assoc, Rinv_l, Rmult_1_r in GQ by lra. exact GQ.
Qed.
Print Assumptions C110_surprise.
(** in particular the claim of C34 is false for Student-t processes: for the data of the examples *)
Theorem C110_refuted : exists Y' r mu sd S r' mu' sd' S',
  column 3 Y' /\ (forall i, (i < 2)%nat -> out Y' i = out ex_Y2 i) /\
  @tp_predict_with_hyps NumR exp some_inv ex_X2 ex_Y2 ex_Xs ex_hyps_t "matern52" ex_prior = Ok (r, mu, sd, S) /\
  @tp_predict_with_hyps NumR exp some_inv ex_X Y' ex_Xs ex_hyps_t "matern52" ex_prior = Ok (r', mu', sd', S') /\
  forall j, (j < 2)%nat -> at_ sd j 0 < at_ sd' j 0.
Proof.
  destruct C94_example as (EX & F2 & L2 & H2 & EY & O2). destruct C35_example as (D & RG & N2).
  destruct (C35_student _ _ _ _ _ _ _ _ _ _ _ _ _ _ RG some_inv_ok F2 ex_fits_s H2 D) as (mu & _ & _ & B & C & sd & S & EB & _ & E & _).
  assert (Hk : (0 < alen ex_Xs)%nat) by (cbn; lia).
  destruct (C110_surprise _ _ _ _ _ _ _ _ _ _ _ _ _ _ _ _ _ _ _ _ RG some_inv_ok D N2 F2 ex_fits ex_fits_s H2 Hk EX E) as (e & E0 & SU).
  destruct (out_snoc 2 ex_Y2 (at_ mu 0 0 + e + 1) H2) as (HC & HO & HN).
  match type of HN with out ?Z _ = _ => set (Y' := Z) in *; exists Y' end.
  assert (HE : e < Rabs (out Y' (alen ex_X2) - at_ mu 0 0)).
  { change (alen ex_X2) with 2%nat. rewrite HN. rewrite Rabs_pos_eq by lra. lra. }
  destruct (SU _ HC HO HE) as (r' & mu' & sd' & S' & E' & DJ).
  exists (5 + INR (alen ex_X2)), mu, sd, S, r', mu', sd', S'. repeat (split; [assumption|]). exact DJ.
Qed.
Print Assumptions C110_refuted.
