(** Student-t predictions after changes of the responses. *)
From Verif Require Import Base Num UtilsSpec UtilsModel HypsModel CovModel KernelSpec CovSpec CovProofs CovProofs2 GPModel GPSpec GPProofs GPProofs2 GPProofs3 PredSpec PredProofs NearSpec NearReal NearProofs2 RegretReal RegretProofs
  StudentProofs RegretSpec DampSpec DampProofs TDampMx.
From Coq Require Import List Reals Lra Lia Arith String Bool ZArith.
Import ListNotations.
Open Scope R_scope.
Set Implicit Arguments.
Unset Strict Implicit.
Unset Asymmetric Patterns.
Set Bullet Behavior "Strict Subproofs".

(** lengths of vectors with one common coordinate differ by less than the vectors *)
Lemma root_change a b b' c e t : 0 < a -> 0 <= b -> 0 <= b' -> 0 < t -> c * c <= b * b' -> t * (b - 2 * c + b') <= e ->
  Rabs (sqrt (a + b) - sqrt (a + b')) <= sqrt (e / t).
Proof.
  intros a0 b0 b0' t0 C E. rewrite <- sqrt_Rsqr_abs. apply sqrt_le_1_alt. apply (Rmult_le_reg_l t); [exact t0|].
  replace (t * (e / t)) with e by (field; lra). apply (Rle_trans _ (t * (b - 2 * c + b'))); [|exact E]. apply Rmult_le_compat_l; [lra|].
  unfold Rsqr. replace ((sqrt (a + b) - sqrt (a + b')) * (sqrt (a + b) - sqrt (a + b'))) with (sqrt (a + b) * sqrt (a + b) + sqrt (a + b') * sqrt (a + b') - 2 * (sqrt (a + b) * sqrt (a + b'))) by ring.
  rewrite !sqrt_sqrt by lra. rewrite <- sqrt_mult by lra.
  assert (H : a + c <= sqrt ((a + b) * (a + b'))); [|lra].
  apply (Rle_trans _ (Rabs (a + c))); [apply Rle_abs|]. rewrite <- sqrt_Rsqr_abs. apply sqrt_le_1_alt. unfold Rsqr.
  assert (Q : 2 * c <= b + b').
  { destruct (Rle_lt_dec c 0) as [|P]; [lra|]. apply Rnot_lt_le. intros L. assert (D := Rle_0_sqr (b - b')). unfold Rsqr in D.
    assert (G : (b + b') * (b + b') < 2 * c * (2 * c)) by (apply Rmult_le_0_lt_compat; lra). lra. }
  replace ((a + c) * (a + c)) with (a * a + a * (2 * c) + c * c) by ring. replace ((a + b) * (a + b')) with (a * a + a * (b + b') + b * b') by ring.
  assert (M := Rmult_le_compat_l a _ _ (Rlt_le _ _ a0) Q). lra.
Qed.

Section TDamp.
Variables (name : string) (h : dict NumR) (d : nat) (ls : pyval NumR) (s nz : R) (K : elem -> elem -> R) (pm : prior NumR) (m : elem -> R).
Variable inv : list (list R) -> res (list (list R)).
Variable nu : R.
Hypotheses (RG : regression name h d ls s nz K pm m) (HI : inv_contract inv) (ND : dget h "dof" = Some (PFloat NumR nu)) (NU : 2 < nu).
Let t := nz * nz + jitter_cov.
Let t_pos : 0 < t. Proof. exact (noise_pos nz). Qed.
Notation predict := (@predict_with_hyps NumR exp inv).
Notation tpredict := (@tp_predict_with_hyps NumR exp inv).

(** the deviations in terms of those of the Gaussian process *)
Lemma tp_deviation X Xs Y mu sd S r tmu tsd tS : fits name X d -> fits name Xs d -> column (alen X) Y ->
  predict X Y Xs h name pm = Ok (mu, sd, S) -> tpredict X Y Xs h name pm = Ok (r, tmu, tsd, tS) ->
  tmu = mu /\ forall j, (j < alen Xs)%nat -> 0 <= at_ sd j 0 /\ at_ sd j 0 <= sqrt (s * s + jitter_cov) /\
    at_ tsd j 0 = sqrt (nu - 2 + tbeta nz K m X Y) / sqrt (nu + INR (alen X) - 2) * at_ sd j 0.
Proof.
  intros F Fs HY E ET. destruct (tp_ok RG HI ND F Fs HY) as (m1 & d1 & s1 & d1' & s1' & E1 & T1 & _ & _ & B0 & V & W).
  rewrite E in E1. injection E1 as <- <- <-. rewrite ET in T1. injection T1 as -> -> -> ->. split; [reflexivity|]. intros j Hj.
  destruct (posterior_definite RG HI F Fs HY) as (a1 & b1 & c1 & P1 & _ & _ & _ & _ & _ & _ & D). rewrite E in P1. injection P1 as <- <- <-.
  destruct (D j Hj) as (G & G2 & KB & SD). assert (J : 0 < jitter_cov) by (unfold jitter_cov; lra). rewrite SD. split; [apply sqrt_pos|]. split; [apply sqrt_le_1_alt; lra|].
  assert (n0 := pos_INR (alen X)). assert (c0 : 0 < nu + INR (alen X) - 2) by lra.
  rewrite W, V by assumption. unfold t_factor. set (b := tbeta nz K m X Y) in *. replace (nu + b - 2) with (nu - 2 + b) by ring.
  assert (f0 : 0 <= (nu - 2 + b) / (nu + INR (alen X) - 2)) by (apply Rmult_le_pos; [lra|left; now apply Rinv_0_lt_compat]).
  rewrite Rmax_left by (apply Rmult_le_pos; lra). rewrite sqrt_mult by lra. now rewrite sqrt_div_alt by exact c0.
Qed.

Lemma tp_change X Xs Y Y' r tmu tsd tS r' tmu' tsd' tS' : 0 < s -> fits name X d -> fits name Xs d -> column (alen X) Y -> column (alen X) Y' ->
  tpredict X Y Xs h name pm = Ok (r, tmu, tsd, tS) -> tpredict X Y' Xs h name pm = Ok (r', tmu', tsd', tS') ->
  forall j, (j < alen Xs)%nat ->
    Rabs (at_ tmu j 0 - at_ tmu' j 0) <= s / (2 * sqrt (nz * nz + jitter_cov)) * response_change (alen X) Y Y' /\
    Rabs (at_ tsd j 0 - at_ tsd' j 0) <= sqrt ((s * s + jitter_cov) / ((nz * nz + jitter_cov) * (nu + INR (alen X) - 2))) * response_change (alen X) Y Y'.
Proof.
  intros s0 F Fs HY HY' ET ET' j Hj.
  destruct (tp_ok RG HI ND F Fs HY) as (mu & sd & S & d1 & s1 & E & _). destruct (tp_ok RG HI ND F Fs HY') as (mu' & sd' & S' & d2 & s2 & E' & _).
  destruct (tp_deviation F Fs HY E ET) as (EM & ED). destruct (tp_deviation F Fs HY' E' ET') as (EM' & ED'). subst tmu tmu'.
  destruct (mean_change_s RG HI s0 F Fs HY HY' E E' Hj) as (MC & SC). split; [exact MC|].
  destruct (ED j Hj) as (P & Q & ->). destruct (ED' j Hj) as (_ & _ & ->). rewrite SC.
  destruct (tbeta_change RG X Y Y') as (c & C1 & C2). fold t in C2 |- *.
  assert (RC := @root_change (nu - 2) _ _ _ _ _ ltac:(lra) (tbeta_ge0 RG X Y) (tbeta_ge0 RG X Y') t_pos C1 C2).
  set (b := tbeta nz K m X Y) in *. set (b' := tbeta nz K m X Y') in *. unfold response_change.
  set (e := Rsum _) in *. assert (n0 := pos_INR (alen X)). set (k := nu + INR (alen X) - 2) in *. assert (k0 : 0 < k) by (unfold k; lra).
  assert (e0 : 0 <= e) by (unfold e; clear; induction (seq 0 (alen X)) as [|i l IH]; cbn [map Rsum]; [lra|]; assert (Z := Rle_0_sqr (out Y i - out Y' i)); unfold Rsqr in Z; lra).
  assert (J : 0 < jitter_cov) by (unfold jitter_cov; lra).
  replace (sqrt (nu - 2 + b) / sqrt k * at_ sd j 0 - sqrt (nu - 2 + b') / sqrt k * at_ sd j 0) with ((sqrt (nu - 2 + b) - sqrt (nu - 2 + b')) * (at_ sd j 0 / sqrt k)) by (field; apply Rgt_not_eq; now apply sqrt_lt_R0).
  assert (sk : 0 < sqrt k) by now apply sqrt_lt_R0.
  rewrite Rabs_mult, (Rabs_pos_eq (at_ sd j 0 / sqrt k)) by (apply Rmult_le_pos; [exact P|left; now apply Rinv_0_lt_compat]).
  apply (Rle_trans _ (sqrt (e / t) * (sqrt (s * s + jitter_cov) / sqrt k))).
  - apply Rmult_le_compat; [apply Rabs_pos|apply Rmult_le_pos; [exact P|left; now apply Rinv_0_lt_compat]|exact RC|].
    apply Rmult_le_compat_r; [left; now apply Rinv_0_lt_compat|exact Q].
  - apply Req_le. rewrite (sqrt_div_alt (s * s + jitter_cov)) by now apply Rmult_lt_0_compat. rewrite sqrt_mult by lra. rewrite sqrt_div_alt by exact t_pos.
    field. split; apply Rgt_not_eq; [exact sk|now apply sqrt_lt_R0].
Qed.

Lemma tp_between X Xs Y mu sd S r tmu tsd tS : fits name X d -> fits name Xs d -> column (alen X) Y ->
  predict X Y Xs h name pm = Ok (mu, sd, S) -> tpredict X Y Xs h name pm = Ok (r, tmu, tsd, tS) ->
  forall j, (j < alen Xs)%nat -> let n := INR (alen X) in
    sqrt ((nu - 2) / (nu + n - 2)) * at_ sd j 0 <= at_ tsd j 0 <= sqrt ((nu - 2 + deviation_sq m X Y / (nz * nz + jitter_cov)) / (nu + n - 2)) * at_ sd j 0.
Proof.
  intros F Fs HY E ET j Hj n. destruct (tp_deviation F Fs HY E ET) as (_ & ED). destruct (ED j Hj) as (P & _ & ->).
  assert (n0 := pos_INR (alen X)). fold n in n0 |- *. assert (k0 : 0 < nu + n - 2) by lra.
  assert (B0 := tbeta_ge0 RG X Y). assert (B1 := tbeta_le RG X Y). fold t in B1 |- *. set (b := tbeta nz K m X Y) in *. set (D := deviation_sq m X Y) in *.
  assert (BD : b <= D / t). { apply (Rmult_le_reg_l t); [exact t_pos|]. replace (t * (D / t)) with D by (field; lra). exact B1. }
  rewrite !sqrt_div_alt by exact k0. assert (ik : 0 <= / sqrt (nu + n - 2)) by (left; apply Rinv_0_lt_compat; now apply sqrt_lt_R0).
  split; (apply Rmult_le_compat_r; [exact P|apply Rmult_le_compat_r; [exact ik|apply sqrt_le_1_alt; lra]]).
Qed.
(** responses of a function of the kernel's space *)
Lemma tp_target X Xs Y B f r tmu tsd tS : fits name X d -> fits name Xs d -> column (alen X) Y ->
  tpredict X Y Xs h name pm = Ok (r, tmu, tsd, tS) -> 0 <= B -> in_ball K m B f -> (forall i, (i < alen X)%nat -> out Y i = f (elem_nth X i)) ->
  forall j, (j < alen Xs)%nat -> let n := INR (alen X) in
    Rabs (f (elem_nth Xs j) - at_ tmu j 0) <= B * sqrt ((nu + n - 2) / (nu - 2)) * at_ tsd j 0 /\
    at_ tsd j 0 <= sqrt ((nu - 2 + B * B) * (s * s + jitter_cov) / (nu + n - 2)).
Proof.
  intros F Fs HY ET B0 HB HE j Hj n. destruct (tp_ok RG HI ND F Fs HY) as (mu & sd & S & d1 & s1 & E & _).
  assert (BE := @band_exact _ _ _ _ _ _ _ _ _ _ RG HI X Xs Y mu sd S B f F Fs HY E B0 HB HE j Hj).
  destruct (tp_deviation F Fs HY E ET) as (-> & ED). destruct (ED j Hj) as (P & Q & ->).
  assert (b0 := tbeta_ge0 RG X Y). assert (bB := tbeta_ball RG HB HE). set (b := tbeta nz K m X Y) in *. fold n. assert (n0 : 0 <= n) by apply pos_INR.
  assert (k0 : 0 < nu + n - 2) by lra. set (k := nu + n - 2) in *. assert (sk : 0 < sqrt k) by now apply sqrt_lt_R0. assert (a0 : 0 < sqrt (nu - 2)) by (apply sqrt_lt_R0; lra).
  assert (ab : sqrt (nu - 2) <= sqrt (nu - 2 + b)) by (apply sqrt_le_1_alt; lra). split.
  - apply (Rle_trans _ (B * at_ sd j 0)); [apply Rabs_le; lra|]. rewrite sqrt_div_alt by lra.
    replace (B * (sqrt k / sqrt (nu - 2)) * (sqrt (nu - 2 + b) / sqrt k * at_ sd j 0)) with (B * at_ sd j 0 * (sqrt (nu - 2 + b) / sqrt (nu - 2))) by (field; lra).
    rewrite <- (Rmult_1_r (B * at_ sd j 0)) at 1. apply Rmult_le_compat_l; [now apply Rmult_le_pos|].
    apply (Rmult_le_reg_r (sqrt (nu - 2))); [exact a0|]. replace (sqrt (nu - 2 + b) / sqrt (nu - 2) * sqrt (nu - 2)) with (sqrt (nu - 2 + b)) by (field; lra). lra.
  - assert (J : 0 < jitter_cov) by (unfold jitter_cov; lra). assert (s2 := Rle_0_sqr s). unfold Rsqr in s2. rewrite sqrt_div_alt by exact k0. rewrite sqrt_mult by lra.
    replace (sqrt (nu - 2 + B * B) * sqrt (s * s + jitter_cov) / sqrt k) with (sqrt (nu - 2 + B * B) / sqrt k * sqrt (s * s + jitter_cov)) by (field; lra).
    assert (ik : 0 <= / sqrt k) by (left; now apply Rinv_0_lt_compat).
    apply Rmult_le_compat; [apply Rmult_le_pos; [apply sqrt_pos|exact ik]|exact P| |exact Q]. apply Rmult_le_compat_r; [exact ik|]. apply sqrt_le_1_alt. lra.
Qed.
Lemma tp_shrinks B eps : 0 <= B -> 0 < eps -> exists N, forall X Xs Y f r tmu tsd tS, fits name X d -> fits name Xs d -> column (alen X) Y ->
  tpredict X Y Xs h name pm = Ok (r, tmu, tsd, tS) -> in_ball K m B f -> (forall i, (i < alen X)%nat -> out Y i = f (elem_nth X i)) -> (N <= alen X)%nat ->
  forall j, (j < alen Xs)%nat -> at_ tsd j 0 < eps.
Proof.
  intros B0 e0. set (c := (nu - 2 + B * B) * (s * s + jitter_cov)).
  destruct (archimed (c / (eps * eps))) as [U _]. exists (Z.to_nat (up (c / (eps * eps)))).
  intros X Xs Y f r tmu tsd tS F Fs HY ET HB HE HN j Hj.
  destruct (tp_target F Fs HY ET B0 HB HE Hj) as (_ & H). eapply Rle_lt_trans; [exact H|]. fold c.
  assert (J : 0 < jitter_cov) by (unfold jitter_cov; lra). assert (s2 := Rle_0_sqr s). assert (B2 := Rle_0_sqr B). unfold Rsqr in s2, B2.
  assert (c0 : 0 < c) by (unfold c; apply Rmult_lt_0_compat; lra). assert (ee : 0 < eps * eps) by now apply Rmult_lt_0_compat.
  assert (n1 : c / (eps * eps) < INR (alen X)).
  { eapply Rlt_le_trans; [exact U|]. rewrite INR_IZR_INZ. apply IZR_le. lia. }
  assert (q0 : 0 < c / (eps * eps)) by (apply Rmult_lt_0_compat; [exact c0|now apply Rinv_0_lt_compat]).
  rewrite <- (sqrt_square eps) by lra. apply sqrt_lt_1_alt. assert (k0 : 0 < nu + INR (alen X) - 2) by lra. split; [apply Rmult_le_pos; [lra|left; now apply Rinv_0_lt_compat]|].
  apply (Rmult_lt_reg_r (nu + INR (alen X) - 2)); [exact k0|]. replace (c / (nu + INR (alen X) - 2) * (nu + INR (alen X) - 2)) with (c / (eps * eps) * (eps * eps)) by (field; lra).
  rewrite (Rmult_comm (eps * eps)). apply Rmult_lt_compat_r; lra.
Qed.
(** moving the input *)
Lemma tp_move X Xs Y r tmu tsd tS : fits name X d -> fits name Xs d -> column (alen X) Y -> tpredict X Y Xs h name pm = Ok (r, tmu, tsd, tS) ->
  forall j k, (j < alen Xs)%nat -> (k < alen Xs)%nat -> let zj := elem_nth Xs j in let zk := elem_nth Xs k in let n := INR (alen X) in
    Rabs ((at_ tmu j 0 - m zj) - (at_ tmu k 0 - m zk)) <= sqrt (kernel_gap K zj zk * deviation_sq m X Y / (nz * nz + jitter_cov)) /\
    Rabs (at_ tsd j 0 - at_ tsd k 0) <= sqrt ((nu - 2 + deviation_sq m X Y / (nz * nz + jitter_cov)) / (nu + n - 2)) * sqrt (kernel_gap K zj zk).
Proof.
  intros F Fs HY ET j k Hj Hk zj zk n. destruct (tp_ok RG HI ND F Fs HY) as (mu & sd & S & d1 & s1 & E & _).
  assert (M := @mean_move name h d ls s nz K pm m inv RG HI X Xs Y mu sd S F Fs HY E j k Hj Hk).
  assert (D := @sd_move name h d ls s nz K pm m inv RG HI X Xs Y mu sd S F Fs HY E j k Hj Hk).
  destruct (tp_deviation F Fs HY E ET) as (-> & ED). split; [exact M|]. destruct (ED j Hj) as (P & _ & ->). destruct (ED k Hk) as (_ & _ & ->).
  assert (b0 := tbeta_ge0 RG X Y). assert (B1 := tbeta_le RG X Y). fold t in B1 |- *. set (b := tbeta nz K m X Y) in *. set (V := deviation_sq m X Y) in *.
  assert (BD : b <= V / t). { apply (Rmult_le_reg_l t); [exact t_pos|]. replace (t * (V / t)) with V by (field; lra). exact B1. }
  fold n. assert (n0 : 0 <= n) by apply pos_INR. assert (k0 : 0 < nu + n - 2) by lra. set (q := nu + n - 2) in *. assert (sk : 0 < sqrt q) by now apply sqrt_lt_R0.
  rewrite <- Rmult_minus_distr_l, Rabs_mult, Rabs_pos_eq by (apply Rmult_le_pos; [apply sqrt_pos|left; now apply Rinv_0_lt_compat]).
  rewrite sqrt_div_alt by exact k0. apply Rmult_le_compat; [apply Rmult_le_pos; [apply sqrt_pos|left; now apply Rinv_0_lt_compat]|apply Rabs_pos| |exact D].
  apply Rmult_le_compat_r; [left; now apply Rinv_0_lt_compat|apply sqrt_le_1_alt; lra].
Qed.
End TDamp.
