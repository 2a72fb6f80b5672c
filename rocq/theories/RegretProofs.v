(** Confidence bands for functions of the kernel's space, and what follows for loops that explore or follow the upper
    confidence bound. *)
From Verif Require Import Base Num UtilsSpec UtilsModel HypsModel CovModel KernelSpec CovSpec CovProofs CovProofs2 GPModel GPSpec GPProofs GPProofs2 PredSpec PredProofs NearSpec NearReal NearProofs2
  AcqModel BOAcqModel BOTotalSpec BOTotalProofs RegretSpec RegretReal.
From Coq Require Import List Reals Lra Lia Arith String Bool Classical ZArith.
Import ListNotations.
Open Scope R_scope.
Set Implicit Arguments.
Unset Strict Implicit.
Unset Asymmetric Patterns.
Set Bullet Behavior "Strict Subproofs".

Lemma Rsum_app a b : Rsum (a ++ b) = Rsum a + Rsum b.
Proof. induction a as [|x a IH]; cbn [Rsum app]; [ring|]. rewrite IH. ring. Qed.
(** ** the band, as a statement about sums *)
Lemma qform_cons (K : elem -> elem -> R) (KS : forall a b, K a b = K b a) z n (x : nat -> elem) (w : nat -> R) :
  qform K ((1, z) :: map (fun i => (- w i, x i)) (seq 0 n)) =
  K z z - 2 * Rsum (map (fun i => w i * K (x i) z) (seq 0 n)) + Rsum (map (fun i => Rsum (map (fun j => w i * w j * K (x i) (x j)) (seq 0 n))) (seq 0 n)).
Proof.
  unfold qform. cbn [map Rsum fst snd]. rewrite !map_map. cbn [fst snd].
  rewrite (Rsum_ext_in (fun i => 1 * - w i * K z (x i)) (fun i => (-1) * (w i * K (x i) z))) by (intros i _; rewrite (KS z (x i)); ring).
  rewrite (Rsum_ext_in (fun i => - w i * 1 * K (x i) z + _) (fun i => (-1) * (w i * K (x i) z) + Rsum (map (fun j => w i * w j * K (x i) (x j)) (seq 0 n)))).
  - rewrite Rsum_plus, !Rsum_mul. ring.
  - intros i _. rewrite map_map. cbn [fst snd]. f_equal; [ring|]. apply Rsum_ext_in. intros j _. ring.
Qed.
Lemma two_terms P Q b G E W t : 0 < t -> 0 <= G -> 0 <= E -> 0 <= W -> P * P <= b * b * G -> Q * Q <= W * E -> (P - Q) * (P - Q) <= (b * b + E / t) * (G + t * W).
Proof.
  intros Ht HG HE HW HP HQ. set (u := b * b * (t * W)). set (v := E / t * G).
  assert (Hb : 0 <= b * b) by (assert (S := Rle_0_sqr b); exact S).
  assert (Hu : 0 <= u) by (unfold u; apply Rmult_le_pos; [exact Hb|]; apply Rmult_le_pos; lra).
  assert (HEt : 0 <= E / t) by (apply Rmult_le_pos; [exact HE|left; now apply Rinv_0_lt_compat]).
  assert (Hv : 0 <= v) by (unfold v; now apply Rmult_le_pos).
  assert (UV : u * v = (b * b * G) * (W * E)) by (unfold u, v; field; lra).
  assert (SP : (P * Q) * (P * Q) <= u * v).
  { rewrite UV. replace ((P * Q) * (P * Q)) with ((P * P) * (Q * Q)) by ring. apply Rmult_le_compat; try assumption; apply Rle_0_sqr. }
  assert (AB : - (2 * (P * Q)) <= u + v).
  { apply Rnot_lt_le. intros L. assert (T : (u + v) * (u + v) < 2 * (P * Q) * (2 * (P * Q))) by nra. assert (S := Rle_0_sqr (u - v)). unfold Rsqr in S. nra. }
  replace ((b * b + E / t) * (G + t * W)) with (b * b * G + W * E + (u + v)) by (unfold u, v; field; lra). nra.
Qed.

Section Conf.
Variables (name : string) (h : dict NumR) (d : nat) (ls : pyval NumR) (s nz : R) (K : elem -> elem -> R) (pm : prior NumR) (m : elem -> R).
Variable inv : list (list R) -> res (list (list R)).
Hypotheses (RG : regression name h d ls s nz K pm m) (HI : inv_contract inv).
Let t := nz * nz + jitter_cov.
Let t_pos : 0 < t. Proof. exact (noise_pos nz). Qed.
Let KS : forall a b, K a b = K b a := fun a b => cov_of_sym a b (reg_cov RG).

Lemma errors_ge0 (f : elem -> R) X Y : 0 <= errors_sq f X Y.
Proof. unfold errors_sq. induction (seq 0 (alen X)) as [|i l IH]; cbn [map Rsum]; [lra|]. assert (Q := Rle_0_sqr (out Y i - f (elem_nth X i))). unfold Rsqr in Q. lra. Qed.

Lemma band X Xs Y mu sd S B f : fits name X d -> fits name Xs d -> column (alen X) Y ->
  @predict_with_hyps NumR exp inv X Y Xs h name pm = Ok (mu, sd, S) -> in_ball K m B f ->
  forall j, (j < alen Xs)%nat -> let e := f (elem_nth Xs j) - at_ mu j 0 in
    0 <= at_ S j j - jitter_cov /\ e * e <= (B * B + errors_sq f X Y / t) * (at_ S j j - jitter_cov).
Proof.
  intros F Fs HY E HB j Hj e. destruct (@best_linear name h d ls s nz K pm m inv RG HI X Xs j F Fs Hj) as [w [WW _]].
  destruct (WW _ _ _ _ HY E) as [EM ES]. set (z := elem_nth Xs j) in *. set (n := alen X) in *. set (x := elem_nth X) in *.
  set (G := qform K ((1, z) :: map (fun i => (- w i, x i)) (seq 0 n))).
  set (W := Rsum (map (fun i => w i * w i) (seq 0 n))).
  assert (EG : at_ S j j - jitter_cov = G + t * W).
  { rewrite ES. unfold G. rewrite (qform_cons KS). unfold squared_error. fold t.
    rewrite (Rsum_ext_in (fun i => Rsum (map (fun j => w i * w j * (K (x i) (x j) + (if Nat.eqb i j then t else 0))) (seq 0 n))) (fun i => Rsum (map (fun j => w i * w j * K (x i) (x j)) (seq 0 n)) + t * (w i * w i))).
    - rewrite Rsum_plus, Rsum_mul. fold W. ring.
    - intros i Hi. apply in_seq in Hi. rewrite (Rsum_ext_in _ (fun j => w i * w j * K (x i) (x j) + (if Nat.eqb i j then t * (w i * w j) else 0))).
      + rewrite Rsum_plus, (Rsum_single (fun j => t * (w i * w j))) by lia. reflexivity.
      + intros k _. destruct (Nat.eqb i k); ring. }
  assert (HG : 0 <= G) by apply (cov_of_psd (reg_cov RG)).
  assert (HW : 0 <= W). { unfold W. clear. induction (seq 0 n) as [|i l IH]; cbn [map Rsum]; [lra|]. assert (Q := Rle_0_sqr (w i)). unfold Rsqr in Q. lra. }
  rewrite EG. split; [assert (P := Rmult_le_pos _ _ (Rlt_le _ _ t_pos) HW); lra|].
  set (P := Rsum (map (fun p => fst p * (f (snd p) - m (snd p))) ((1, z) :: map (fun i => (- w i, x i)) (seq 0 n)))).
  set (Q := Rsum (map (fun i => w i * (out Y i - f (x i))) (seq 0 n))).
  assert (EE : e = P - Q).
  { unfold e, P, Q. rewrite EM. unfold linear_value. cbn [map Rsum fst snd]. rewrite map_map. cbn [fst snd].
    rewrite (Rsum_ext_in (fun i => - w i * (f (x i) - m (x i))) (fun i => (-1) * (w i * (f (x i) - m (x i))))) by (intros i _; ring).
    rewrite Rsum_mul. rewrite (Rsum_ext_in (fun i => w i * (out Y i - m (x i))) (fun i => w i * (f (x i) - m (x i)) + w i * (out Y i - f (x i)))) by (intros i _; ring).
    rewrite Rsum_plus. ring. }
  rewrite EE. apply two_terms; [exact t_pos|exact HG|apply errors_ge0|exact HW|exact (HB _)|].
  exact (cauchy w (fun i => out Y i - f (x i)) (seq 0 n)).
Qed.

(** finite combinations of kernel functions are in the ball of their norm *)
Lemma combination_in_ball (a : list (R * elem)) B : B * B = qform K a ->
  in_ball K m B (fun e => m e + Rsum (map (fun p => fst p * K (snd p) e) a)).
Proof.
  intros EB l v. rewrite EB.
  set (cross := fun l1 l2 : list (R * elem) => Rsum (map (fun p => Rsum (map (fun q => fst p * fst q * K (snd p) (snd q)) l2)) l1)).
  assert (EV : v = cross l a).
  { unfold v, cross. apply (f_equal Rsum). apply map_ext. intros p.
    replace (m (snd p) + Rsum (map (fun q => fst q * K (snd q) (snd p)) a) - m (snd p)) with (Rsum (map (fun q => fst q * K (snd q) (snd p)) a)) by ring.
    rewrite <- Rsum_mul. apply (f_equal Rsum). apply map_ext. intros q. rewrite (KS (snd q) (snd p)). ring. }
  assert (CS : cross a l = cross l a).
  { unfold cross. clear - KS. induction a as [|q a IH]; cbn [map Rsum].
    - induction l as [|p l IHl]; cbn [map Rsum]; [reflexivity|]. rewrite <- IHl. ring.
    - rewrite IH. clear IH. induction l as [|p l IHl]; cbn [map Rsum]; [ring|]. rewrite <- IHl, (KS (snd q) (snd p)). ring. }
  assert (SC : forall u, 0 <= qform K l * u * u - 2 * u * v + qform K a).
  { intros u. assert (P := cov_of_psd (reg_cov RG) (map (fun p => (u * fst p, snd p)) l ++ map (fun p => (- fst p, snd p)) a)).
    match type of P with 0 <= ?q => replace q with (qform K l * u * u - 2 * u * v + qform K a) in P; [exact P|] end.
    assert (SA : forall l1 l2, qform K (l1 ++ l2) = qform K l1 + cross l1 l2 + cross l2 l1 + qform K l2).
    { assert (AP : forall (l1 l2 l3 : list (R * elem)), cross (l1 ++ l2) l3 = cross l1 l3 + cross l2 l3).
      { intros l1 l2 l3. unfold cross. rewrite map_app, Rsum_app. reflexivity. }
      assert (AQ : forall (l1 l2 l3 : list (R * elem)), cross l3 (l1 ++ l2) = cross l3 l1 + cross l3 l2).
      { intros l1 l2 l3. unfold cross. rewrite <- Rsum_plus. apply (f_equal Rsum). apply map_ext. intros p. now rewrite map_app, Rsum_app. }
      intros l1 l2. change (qform K (l1 ++ l2)) with (cross (l1 ++ l2) (l1 ++ l2)). rewrite AP, !AQ. unfold qform. fold (cross l1 l1) (cross l2 l2). ring. }
    assert (SM : forall (c c' : R) l1 l2, cross (map (fun p => (c * fst p, snd p)) l1) (map (fun p => (c' * fst p, snd p)) l2) = c * c' * cross l1 l2).
    { intros c c' l1 l2. unfold cross. rewrite map_map. cbn [fst snd]. rewrite <- Rsum_mul. apply (f_equal Rsum). apply map_ext. intros p. rewrite map_map. cbn [fst snd].
      rewrite <- Rsum_mul. apply (f_equal Rsum). apply map_ext. intros q. ring. }
    rewrite SA. rewrite (map_ext (fun p : R * elem => (- fst p, snd p)) (fun p => ((-1) * fst p, snd p))) by (intros p; f_equal; ring).
    unfold qform at 3 4. fold (cross (map (fun p => (u * fst p, snd p)) l) (map (fun p => (u * fst p, snd p)) l)) (cross (map (fun p : R * elem => (-1 * fst p, snd p)) a) (map (fun p : R * elem => (-1 * fst p, snd p)) a)).
    rewrite !SM, CS, EV. unfold qform. fold (cross l l) (cross a a). ring. }
  assert (Pa : 0 <= qform K l) by apply (cov_of_psd (reg_cov RG)). assert (Pc : 0 <= qform K a) by apply (cov_of_psd (reg_cov RG)).
  clearbody v. clear EV CS cross EB. destruct (Req_dec (qform K l) 0) as [Z|NZ].
  - assert (v = 0).
    { destruct (Req_dec v 0) as [|Nb]; [assumption|]. exfalso. assert (q := SC ((qform K a + 1) / (2 * v))). rewrite Z in q.
      replace (0 * ((qform K a + 1) / (2 * v)) * ((qform K a + 1) / (2 * v)) - 2 * ((qform K a + 1) / (2 * v)) * v + qform K a) with (-1) in q by (field; exact Nb). lra. }
    rewrite H, Z. lra.
  - assert (q := SC (v / qform K l)). replace (qform K l * (v / qform K l) * (v / qform K l) - 2 * (v / qform K l) * v + qform K a) with (qform K a - v * v / qform K l) in q by (field; exact NZ).
    assert (L : v * v / qform K l <= qform K a) by lra. apply (Rmult_le_compat_l (qform K l)) in L; [|exact Pa]. replace (qform K l * (v * v / qform K l)) with (v * v) in L by (field; exact NZ). lra.
Qed.

Lemma band_sd X Xs Y mu sd S B f : fits name X d -> fits name Xs d -> column (alen X) Y ->
  @predict_with_hyps NumR exp inv X Y Xs h name pm = Ok (mu, sd, S) -> in_ball K m B f -> forall j, (j < alen Xs)%nat ->
    jitter_cov <= at_ sd j 0 * at_ sd j 0 /\
    Rabs (f (elem_nth Xs j) - at_ mu j 0) <= sqrt (B * B + errors_sq f X Y / (nz * nz + jitter_cov)) * sqrt (at_ sd j 0 * at_ sd j 0 - jitter_cov).
Proof.
  intros F Fs HY E HB j Hj. destruct (band F Fs HY E HB Hj) as [G L].
  destruct (predict_ok RG HI F Fs HY) as (a1 & b1 & c1 & P1 & _ & _ & _ & _ & D1 & _). assert (EQ := eq_trans (eq_sym P1) E). apply Ok_inj in EQ. injection EQ as -> -> ->.
  assert (J : 0 < jitter_cov) by (unfold jitter_cov; lra). rewrite (D1 j Hj), sqrt_sqrt by lra. split; [lra|].
  rewrite <- sqrt_Rsqr_abs, <- sqrt_mult; [apply sqrt_le_1_alt; exact L| |exact G].
  assert (P : 0 <= errors_sq f X Y / t) by (apply Rmult_le_pos; [apply errors_ge0|left; now apply Rinv_0_lt_compat]). assert (Q := Rle_0_sqr B). unfold Rsqr in Q. fold t. lra.
Qed.
Lemma band_exact X Xs Y mu sd S B f : fits name X d -> fits name Xs d -> column (alen X) Y ->
  @predict_with_hyps NumR exp inv X Y Xs h name pm = Ok (mu, sd, S) -> 0 <= B -> in_ball K m B f -> (forall i, (i < alen X)%nat -> out Y i = f (elem_nth X i)) -> forall j, (j < alen Xs)%nat ->
    at_ mu j 0 - B * at_ sd j 0 <= f (elem_nth Xs j) <= at_ mu j 0 + B * at_ sd j 0.
Proof.
  intros F Fs HY E B0 HB HE j Hj. destruct (band_sd F Fs HY E HB Hj) as [G L].
  destruct (predict_ok RG HI F Fs HY) as (a1 & b1 & c1 & P1 & _ & _ & _ & _ & D1 & _). assert (EQ := eq_trans (eq_sym P1) E). apply Ok_inj in EQ. injection EQ as -> -> ->.
  assert (Z : errors_sq f X Y = 0). { unfold errors_sq. rewrite (Rsum_ext_in _ (fun i => 0 * 0)); [rewrite Rsum_mul; ring|]. intros i Hi. apply in_seq in Hi. rewrite HE by lia. ring. }
  rewrite Z in L. replace (B * B + 0 / (nz * nz + jitter_cov)) with (B * B) in L by (unfold Rdiv; ring). rewrite sqrt_square in L by exact B0.
  assert (SP : 0 <= at_ sd j 0) by (rewrite (D1 j Hj); apply sqrt_pos). assert (J : 0 < jitter_cov) by (unfold jitter_cov; lra).
  assert (LS : sqrt (at_ sd j 0 * at_ sd j 0 - jitter_cov) <= at_ sd j 0) by (rewrite <- (sqrt_square (at_ sd j 0)) at 3 by exact SP; apply sqrt_le_1_alt; lra).
  assert (LB : B * sqrt (at_ sd j 0 * at_ sd j 0 - jitter_cov) <= B * at_ sd j 0) by now apply Rmult_le_compat_l.
  assert (A1 := Rle_abs (f (elem_nth Xs j) - at_ mu j 0)). assert (A2 := Rle_abs (- (f (elem_nth Xs j) - at_ mu j 0))). rewrite Rabs_Ropp in A2. lra.
Qed.
End Conf.
