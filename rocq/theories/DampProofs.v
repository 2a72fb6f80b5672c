(** Changes of the responses change predicted means by a bounded multiple only. *)
From Verif Require Import Base Num UtilsSpec UtilsModel HypsModel CovModel KernelSpec CovSpec CovProofs CovProofs2 GPModel GPSpec GPProofs GPProofs2 GPProofs3 PredSpec PredProofs NearSpec NearReal NearProofs2
  AcqModel BOAcqModel RegretSpec RegretReal RegretProofs DampSpec.
From Coq Require Import List Reals Lra Lia Arith String Bool ZArith.
Import ListNotations.
Open Scope R_scope.
Set Implicit Arguments.
Unset Strict Implicit.
Unset Asymmetric Patterns.
Set Bullet Behavior "Strict Subproofs".

(** the minimum of a parabola *)
Lemma parabola_min p b : (forall c, p - 2 * b <= c * c * p - 2 * c * b) -> b = p.
Proof.
  intros H. assert (H2 := H 2). assert (H0 := H 0).
  (* around 1: c = 1 + e gives 0 <= 2 e (p - b) + e^2 p *)
  assert (E : forall e, 0 <= 2 * e * (p - b) + e * e * p) by (intros e; assert (Q := H (1 + e)); lra).
  destruct (Req_dec b p) as [|N]; [assumption|]. exfalso.
  assert (P : 0 < Rabs p + 1) by (assert (Q := Rabs_pos p); lra).
  assert (Q := E (- (p - b) / (Rabs p + 1))).
  assert (A := Rle_abs p). set (a := Rabs p + 1) in *. assert (pa : p <= a - 1) by (unfold a; lra). clearbody a.
  replace (2 * (- (p - b) / a) * (p - b) + - (p - b) / a * (- (p - b) / a) * p) with ((p - b) * (p - b) / (a * a) * (p - 2 * a)) in Q by (field; lra).
  assert (R : 0 < (p - b) * (p - b) / (a * a)).
  { apply Rmult_lt_0_compat; [|apply Rinv_0_lt_compat; nra]. assert (S := Rlt_0_sqr (p - b) ltac:(lra)). exact S. }
  assert (T : (p - b) * (p - b) / (a * a) * (p - 2 * a) < 0); [|lra].
  rewrite <- (Rmult_0_r ((p - b) * (p - b) / (a * a))). apply Rmult_lt_compat_l; lra.
Qed.

Section Damp.
Variables (name : string) (h : dict NumR) (d : nat) (ls : pyval NumR) (s nz : R) (K : elem -> elem -> R) (pm : prior NumR) (m : elem -> R).
Variable inv : list (list R) -> res (list (list R)).
Hypotheses (RG : regression name h d ls s nz K pm m) (HI : inv_contract inv).
Let t := nz * nz + jitter_cov.
Let t_pos : 0 < t. Proof. exact (noise_pos nz). Qed.
Let KS : forall a b, K a b = K b a := fun a b => cov_of_sym a b (reg_cov RG).

Lemma error_terms n x w z c : squared_error K t n x (fun i => c * w i) z =
  K z z - 2 * c * Rsum (map (fun i => w i * K (x i) z) (seq 0 n)) +
  c * c * (Rsum (map (fun i => Rsum (map (fun j => w i * w j * K (x i) (x j)) (seq 0 n))) (seq 0 n)) + t * Rsum (map (fun i => w i * w i) (seq 0 n))).
Proof.
  unfold squared_error.
  rewrite (Rsum_ext_in (fun i => c * w i * K (x i) z) (fun i => c * (w i * K (x i) z))) by (intros; ring). rewrite Rsum_mul.
  rewrite (Rsum_ext_in (fun i => Rsum (map (fun j => c * w i * (c * w j) * (K (x i) (x j) + (if Nat.eqb i j then t else 0))) (seq 0 n)))
    (fun i => c * c * (Rsum (map (fun j => w i * w j * K (x i) (x j)) (seq 0 n)) + t * (w i * w i)))).
  - rewrite Rsum_mul, Rsum_plus, Rsum_mul. ring.
  - intros i Hi. apply in_seq in Hi.
    rewrite (Rsum_ext_in _ (fun j => c * c * (w i * w j * K (x i) (x j) + (if Nat.eqb i j then t * (w i * w j) else 0)))).
    + rewrite Rsum_mul, Rsum_plus, (Rsum_single (fun j => t * (w i * w j))) by lia. reflexivity.
    + intros k _. destruct (Nat.eqb i k); ring.
Qed.

(** the weights of the prediction are short *)
Lemma weights_short X Xs j : fits name X d -> fits name Xs d -> (j < alen Xs)%nat ->
  let z := elem_nth Xs j in exists w, (forall Y mu sd S, column (alen X) Y -> @predict_with_hyps NumR exp inv X Y Xs h name pm = Ok (mu, sd, S) ->
    at_ mu j 0 = linear_value m (alen X) (elem_nth X) (out Y) w z) /\
    4 * t * Rsum (map (fun i => w i * w i) (seq 0 (alen X))) <= K z z.
Proof.
  intros F Fs Hj z. destruct (@best_linear name h d ls s nz K pm m inv RG HI X Xs j F Fs Hj) as [w [WW [WB _]]]. exists w.
  split; [intros Y mu sd S HY E; exact (proj1 (WW Y mu sd S HY E))|]. fold z in WB.
  set (n := alen X) in *. set (x := elem_nth X) in *. fold t in WB.
  set (b := Rsum (map (fun i => w i * K (x i) z) (seq 0 n))). set (a := Rsum (map (fun i => Rsum (map (fun j => w i * w j * K (x i) (x j)) (seq 0 n))) (seq 0 n))).
  set (q := Rsum (map (fun i => w i * w i) (seq 0 n))).
  assert (B : b = a + t * q).
  { apply parabola_min. intros c. assert (W1 := WB (fun i => c * w i)). rewrite error_terms in W1. fold a b q in W1.
    assert (E1 := error_terms n x w z 1). fold a b q in E1.
    assert (EX : squared_error K t n x (fun i => 1 * w i) z = squared_error K t n x w z).
    { unfold squared_error. f_equal; [f_equal; f_equal|]; apply Rsum_ext_in; intros i _; [|apply Rsum_ext_in; intros k _]; ring. }
    rewrite EX in E1. rewrite E1 in W1. lra. }
  assert (P := cov_of_psd (reg_cov RG) ((1, z) :: map (fun i => (- (2 * w i), x i)) (seq 0 n))).
  rewrite (qform_cons KS z n x (fun i => 2 * w i)) in P.
  rewrite (Rsum_ext_in (fun i => 2 * w i * K (x i) z) (fun i => 2 * (w i * K (x i) z))) in P by (intros; ring). rewrite Rsum_mul in P. fold b in P.
  rewrite (Rsum_ext_in (fun i => Rsum (map (fun j => 2 * w i * (2 * w j) * K (x i) (x j)) (seq 0 n))) (fun i => 4 * Rsum (map (fun j => w i * w j * K (x i) (x j)) (seq 0 n)))) in P.
  - rewrite Rsum_mul in P. fold a in P. lra.
  - intros i _. rewrite <- Rsum_mul. apply Rsum_ext_in. intros k _. ring.
Qed.

Lemma mean_change X Xs Y Y' mu sd S mu' sd' S' : fits name X d -> fits name Xs d -> column (alen X) Y -> column (alen X) Y' ->
  @predict_with_hyps NumR exp inv X Y Xs h name pm = Ok (mu, sd, S) -> @predict_with_hyps NumR exp inv X Y' Xs h name pm = Ok (mu', sd', S') ->
  forall j, (j < alen Xs)%nat ->
    Rabs (at_ mu j 0 - at_ mu' j 0) <= sqrt (K (elem_nth Xs j) (elem_nth Xs j) / (nz * nz + jitter_cov)) / 2 * response_change (alen X) Y Y'.
Proof.
  intros F Fs HY HY' E E' j Hj. destruct (weights_short F Fs Hj) as (w & WM & WS). rewrite (WM _ _ _ _ HY E), (WM _ _ _ _ HY' E'). clear WM.
  set (z := elem_nth Xs j) in *. unfold linear_value, response_change. fold t.
  set (e := fun i => out Y i - out Y' i). set (n := alen X) in *. set (x := elem_nth X).
  assert (ED : m z + Rsum (map (fun i => w i * (out Y i - m (x i))) (seq 0 n)) - (m z + Rsum (map (fun i => w i * (out Y' i - m (x i))) (seq 0 n))) = Rsum (map (fun i => w i * e i) (seq 0 n))).
  { rewrite (Rsum_ext_in (fun i => w i * (out Y i - m (x i))) (fun i => w i * (out Y' i - m (x i)) + w i * e i)) by (intros; unfold e; ring). rewrite Rsum_plus. ring. }
  rewrite ED. assert (C := cauchy w e (seq 0 n)). set (q := Rsum (map (fun i => w i * w i) (seq 0 n))) in *. change (Rsum (map (fun i => (out Y i - out Y' i) * (out Y i - out Y' i)) (seq 0 n))) with (Rsum (map (fun i => e i * e i) (seq 0 n))).
  set (r := Rsum (map (fun i => e i * e i) (seq 0 n))) in *. set (v := Rsum (map (fun i => w i * e i) (seq 0 n))) in *.
  assert (r0 : 0 <= r) by (unfold r; clear; induction (seq 0 n) as [|i l IH]; cbn [map Rsum]; [lra|]; assert (Q := Rle_0_sqr (e i)); unfold Rsqr in Q; lra).
  assert (q0 : 0 <= q) by (unfold q; clear; induction (seq 0 n) as [|i l IH]; cbn [map Rsum]; [lra|]; assert (Q := Rle_0_sqr (w i)); unfold Rsqr in Q; lra).
  assert (L : q <= K z z / t / 4). { apply (Rmult_le_reg_l (4 * t)); [lra|]. replace (4 * t * (K z z / t / 4)) with (K z z) by (field; lra). exact WS. }
  assert (k0 : 0 <= K z z / t) by lra.
  replace (sqrt (K z z / t) / 2) with (sqrt (K z z / t / 4)).
  - rewrite <- sqrt_mult by lra. rewrite <- sqrt_Rsqr_abs. apply sqrt_le_1_alt. unfold Rsqr. eapply Rle_trans; [exact C|]. now apply Rmult_le_compat_r.
  - unfold Rdiv at 1. rewrite sqrt_mult by lra. replace (/ 4) with (/ 2 * / 2) by lra. rewrite sqrt_square by lra. reflexivity.
Qed.

Lemma mean_change_s X Xs Y Y' mu sd S mu' sd' S' : 0 < s -> fits name X d -> fits name Xs d -> column (alen X) Y -> column (alen X) Y' ->
  @predict_with_hyps NumR exp inv X Y Xs h name pm = Ok (mu, sd, S) -> @predict_with_hyps NumR exp inv X Y' Xs h name pm = Ok (mu', sd', S') ->
  forall j, (j < alen Xs)%nat -> Rabs (at_ mu j 0 - at_ mu' j 0) <= s / (2 * sqrt (nz * nz + jitter_cov)) * response_change (alen X) Y Y' /\ at_ sd' j 0 = at_ sd j 0.
Proof.
  intros s0 F Fs HY HY' E E' j Hj.
  destruct (posterior_definite RG HI F Fs HY) as (a1 & b1 & c1 & P1 & _ & _ & _ & _ & _ & _ & D). destruct (D j Hj) as (_ & _ & KB & _).
  split; [|now rewrite (proj2 (proj2 (mean_affine RG HI F Fs HY HY' HY' (a := 0) (b := 1) ltac:(lra) ltac:(intros; lra) E E' E')))].
  eapply Rle_trans; [exact (mean_change F Fs HY HY' E E' Hj)|]. apply Rmult_le_compat_r; [apply sqrt_pos|]. fold t.
  assert (st : 0 < sqrt t) by now apply sqrt_lt_R0.
  replace (s / (2 * sqrt t)) with (sqrt (s * s / t) / 2).
  - apply Rmult_le_compat_r; [lra|]. apply sqrt_le_1_alt. apply Rmult_le_compat_r; [left; now apply Rinv_0_lt_compat|exact KB].
  - rewrite sqrt_div_alt by exact t_pos. rewrite sqrt_square by lra. field. lra.
Qed.

(** one measured point: the weight is known *)
Lemma one_weight X Xs : alen X = 1%nat -> fits name X d -> fits name Xs d -> (0 < alen Xs)%nat -> elem_nth Xs 0 = elem_nth X 0 ->
  forall Y mu sd S, column (alen X) Y -> @predict_with_hyps NumR exp inv X Y Xs h name pm = Ok (mu, sd, S) ->
    let z := elem_nth X 0 in at_ mu 0 0 = m z + K z z / (K z z + t) * (out Y 0 - m z).
Proof.
  intros L F Fs Hj EZ Y mu sd S HY E z. destruct (@best_linear name h d ls s nz K pm m inv RG HI X Xs 0 F Fs Hj) as [w [WW [WB _]]].
  rewrite (proj1 (WW _ _ _ _ HY E)). rewrite EZ in *. fold z in WB. rewrite L in *. fold z. fold t in WB.
  assert (EW : forall u, squared_error K t 1 (elem_nth X) u z = K z z - 2 * u 0%nat * K z z + u 0%nat * u 0%nat * (K z z + t)) by (intros u; unfold squared_error; cbn [seq map Rsum Nat.eqb]; fold z; ring).
  assert (KP : 0 <= K z z). { assert (P := cov_of_psd (reg_cov RG) [(1, z)]). unfold qform in P. cbn [map Rsum fst snd] in P. lra. }
  assert (W0 : w 0%nat = K z z / (K z z + t)).
  { assert (Q := WB (fun _ => K z z / (K z z + t))). rewrite !EW in Q. set (c := K z z / (K z z + t)) in *.
    assert (KC : K z z = c * (K z z + t)) by (unfold c; field; lra).
    assert (D : 0 <= - ((w 0%nat - c) * (w 0%nat - c) * (K z z + t))).
    { replace (- ((w 0%nat - c) * (w 0%nat - c) * (K z z + t))) with (- 2 * c * (c * (K z z + t)) + c * c * (K z z + t) - (- 2 * w 0%nat * (c * (K z z + t)) + w 0%nat * w 0%nat * (K z z + t))) by ring. rewrite <- KC. lra. }
    destruct (Req_dec (w 0%nat) c) as [|N]; [assumption|]. exfalso.
    assert (S2 := Rlt_0_sqr (w 0%nat - c) ltac:(lra)). unfold Rsqr in S2. assert (P := Rmult_lt_0_compat _ _ S2 (Rplus_le_lt_0_compat _ _ KP t_pos)). lra. }
  unfold linear_value. cbn [seq map Rsum]. fold z. rewrite W0. ring.
Qed.
Lemma mean_change_sharp X Xs Y Y' mu sd S mu' sd' S' : 0 < s -> s * s = nz * nz + jitter_cov -> alen X = 1%nat -> fits name X d -> fits name Xs d -> (0 < alen Xs)%nat -> elem_nth Xs 0 = elem_nth X 0 -> K (elem_nth X 0) (elem_nth X 0) = s * s ->
  column (alen X) Y -> column (alen X) Y' ->
  @predict_with_hyps NumR exp inv X Y Xs h name pm = Ok (mu, sd, S) -> @predict_with_hyps NumR exp inv X Y' Xs h name pm = Ok (mu', sd', S') ->
  Rabs (at_ mu 0 0 - at_ mu' 0 0) = s / (2 * sqrt (nz * nz + jitter_cov)) * response_change (alen X) Y Y'.
Proof.
  intros s0 ST L F Fs Hj EZ KZ HY HY' E E'. rewrite (one_weight L F Fs Hj EZ HY E), (one_weight L F Fs Hj EZ HY' E').
  rewrite KZ. fold t in ST |- *. rewrite ST. unfold response_change. rewrite L. cbn [seq map Rsum].
  replace (t / (t + t)) with (/ 2) by (field; lra). rewrite <- ST, sqrt_square by lra.
  rewrite Rplus_0_r. replace (sqrt ((out Y 0 - out Y' 0) * (out Y 0 - out Y' 0))) with (Rabs (out Y 0 - out Y' 0)) by (symmetry; apply sqrt_Rsqr_abs).
  replace (m (elem_nth X 0) + / 2 * (out Y 0 - m (elem_nth X 0)) - (m (elem_nth X 0) + / 2 * (out Y' 0 - m (elem_nth X 0)))) with (/ 2 * (out Y 0 - out Y' 0)) by ring.
  rewrite Rabs_mult, (Rabs_pos_eq (/ 2)) by lra. f_equal. field. lra.
Qed.
End Damp.
