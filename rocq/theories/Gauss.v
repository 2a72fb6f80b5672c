(** The standard normal density and distribution function over the reals, with the Gaussian integral. *)
From Coq Require Import Reals Lra Lia.
From Coquelicot Require Import Coquelicot.
Local Open Scope R_scope.

Definition phi (z : R) : R := exp (- (z * z / 2)) / sqrt (2 * PI).
(** Phi z = 1/2 + integral of phi from 0 to z; [Phi_lim_m], [Phi_lim_p] and [Phi_derive] below show that this is the
    distribution function of the standard normal law *)
Definition Phi (z : R) : R := 1 / 2 + RInt phi 0 z.

Local Definition g (t : R) : R := exp (- (t * t / 2)).
Lemma g_cont (t : R) : continuous g t.
Proof. apply (ex_derive_continuous g). unfold g. auto_derive. trivial. Qed.
Lemma g_int (a b : R) : ex_RInt g a b.
Proof. apply (ex_RInt_continuous (V := R_CompleteNormedModule)). intros t _. apply g_cont. Qed.
Local Definition I (x : R) : R := RInt g 0 x.
Lemma I_derive (x : R) : is_derive I x (g x).
Proof.
  apply (is_derive_RInt g I 0 x); [|apply g_cont]. apply filter_forall. intros y. apply (RInt_correct (V := R_CompleteNormedModule) g 0 y), g_int.
Qed.

Local Definition fA (x t : R) : R := 2 * exp (- (x * x * (1 + t * t) / 2)) / (1 + t * t).
Local Definition dA (x t : R) : R := - 2 * x * exp (- (x * x * (1 + t * t) / 2)).
Lemma one_sq (t : R) : 1 + t * t <> 0. Proof. nra. Qed.
Lemma fA_derive (x t : R) : is_derive (fun u => fA u t) x (dA x t).
Proof. unfold fA, dA. auto_derive; [trivial|]. unfold Rdiv. field. apply one_sq. Qed.
Lemma fA_cont (x t : R) : continuous (fA x) t.
Proof. apply (ex_derive_continuous (fA x)). unfold fA. auto_derive. repeat split; apply one_sq. Qed.
Lemma dA_cont (x t : R) : continuous (dA x) t.
Proof. apply (ex_derive_continuous (dA x)). unfold dA. auto_derive. trivial. Qed.
Lemma fA_int (x a b : R) : ex_RInt (fA x) a b.
Proof. apply (ex_RInt_continuous (V := R_CompleteNormedModule)). intros t _. apply fA_cont. Qed.
Local Definition A (x : R) : R := RInt (fA x) 0 1.

Lemma dA_2d (x t : R) : continuity_2d_pt dA x t.
Proof.
  unfold dA. apply continuity_2d_pt_mult.
  - apply continuity_2d_pt_mult; [apply continuity_2d_pt_const|apply continuity_2d_pt_id1].
  - apply (continuity_1d_2d_pt_comp exp (fun x t => - (x * x * (1 + t * t) / 2))).
    + apply derivable_continuous_pt, derivable_pt_exp.
    + apply continuity_2d_pt_opp. unfold Rdiv. apply continuity_2d_pt_mult; [|apply continuity_2d_pt_const].
      apply continuity_2d_pt_mult; [apply continuity_2d_pt_mult; apply continuity_2d_pt_id1|].
      apply continuity_2d_pt_plus; [apply continuity_2d_pt_const|]. apply continuity_2d_pt_mult; apply continuity_2d_pt_id2.
Qed.

Lemma A_derive0 (x : R) : is_derive A x (RInt (dA x) 0 1).
Proof.
  assert (E : RInt (fun t => Derive (fun u => fA u t) x) 0 1 = RInt (dA x) 0 1).
  { apply RInt_ext. intros t _. apply is_derive_unique, fA_derive. }
  rewrite <- E. apply (is_derive_RInt_param fA 0 1 x).
  - apply filter_forall. intros y t _. exists (dA y t). apply fA_derive.
  - intros t _. apply (continuity_2d_pt_ext dA); [|apply dA_2d]. intros u v. symmetry. apply is_derive_unique, fA_derive.
  - apply filter_forall. intros y. apply fA_int.
Qed.

Lemma dA_val (x : R) : RInt (dA x) 0 1 = - 2 * g x * I x.
Proof.
  assert (E := RInt_comp_lin g x 0 0 1). rewrite Rmult_0_r, Rmult_1_r, !Rplus_0_r in E.
  specialize (E (g_int 0 x)). unfold I. rewrite <- E.
  transitivity (RInt (fun t => scal (- 2 * g x) (scal x (g (x * t + 0)))) 0 1).
  - apply RInt_ext. intros t _. unfold scal, dA, g; cbn. unfold mult; cbn.
    replace (- (x * x * (1 + t * t) / 2)) with (- (x * x / 2) + - ((x * t + 0) * (x * t + 0) / 2)) by field.
    rewrite exp_plus. ring.
  - apply (RInt_scal (V := R_CompleteNormedModule) (fun t => scal x (g (x * t + 0))) 0 1 (- 2 * g x)). apply (ex_RInt_continuous (V := R_CompleteNormedModule)). intros t _.
    apply (ex_derive_continuous (fun t => scal x (g (x * t + 0)))). unfold scal, g; cbn. unfold mult; cbn. auto_derive. trivial.
Qed.

Local Definition K (x : R) : R := I x * I x + A x.
Lemma K_derive (x : R) : is_derive K x 0.
Proof.
  assert (H : is_derive K x ((g x * I x + I x * g x) + RInt (dA x) 0 1)).
  { unfold K. apply (is_derive_plus (fun x => I x * I x) A); [|apply A_derive0].
    apply (is_derive_mult I I x (g x) (g x)); [apply I_derive|apply I_derive|]. intros a b. apply Rmult_comm. }
  rewrite dA_val in H. replace 0 with (g x * I x + I x * g x + - 2 * g x * I x) by ring. exact H.
Qed.
Lemma K_const (x : R) : K x = K 0.
Proof.
  destruct (MVT_gen K 0 x (fun _ => 0)) as (c & _ & H).
  - intros y _. apply K_derive.
  - intros y _. apply continuity_pt_filterlim. apply (ex_derive_continuous K). exists 0. apply K_derive.
  - lra.
Qed.
Lemma K_0 : K 0 = PI / 2.
Proof.
  assert (Z : I 0 = 0) by (unfold I; rewrite RInt_point; reflexivity). unfold K. rewrite Z. unfold A.
  assert (H : is_RInt (fA 0) 0 1 (minus (2 * atan 1) (2 * atan 0))).
  { apply (is_RInt_ext (fun t => 2 / (1 + t * t))).
    { intros t _. change (@eq R (2 / (1 + t * t)) (fA 0 t)). unfold fA. replace (- (0 * 0 * (1 + t * t) / 2)) with 0 by field. rewrite exp_0. field. apply one_sq. }
    apply (is_RInt_derive (fun t => 2 * atan t)).
    - intros t _. auto_derive; [trivial|]. field. apply one_sq.
    - intros t _. apply (ex_derive_continuous (fun t => 2 / (1 + t * t))). auto_derive. apply one_sq. }
  apply (is_RInt_unique (V := R_CompleteNormedModule)) in H. rewrite H. rewrite atan_0, atan_1. unfold minus, plus, opp; cbn. lra.
Qed.

Lemma A_bounds (x : R) : 0 <= A x <= 2 * exp (- (x * x / 2)).
Proof.
  unfold A. split.
  - apply RInt_ge_0; [lra|apply fA_int|]. intros t _. unfold fA. apply Rmult_le_pos; [left; apply Rmult_lt_0_compat; [lra|apply exp_pos]|].
    left. apply Rinv_0_lt_compat. nra.
  - apply Rle_trans with (RInt (fun _ => 2 * exp (- (x * x / 2))) 0 1).
    + apply RInt_le; [lra|apply fA_int|apply ex_RInt_const|]. intros t _. unfold fA.
      assert (E : exp (- (x * x * (1 + t * t) / 2)) <= exp (- (x * x / 2))).
      { destruct (Req_dec (x * x * (t * t)) 0) as [Z|Z].
        - right. f_equal. lra.
        - left. apply exp_increasing. assert (0 <= x * x) by nra. assert (0 <= t * t) by nra. assert (0 <= x * x * (t * t)) by (apply Rmult_le_pos; assumption). lra. }
      assert (P := exp_pos (- (x * x * (1 + t * t) / 2))).
      apply (Rmult_le_reg_r (1 + t * t)); [nra|]. unfold Rdiv. rewrite Rmult_assoc, Rinv_l by apply one_sq.
      assert (0 <= t * t) by nra. nra.
    + rewrite RInt_const. unfold scal; cbn. unfold mult; cbn. lra.
Qed.

Lemma I_sq (x : R) : I x * I x = PI / 2 - A x.
Proof. assert (H := K_const x). rewrite K_0 in H. unfold K in H. lra. Qed.

Lemma I_odd (x : R) : I (- x) = - I x.
Proof.
  destruct (MVT_gen (fun y => I (- y) + I y) 0 x (fun y => - g (- y) + g y)) as (c & _ & H).
  - intros y _. apply (is_derive_plus (fun y => I (- y)) I); [|apply I_derive].
    apply (is_derive_ext (fun y => I (-1 * y + 0))); [intros t; f_equal; ring|].
    evar_last. { apply (is_derive_comp I (fun y => -1 * y + 0)); [apply I_derive|]. auto_derive; [trivial|reflexivity]. }
    unfold scal; cbn; unfold mult; cbn. replace (-1 * y + 0) with (- y) by ring. ring.
  - intros y _. apply continuity_pt_filterlim. apply (ex_derive_continuous (fun y => I (- y) + I y)).
    exists (- g (- y) + g y). apply (is_derive_plus (fun y => I (- y)) I); [|apply I_derive].
    apply (is_derive_ext (fun y => I (-1 * y + 0))); [intros t; f_equal; ring|].
    evar_last. { apply (is_derive_comp I (fun y => -1 * y + 0)); [apply I_derive|]. auto_derive; [trivial|reflexivity]. }
    unfold scal; cbn; unfold mult; cbn. replace (-1 * y + 0) with (- y) by ring. ring.
  - replace (- g (- c) + g c) with 0 in H by (unfold g; replace (- c * - c) with (c * c) by ring; ring).
    rewrite Ropp_0 in H. assert (Z : I 0 = 0) by (unfold I; rewrite RInt_point; reflexivity). rewrite Z in H. lra.
Qed.

Lemma s2pi_pos : 0 < sqrt (2 * PI).
Proof. apply sqrt_lt_R0. assert (P := PI_RGT_0). lra. Qed.

Lemma Phi_I (x : R) : Phi x = 1 / 2 + I x / sqrt (2 * PI).
Proof.
  unfold Phi, I. f_equal. unfold Rdiv. rewrite (Rmult_comm (RInt g 0 x)).
  transitivity (RInt (fun t => scal (/ sqrt (2 * PI)) (g t)) 0 x).
  - apply RInt_ext. intros t _. unfold phi, g, scal; cbn. unfold mult; cbn. unfold Rdiv. ring.
  - apply (RInt_scal (V := R_CompleteNormedModule) g 0 x (/ sqrt (2 * PI))), g_int.
Qed.

Lemma phi_pos (z : R) : 0 < phi z.
Proof. apply Rdiv_lt_0_compat; [apply exp_pos|apply s2pi_pos]. Qed.
Lemma phi_even (z : R) : phi (- z) = phi z.
Proof. unfold phi. now replace (- z * - z) with (z * z) by ring. Qed.
Lemma phi_derive (z : R) : is_derive phi z (- z * phi z).
Proof. unfold phi. auto_derive; [trivial|]. unfold Rdiv. field. apply Rgt_not_eq, s2pi_pos. Qed.

Lemma Phi_derive (z : R) : is_derive Phi z (phi z).
Proof.
  apply (is_derive_ext (fun x => 1 / 2 + I x / sqrt (2 * PI))); [intros t; symmetry; apply Phi_I|].
  evar_last. { apply (is_derive_plus (fun _ => 1 / 2) (fun x => I x / sqrt (2 * PI))); [apply is_derive_const|].
    apply (is_derive_scal_l I z (g z) (/ sqrt (2 * PI))). apply I_derive. }
  unfold plus, zero, scal; cbn. unfold mult; cbn. unfold phi, g. unfold Rdiv. ring.
Qed.
Lemma Phi_0 : Phi 0 = 1 / 2.
Proof. unfold Phi. rewrite RInt_point. unfold zero; cbn. lra. Qed.
Lemma Phi_sym (z : R) : Phi (- z) = 1 - Phi z.
Proof. rewrite !Phi_I, I_odd. unfold Rdiv. lra. Qed.

Lemma Phi_incr (x y : R) : x < y -> Phi x < Phi y.
Proof. intros H. apply (incr_function Phi m_infty p_infty phi); try exact Logic.I; try assumption; intros; [apply Phi_derive|apply phi_pos]. Qed.

Lemma I_nonneg (x : R) : 0 <= x -> 0 <= I x.
Proof. intros H. apply RInt_ge_0; [exact H|apply g_int|]. intros t _. left. apply exp_pos. Qed.

Lemma exp_sq_lim : is_lim (fun x => 2 * exp (- (x * x / 2))) p_infty 0.
Proof.
  apply (is_lim_le_le_loc (fun _ => 0) (fun x => 2 * exp (- x))).
  - exists 2. intros x Hx. split; [left; apply Rmult_lt_0_compat; [lra|apply exp_pos]|].
    apply Rmult_le_compat_l; [lra|]. left. apply exp_increasing. nra.
  - apply is_lim_const.
  - replace (Finite 0) with (Rbar_mult 2 0) by (cbn; f_equal; ring).
    apply (is_lim_mult (fun _ => 2) (fun x => exp (- x))); [apply is_lim_const| |exact Logic.I].
    apply (is_lim_comp exp Ropp p_infty 0 m_infty); [apply is_lim_exp_m| |].
    + apply (is_lim_opp (fun x => x) p_infty p_infty). apply is_lim_id.
    + exists 0. intros y _ C. discriminate C.
Qed.

Lemma I_lim : is_lim I p_infty (sqrt (PI / 2)).
Proof.
  apply (is_lim_ext_loc (fun x => sqrt (PI / 2 - A x))).
  - exists 0. intros x Hx. rewrite <- I_sq. apply sqrt_square, I_nonneg. lra.
  - apply (is_lim_comp_continuous (fun x => PI / 2 - A x) sqrt p_infty (PI / 2)).
    + assert (L : is_lim A p_infty 0).
      { apply (is_lim_le_le_loc (fun _ => 0) (fun x => 2 * exp (- (x * x / 2)))); [|apply is_lim_const|apply exp_sq_lim].
        exists 0. intros x _. apply A_bounds. }
      replace (Finite (PI / 2)) with (Rbar_minus (PI / 2) 0) by (cbn; f_equal; ring).
      apply (is_lim_minus (fun _ => PI / 2) A p_infty (PI / 2) 0); [apply is_lim_const|exact L|reflexivity].
    + apply continuity_pt_filterlim. apply continuity_pt_sqrt. assert (P := PI_RGT_0). lra.
Qed.

Lemma half_sqrt : sqrt (PI / 2) / sqrt (2 * PI) = 1 / 2.
Proof.
  assert (P := PI_RGT_0). rewrite <- sqrt_div by lra. replace (PI / 2 / (2 * PI)) with ((1 / 2) * (1 / 2)) by (field; lra).
  apply sqrt_square. lra.
Qed.

Lemma Phi_lim_p : is_lim Phi p_infty 1.
Proof.
  apply (is_lim_ext (fun x => 1 / 2 + I x / sqrt (2 * PI))); [intros x; symmetry; apply Phi_I|].
  replace (Finite 1) with (Rbar_plus (1 / 2) (sqrt (PI / 2) / sqrt (2 * PI))) by (cbn; f_equal; rewrite half_sqrt; lra).
  apply (is_lim_plus (fun _ => 1 / 2) (fun x => I x / sqrt (2 * PI)) p_infty (1 / 2) (sqrt (PI / 2) / sqrt (2 * PI))); [apply is_lim_const| |reflexivity].
  apply (is_lim_mult I (fun _ => / sqrt (2 * PI)) p_infty (sqrt (PI / 2)) (/ sqrt (2 * PI))); [apply I_lim|apply is_lim_const|exact Logic.I].
Qed.
Lemma Phi_lim_m : is_lim Phi m_infty 0.
Proof.
  apply (is_lim_ext (fun x => 1 - Phi (- x))); [intros x; rewrite Phi_sym; lra|].
  replace (Finite 0) with (Rbar_minus 1 1) by (cbn; f_equal; ring).
  apply (is_lim_minus (fun _ => 1) (fun x => Phi (- x)) m_infty 1 1); [apply is_lim_const| |reflexivity].
  apply (is_lim_comp Phi Ropp m_infty 1 p_infty); [apply Phi_lim_p| |].
  - apply (is_lim_opp (fun x => x) m_infty m_infty). apply is_lim_id.
  - exists 0. intros y _ C. discriminate C.
Qed.

Lemma Phi_bounds (z : R) : 0 < Phi z < 1.
Proof.
  assert (L : forall y, Phi y <= 1).
  { intros y. apply (is_lim_le_loc (fun _ => Phi y) Phi p_infty (Phi y) 1); [|apply is_lim_const|apply Phi_lim_p].
    exists y. intros x Hx. left. now apply Phi_incr. }
  assert (U : forall y, Phi y < 1) by (intros y; eapply Rlt_le_trans; [apply (Phi_incr y (y + 1)); lra|apply L]).
  split; [|apply U]. assert (H := U (- z)). rewrite Phi_sym in H. lra.
Qed.

(** ** z Phi(z) + phi(z) *)
Definition hfun (z : R) : R := z * Phi z + phi z.
Lemma hfun_derive (z : R) : is_derive hfun z (Phi z).
Proof.
  unfold hfun. evar_last.
  { apply (is_derive_plus (fun z => z * Phi z) phi); [|apply phi_derive].
    apply (is_derive_mult (fun z => z) Phi z 1 (phi z)); [apply (is_derive_id z)|apply Phi_derive|]. intros a b. apply Rmult_comm. }
  unfold plus, mult; cbn. ring.
Qed.
Lemma hfun_incr (x y : R) : x < y -> hfun x < hfun y.
Proof. intros H. apply (incr_function hfun m_infty p_infty Phi); try exact Logic.I; try assumption; intros; [apply hfun_derive|apply Phi_bounds]. Qed.

Lemma phi_lim_m : is_lim phi m_infty 0.
Proof.
  apply (is_lim_ext (fun x => (fun y => 2 * exp (- (y * y / 2)) * / (2 * sqrt (2 * PI))) (- x))).
  { intros x. cbv beta. unfold phi. replace (- x * - x) with (x * x) by ring. field. apply Rgt_not_eq, s2pi_pos. }
  apply (is_lim_comp (fun y => 2 * exp (- (y * y / 2)) * / (2 * sqrt (2 * PI))) Ropp m_infty 0 p_infty).
  - replace (Finite 0) with (Rbar_mult 0 (/ (2 * sqrt (2 * PI)))) by (cbn; f_equal; ring).
    apply (is_lim_mult (fun y => 2 * exp (- (y * y / 2))) (fun _ => / (2 * sqrt (2 * PI))) p_infty 0 (/ (2 * sqrt (2 * PI)))); [apply exp_sq_lim|apply is_lim_const|exact Logic.I].
  - apply (is_lim_opp (fun x => x) m_infty m_infty). apply is_lim_id.
  - exists 0. intros y _ C. discriminate C.
Qed.

Lemma mills (z : R) : z < 0 -> Phi z + phi z / z <= 0.
Proof.
  intros Hz. set (k := fun z => Phi z + phi z / z).
  assert (D : forall y, y < 0 -> is_derive k y (- (phi y / (y * y)))).
  { intros y Hy. unfold k. evar_last.
    { apply (is_derive_plus Phi (fun z => phi z / z)); [apply Phi_derive|].
      apply (is_derive_div phi (fun z => z) y (- y * phi y) 1); [apply phi_derive|apply (is_derive_id y)|lra]. }
    unfold plus; cbn. field. lra. }
  assert (M : forall x y, x < y -> y < 0 -> k y < k x).
  { intros x y Hxy Hy. assert (Q : (fun t => - k t) x < (fun t => - k t) y).
    { apply (incr_function (fun t => - k t) m_infty 0 (fun t => phi t / (t * t))); try exact Logic.I; try assumption.
      - intros t _ Ht. evar_last; [apply (is_derive_opp k t), D, Ht|]. unfold opp; cbn. ring.
      - intros t _ Ht. cbn in Ht. apply Rdiv_lt_0_compat; [apply phi_pos|nra]. }
    cbv beta in Q. lra. }
  assert (L : is_lim k m_infty 0).
  { replace (Finite 0) with (Rbar_plus 0 0) by (cbn; f_equal; ring).
    apply (is_lim_plus Phi (fun z => phi z / z) m_infty 0 0); [apply Phi_lim_m| |reflexivity].
    apply (is_lim_le_le_loc (fun y => - phi y) (fun _ => 0)); [|replace (Finite 0) with (Rbar_opp 0) by (cbn; f_equal; ring); apply is_lim_opp, phi_lim_m|apply is_lim_const].
    exists (-1). intros y Hy. assert (P := phi_pos y).
    assert (E : phi y / y = - (phi y * / - y)) by (field; lra). rewrite E.
    assert (0 < / - y) by (apply Rinv_0_lt_compat; lra).
    assert (/ - y <= 1) by (rewrite <- Rinv_1; apply Rinv_le_contravar; lra). nra. }
  assert (E : Rbar_le (k z) 0).
  { apply (is_lim_le_loc (fun _ => k z) k m_infty (k z) 0); [|apply is_lim_const|exact L].
    exists z. intros x Hx. left. now apply M. }
  exact E.
Qed.

Lemma hfun_pos (z : R) : 0 < hfun z.
Proof.
  assert (W : forall y, 0 <= hfun y).
  { intros y. destruct (Rlt_or_le y 0) as [N|N].
    - assert (H := mills y N). unfold hfun. assert (y * (Phi y + phi y / y) >= 0) by nra.
      replace (y * (Phi y + phi y / y)) with (y * Phi y + phi y) in H0 by (field; lra). lra.
    - unfold hfun. assert (P := Phi_bounds y). assert (Q := phi_pos y). nra. }
  eapply Rle_lt_trans; [apply (W (z - 1))|]. apply hfun_incr. lra.
Qed.
Lemma hfun_ge (z : R) : z < hfun z.
Proof. assert (H := hfun_pos (- z)). unfold hfun in *. rewrite Phi_sym, phi_even in H. lra. Qed.

Lemma zPhi_lim : is_lim (fun z => z * Phi z) m_infty 0.
Proof.
  apply (is_lim_le_le_loc (fun y => - phi y) (fun _ => 0)); [|replace (Finite 0) with (Rbar_opp 0) by (cbn; f_equal; ring); apply is_lim_opp, phi_lim_m|apply is_lim_const].
  exists 0. intros y Hy. assert (H := hfun_pos y). unfold hfun in H. assert (P := Phi_bounds y). nra.
Qed.
