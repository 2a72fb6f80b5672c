From Verif Require Import Base Num UtilsModel UtilsRProofs Gauss AcqModel AcqSpec.
From Coq Require Import Reals Lra Lia List ZArith Bool String Permutation.
From Coquelicot Require Import Coquelicot.
Set Implicit Arguments. Unset Strict Implicit.
Local Open Scope R_scope.

(** ** lists *)
Lemma map2_length N f a b : List.length a = List.length b -> List.length (map2 N f a b) = List.length a.
Proof. intros H. unfold map2. rewrite map_length, combine_length, H. apply Nat.min_id. Qed.
Lemma map2_nth N f a : forall b i m s, nth_error a i = Some m -> nth_error b i = Some s -> nth_error (map2 N f a b) i = Some (f m s).
Proof.
  induction a as [|x a IH]; intros [|y b] [|i] m s A B; try discriminate.
  - cbn in A, B. injection A as <-. injection B as <-. reflexivity.
  - cbn in A, B. apply (IH b i m s A B).
Qed.
Lemma map2_pointwise N f a b : List.length a = List.length b -> pointwise f a b (map2 N f a b).
Proof. intros H. split; [now apply map2_length|]. intros i m s A B. now apply map2_nth. Qed.
Lemma same_len_true N a b : same_len N a b = true <-> List.length a = List.length b.
Proof. apply Nat.eqb_eq. Qed.

Lemma npmin_best (Y : list R) b : is_best Y b -> npmin NumR Y = Ok b.
Proof.
  intros (A & B). destruct (npmin_total NumR Y) as (m & E). { intros ->. destruct A. }
  rewrite E. f_equal. eapply npmin_unique; eauto.
Qed.

(** ** C17 *)
Section Dispatch.
Notation choose := (choose_fun_acquisition NumR Phi phi ln).
Lemma dec_jit : JITTER_ACQ NumR = / 100000.
Proof. change (1 / 100000 = / 100000). unfold Rdiv. ring. Qed.

Theorem choose_pi noise : exists f, choose "pi" noise = Ok f /\ forall mean std Y best, List.length mean = List.length std -> is_best Y best ->
  exists v, f mean std Y = Ok v /\ pointwise (pi_formula (/ 100000) best) mean std v.
Proof.
  eexists. split; [reflexivity|]. intros mean std Y best L B. cbv beta. unfold acq_pi. rewrite (proj2 (same_len_true _ _) L). cbn [assert_ rbind].
  rewrite (npmin_best B). cbn [rbind]. eexists. split; [reflexivity|].
  rewrite dec_jit. exact (@map2_pointwise NumR _ _ _ L).
Qed.
Theorem choose_ei noise : exists f, choose "ei" noise = Ok f /\ forall mean std Y best, List.length mean = List.length std -> is_best Y best ->
  exists v, f mean std Y = Ok v /\ pointwise (ei_formula (/ 100000) best) mean std v.
Proof.
  eexists. split; [reflexivity|]. intros mean std Y best L B. cbv beta. unfold acq_ei. rewrite (proj2 (same_len_true _ _) L). cbn [assert_ rbind].
  rewrite (npmin_best B). cbn [rbind]. eexists. split; [reflexivity|]. rewrite dec_jit. exact (@map2_pointwise NumR _ _ _ L).
Qed.
Lemma nofnat_INR n : nofnat NumR n = INR n.
Proof. unfold nofnat. cbn [nofZ NumR]. symmetry. apply INR_IZR_INZ. Qed.
Theorem choose_ucb noise : exists f, choose "ucb" noise = Ok f /\ forall mean std Y, List.length mean = List.length std ->
  exists v, f mean std Y = Ok v /\ pointwise (ucb_formula (2 * ln (INR (List.length Y) + 1))) mean std v.
Proof.
  eexists. split; [reflexivity|]. intros mean std Y L. cbv beta. unfold acq_ucb. rewrite (proj2 (same_len_true _ _) L). cbn [assert_ rbind].
  eexists. split; [reflexivity|]. rewrite nofnat_INR. exact (@map2_pointwise NumR _ _ _ L).
Qed.
Theorem choose_aei noise : exists f, choose "aei" (Some noise) = Ok f /\ forall mean std Y best, List.length mean = List.length std -> is_best Y best ->
  exists v, f mean std Y = Ok v /\ pointwise (aei_formula (/ 100000) noise best) mean std v.
Proof.
  eexists. split; [reflexivity|]. intros mean std Y best L B. cbv beta. unfold acq_aei. rewrite (proj2 (same_len_true _ _) L). cbn [assert_ rbind].
  rewrite (npmin_best B). cbn [rbind]. eexists. split; [reflexivity|]. rewrite dec_jit.
  assert (P := @map2_pointwise NumR (aei_formula (/ 100000) noise best) _ _ L).
  replace (map2 NumR _ mean std) with (map2 NumR (aei_formula (/ 100000) noise best) mean std); [exact P|].
  unfold map2. apply map_ext. intros [m s]. cbn [fst snd]. unfold aei_formula, nsq. cbn [NumR nmul nsub ndiv nadd nsqrt nofZ]. simpl pow. rewrite !Rmult_1_r. reflexivity.
Qed.
Theorem choose_aei_none : choose "aei" None = Raise AssertionError.
Proof. reflexivity. Qed.
Theorem choose_exploit noise : exists f, choose "pure_exploit" noise = Ok f /\ forall mean std Y, f mean std Y = Ok (map Ropp mean).
Proof. eexists. split; reflexivity. Qed.
Theorem choose_explore noise : exists f, choose "pure_explore" noise = Ok f /\ forall mean std Y, f mean std Y = Ok std.
Proof. eexists. split; reflexivity. Qed.
Theorem choose_other s noise : ~ In s ["pi"; "ei"; "ucb"; "aei"; "pure_exploit"; "pure_explore"]%string -> choose s noise = Raise AssertionError.
Proof.
  intros H. unfold choose_fun_acquisition. replace (str_in s ALLOWED_BO_ACQ) with false; [reflexivity|].
  cbn. cbn in H. repeat match goal with |- context [String.eqb ?a ?b] => destruct (String.eqb_spec a b); [exfalso; apply H; subst; tauto|] end. reflexivity.
Qed.
End Dispatch.

(** ** C47 *)
Section Pointwise.
Context (N : Num) (cdf pdf lg : N -> N).
Notation choose := (choose_fun_acquisition N cdf pdf lg).

Theorem acq_pointwise name noise f Y :
  choose name noise = Ok f ->
  (exists F : N -> N -> N, forall mean std, List.length mean = List.length std ->
     exists v, f mean std Y = Ok v /\ pointwise F mean std v)
  \/ (Y = [] /\ forall mean std, List.length mean = List.length std -> f mean std Y = Raise ValueError).
Proof.
  unfold choose_fun_acquisition. destruct (str_in name ALLOWED_BO_ACQ); cbn [assert_ rbind]; [|discriminate].
  assert (YC : Y = [] \/ exists b, npmin N Y = Ok b) by (destruct Y; [now left|right; eexists; reflexivity]).
  destruct (String.eqb name "pi"); [|destruct (String.eqb name "ei"); [|destruct (String.eqb name "ucb"); [|destruct (String.eqb name "aei");
    [|destruct (String.eqb name "pure_exploit"); [|destruct (String.eqb name "pure_explore"); [|discriminate]]]]]].
  - intros H. injection H as <-. destruct YC as [-> | (b & E)]; [right|left].
    + split; [reflexivity|]. intros mean std L. unfold acq_pi. now rewrite (proj2 (same_len_true _ _) L).
    + eexists. intros mean std L. unfold acq_pi. rewrite (proj2 (same_len_true _ _) L), E. cbn [assert_ rbind]. eexists. split; [reflexivity|]. now apply map2_pointwise.
  - intros H. injection H as <-. destruct YC as [-> | (b & E)]; [right|left].
    + split; [reflexivity|]. intros mean std L. unfold acq_ei. now rewrite (proj2 (same_len_true _ _) L).
    + eexists. intros mean std L. unfold acq_ei. rewrite (proj2 (same_len_true _ _) L), E. cbn [assert_ rbind]. eexists. split; [reflexivity|]. now apply map2_pointwise.
  - intros H. injection H as <-. left. eexists. intros mean std L. unfold acq_ucb. rewrite (proj2 (same_len_true _ _) L). cbn [assert_ rbind]. eexists. split; [reflexivity|]. now apply map2_pointwise.
  - destruct noise as [v|]; [|discriminate]. intros H. injection H as <-. destruct YC as [-> | (b & E)]; [right|left].
    + split; [reflexivity|]. intros mean std L. unfold acq_aei. now rewrite (proj2 (same_len_true _ _) L).
    + eexists. intros mean std L. unfold acq_aei. rewrite (proj2 (same_len_true _ _) L), E. cbn [assert_ rbind]. eexists. split; [reflexivity|]. now apply map2_pointwise.
  - intros H. injection H as <-. left. exists (fun m _ => nopp N m). intros mean std L. exists (map (nopp N) mean). split; [reflexivity|].
    split; [apply map_length|]. intros i m s A _. now apply map_nth_error.
  - intros H. injection H as <-. left. exists (fun _ s => s). intros mean std L. exists std. split; [reflexivity|].
    split; [now symmetry|]. intros i m s _ B. exact B.
Qed.

(** reordering the predictions reorders the values: [p] lists positions *)
Definition select {A} (l : list A) (p : list nat) : list (option A) := map (nth_error l) p.
Theorem acq_reorder name noise f Y mean std v mean' std' v' p :
  choose name noise = Ok f -> List.length mean = List.length std ->
  f mean std Y = Ok v -> List.length mean' = List.length p -> List.length std' = List.length p ->
  map Some mean' = select mean p -> map Some std' = select std p ->
  f mean' std' Y = Ok v' -> map Some v' = select v p.
Proof.
  intros C L H L1 L2 S1 S2 H'. destruct (acq_pointwise Y C) as [(F & HF) | (_ & HR)].
  - destruct (HF mean std L) as (v1 & E1 & P1). rewrite E1 in H. injection H as <-.
    assert (L' : List.length mean' = List.length std') by congruence.
    destruct (HF mean' std' L') as (v2 & E2 & P2). rewrite E2 in H'. injection H' as <-.
    destruct P1 as (PL1 & P1). destruct P2 as (PL2 & P2).
    assert (Q : forall i, (i < List.length p)%nat -> nth_error (map Some v2) i = nth_error (select v1 p) i).
    { intros i Hi. destruct (nth_error p i) as [k|] eqn:Ek; [|apply nth_error_None in Ek; lia].
      unfold select at 1. rewrite (map_nth_error (nth_error v1) i p Ek).
      assert (A1 : nth_error (map Some mean') i = Some (nth_error mean k)) by (rewrite S1; now apply map_nth_error).
      assert (A2 : nth_error (map Some std') i = Some (nth_error std k)) by (rewrite S2; now apply map_nth_error).
      rewrite nth_error_map in A1, A2. destruct (nth_error mean' i) as [m|] eqn:M; [|discriminate]. destruct (nth_error std' i) as [s|] eqn:S; [|discriminate].
      cbn [option_map] in A1, A2. injection A1 as A1. injection A2 as A2.
      rewrite nth_error_map, (P2 i m s M S). cbn [option_map]. f_equal. symmetry. now apply P1. }
    assert (EL : List.length (map Some v2) = List.length (select v1 p)) by (unfold select; rewrite !map_length; congruence).
    apply nth_ext with (d := None) (d' := None); [exact EL|]. intros i Hi.
    assert (Hi' : (i < List.length p)%nat) by (rewrite EL in Hi; unfold select in Hi; now rewrite map_length in Hi).
    assert (Qi := Q i Hi'). rewrite (nth_error_nth' (map Some v2) None Hi) in Qi.
    rewrite (nth_error_nth' (select v1 p) None) in Qi by (now rewrite <- EL). now injection Qi.
  - rewrite (HR mean std L) in H. discriminate H.
Qed.

(** only the minimum and the number of the responses matter *)
Theorem acq_responses name noise f Y Y' mean std :
  choose name noise = Ok f -> npmin N Y = npmin N Y' -> List.length Y = List.length Y' -> f mean std Y = f mean std Y'.
Proof.
  unfold choose_fun_acquisition. destruct (str_in name ALLOWED_BO_ACQ); cbn [assert_ rbind]; [|discriminate].
  destruct (String.eqb name "pi"); [|destruct (String.eqb name "ei"); [|destruct (String.eqb name "ucb"); [|destruct (String.eqb name "aei");
    [|destruct (String.eqb name "pure_exploit"); [|destruct (String.eqb name "pure_explore"); [|discriminate]]]]]];
  try (destruct noise; [|discriminate]); intros H E L; injection H as <-; unfold acq_pi, acq_ei, acq_ucb, acq_aei; rewrite ?E, ?L; reflexivity.
Qed.
End Pointwise.

(** ** reals *)
Section PI.
Lemma pi_range j best m s : 0 < pi_formula j best m s < 1.
Proof. apply Phi_bounds. Qed.
Lemma pi_decreasing j best m m' s : 0 < s + j -> m < m' -> pi_formula j best m' s < pi_formula j best m s.
Proof. intros P L. apply Phi_incr. apply Rmult_lt_compat_r; [now apply Rinv_0_lt_compat|lra]. Qed.
Lemma pi_half j best m s : 0 < s + j -> (pi_formula j best m s <= 1 / 2 <-> best <= m).
Proof.
  intros P. assert (IP := Rinv_0_lt_compat _ P). unfold pi_formula. rewrite <- Phi_0. split; intros H.
  - destruct (Rle_or_lt best m) as [L|L]; [exact L|]. exfalso. apply (Rlt_irrefl (Phi 0)). eapply Rlt_le_trans; [|exact H].
    apply Phi_incr. apply Rdiv_lt_0_compat; lra.
  - destruct (Req_dec best m) as [-> |NE]; [unfold Rminus; rewrite Rplus_opp_r; unfold Rdiv; rewrite Rmult_0_l; lra|].
    left. apply Phi_incr. unfold Rdiv. assert (best - m < 0) by lra. nra.
Qed.
End PI.

Section EI.
Lemma ei_h j best m s : s + j <> 0 -> ei_formula j best m s = (s + j) * hfun ((best - m) / (s + j)) - j * phi ((best - m) / (s + j)).
Proof. intros H. unfold ei_formula, hfun. field. exact H. Qed.
Lemma ei_h0 best m s : s <> 0 -> ei_formula 0 best m s = s * hfun ((best - m) / s).
Proof. intros H. rewrite ei_h by lra. rewrite Rplus_0_r. ring. Qed.

Lemma ei_lower j best m s : 0 < s + j -> - j * phi ((best - m) / (s + j)) <= ei_formula j best m s.
Proof. intros H. rewrite ei_h by lra. assert (P := hfun_pos ((best - m) / (s + j))). nra. Qed.
Lemma ei_pos0 best m s : 0 < s -> 0 < ei_formula 0 best m s.
Proof. intros H. rewrite ei_h0 by lra. apply Rmult_lt_0_compat; [exact H|apply hfun_pos]. Qed.
Lemma ei_ge_diff best m s : 0 < s -> best - m < ei_formula 0 best m s.
Proof. intros H. rewrite ei_h0 by lra. assert (P := hfun_ge ((best - m) / s)). replace (best - m) with (s * ((best - m) / s)) at 1 by (field; lra). nra. Qed.
Lemma ei_dec_mean best m m' s : 0 < s -> m < m' -> ei_formula 0 best m' s < ei_formula 0 best m s.
Proof.
  intros H L. rewrite !ei_h0 by lra. apply Rmult_lt_compat_l; [exact H|]. apply hfun_incr. apply Rmult_lt_compat_r; [now apply Rinv_0_lt_compat|lra].
Qed.
Lemma ei_inc_std best m s s' : 0 < s -> s < s' -> ei_formula 0 best m s < ei_formula 0 best m s'.
Proof.
  intros H L. set (d := best - m). rewrite !ei_h0 by lra. fold d.
  apply (incr_function (fun s => s * hfun (d / s)) 0 p_infty (fun s => phi (d / s))); try exact Logic.I; try assumption.
  - intros t Ht _. cbn in Ht. evar_last.
    { apply (is_derive_mult (fun t => t) (fun t => hfun (d / t)) t 1 (- (d / (t * t)) * Phi (d / t))); [apply (is_derive_id t)| |intros a b; apply Rmult_comm].
      apply (is_derive_comp hfun (fun t => d / t) t (Phi (d / t)) (- (d / (t * t)))); [apply hfun_derive|].
      auto_derive; [lra|]. field. lra. }
    unfold plus, mult; cbn. unfold hfun. field. lra.
  - intros t _ _. apply phi_pos.
Qed.

Lemma ei_nonneg_improving j best m s : 0 <= s -> m <= best -> 0 < s + j -> 0 <= ei_formula j best m s.
Proof.
  intros S L H. unfold ei_formula. assert (P := Phi_bounds ((best - m) / (s + j))). assert (Q := phi_pos ((best - m) / (s + j))).
  apply Rplus_le_le_0_compat; apply Rmult_le_pos; lra.
Qed.
Lemma ei_negative j best m : 0 < j -> best < m -> ei_formula j best m 0 < 0.
Proof. intros J L. unfold ei_formula. assert (P := Phi_bounds ((best - m) / (0 + j))). rewrite Rmult_0_l, Rplus_0_r. nra. Qed.

Lemma phi_cont t : continuous phi t.
Proof. apply (ex_derive_continuous phi). exists (- t * phi t). apply phi_derive. Qed.

(** the closed form is the expectation of the improvement *)
Lemma ei_is_expectation best m s : 0 < s -> expected_improvement best m s (ei_formula 0 best m s).
Proof.
  intros S. set (d := best - m). set (z := d / s). unfold expected_improvement.
  set (H := fun t => d * Phi t + s * phi t).
  assert (HD : forall t, is_derive H t ((d - s * t) * phi t)).
  { intros t. unfold H. evar_last.
    { apply (is_derive_plus (fun t => d * Phi t) (fun t => s * phi t)); apply is_derive_scal; [apply Phi_derive|apply phi_derive]. }
    unfold plus; cbn. ring. }
  assert (EV : ei_formula 0 best m s = H z) by (unfold ei_formula, H, z, d; rewrite Rplus_0_r; reflexivity).
  assert (IN : forall a b, a < z -> z < b -> is_RInt (improvement_density best m s) a b (H z - H a)).
  { intros a b Ha Hb.
    assert (I1 : is_RInt (improvement_density best m s) a z (minus (H z) (H a))).
    { apply (is_RInt_ext (fun t => (d - s * t) * phi t)).
      - intros t Ht. rewrite Rmin_left, Rmax_right in Ht by lra. unfold improvement_density. rewrite Rmax_left.
        + f_equal. unfold d. ring.
        + assert (s * t <= s * z) by nra. replace (s * z) with d in H0 by (unfold z; field; lra). unfold d in H0. lra.
      - apply (is_RInt_derive H). { intros t _. apply HD. }
        intros t _. apply (continuous_mult (fun t => d - s * t) phi); [|apply phi_cont].
        apply (ex_derive_continuous (fun t => d - s * t)). auto_derive. trivial. }
    assert (I2 : is_RInt (improvement_density best m s) z b (scal (b - z) 0)).
    { apply (is_RInt_ext (fun _ => 0)); [|apply (is_RInt_const (V := R_NormedModule))].
      intros t Ht. rewrite Rmin_left, Rmax_right in Ht by lra. unfold improvement_density. rewrite Rmax_right; [symmetry; apply Rmult_0_l|].
      assert (s * z <= s * t) by nra. replace (s * z) with d in H0 by (unfold z; field; lra). unfold d in H0. lra. }
    assert (I3 := is_RInt_Chasles _ _ _ _ _ _ I1 I2). replace (H z - H a) with (plus (minus (H z) (H a)) (scal (b - z) 0)); [exact I3|].
    unfold plus, minus, opp, scal, mult; cbn. unfold mult; cbn. unfold plus; cbn. ring. }
  assert (HL : is_lim H m_infty 0).
  { replace (Finite 0) with (Rbar_plus (Rbar_mult d 0) (Rbar_mult s 0)) by (cbn; f_equal; ring).
    apply (is_lim_plus (fun t => d * Phi t) (fun t => s * phi t) m_infty (Rbar_mult d 0) (Rbar_mult s 0)).
    - apply is_lim_scal_l, Phi_lim_m.
    - apply is_lim_scal_l, phi_lim_m.
    - reflexivity. }
  apply filterlimi_locally. intros eps.
  assert (BL : Rbar_locally m_infty (fun a => a < z /\ Rabs (H a) < eps)).
  { apply filter_and; [exists z; tauto|]. apply is_lim_spec in HL. specialize (HL eps). cbn in HL. destruct HL as (M & HM). exists M. intros a Ha. specialize (HM a Ha). rewrite Rminus_0_r in HM. exact HM. }
  apply (Filter_prod _ _ _ (fun a => a < z /\ Rabs (H a) < eps) (fun b => z < b)); [exact BL|exists z; tauto|].
  intros a b (Ha & He) Hb. cbn [fst snd]. exists (H z - H a). split; [now apply IN|].
  rewrite EV. unfold ball; cbn. unfold AbsRing_ball, abs, minus, plus, opp; cbn. replace (H z - H a + - H z) with (- H a) by ring. now rewrite Rabs_Ropp.
Qed.
Lemma expectation_unique best m s v v' : expected_improvement best m s v -> expected_improvement best m s v' -> v = v'.
Proof.
  intros A B. transitivity (RInt_gen (improvement_density best m s) (Rbar_locally m_infty) (Rbar_locally p_infty)).
  - symmetry. now apply is_RInt_gen_unique.
  - now apply is_RInt_gen_unique.
Qed.
End EI.

Section UCB.
Lemma ucb_mono k m m' s s' : 0 <= k -> m' <= m -> s <= s' -> ucb_formula k m s <= ucb_formula k m' s'.
Proof. intros. unfold ucb_formula. nra. Qed.
Lemma ucb_strict_mean k m m' s : m' < m -> ucb_formula k m s < ucb_formula k m' s.
Proof. intros. unfold ucb_formula. lra. Qed.
Lemma kappa_nonneg kappa n : 0 <= kappa -> 0 <= kappa * ln (INR n + 1).
Proof. intros. apply Rmult_le_pos; [assumption|]. rewrite <- ln_1. assert (0 <= INR n) by apply pos_INR. destruct (Req_dec (INR n) 0) as [-> |]; [rewrite Rplus_0_l; lra|]. left. apply ln_increasing; lra. Qed.
Lemma kappa_mono kappa n n' : 0 <= kappa -> (n <= n')%nat -> kappa * ln (INR n + 1) <= kappa * ln (INR n' + 1).
Proof.
  intros K L. apply Rmult_le_compat_l; [assumption|]. assert (0 <= INR n) by apply pos_INR. apply le_INR in L.
  destruct (Req_dec (INR n) (INR n')) as [-> |]; [lra|]. left. apply ln_increasing; lra.
Qed.
Theorem ucb_value kappa (inc : bool) Yo mean std : List.length mean = List.length std ->
  exists v, acq_ucb NumR ln mean std Yo kappa inc = Ok v /\
    pointwise (ucb_formula (match Yo with Some Y => if inc then kappa * ln (INR (List.length Y) + 1) else kappa | None => kappa end)) mean std v.
Proof.
  intros L. unfold acq_ucb. rewrite (proj2 (same_len_true _ _) L). cbn [assert_ rbind]. eexists. split; [reflexivity|].
  assert (P := fun k => @map2_pointwise NumR (ucb_formula k) _ _ L).
  destruct Yo as [Y|]; [destruct inc|]; try rewrite nofnat_INR; apply P.
Qed.
End UCB.

Section AEI.
Definition aei_factor (noise s : R) : R := 1 - noise / sqrt (s ^ 2 + noise ^ 2).
Lemma aei_is j noise best m s : aei_formula j noise best m s = ei_formula j best m s * aei_factor noise s.
Proof. reflexivity. Qed.
Lemma factor_range noise s : 0 <= noise -> (noise <> 0 \/ s <> 0) -> 0 <= aei_factor noise s <= 1.
Proof.
  intros H NZ. unfold aei_factor. assert (P : 0 < s ^ 2 + noise ^ 2) by (destruct NZ; nra).
  assert (Q := sqrt_lt_R0 _ P). assert (IQ := Rinv_0_lt_compat _ Q).
  assert (L : noise <= sqrt (s ^ 2 + noise ^ 2)).
  { rewrite <- (sqrt_pow2 noise) at 1 by assumption. apply sqrt_le_1_alt. nra. }
  assert (noise / sqrt (s ^ 2 + noise ^ 2) <= 1). { apply (Rmult_le_reg_r (sqrt (s ^ 2 + noise ^ 2))); [exact Q|]. unfold Rdiv. rewrite Rmult_assoc, Rinv_l by lra. lra. }
  assert (0 <= noise / sqrt (s ^ 2 + noise ^ 2)) by (unfold Rdiv; apply Rmult_le_pos; lra). lra.
Qed.
Lemma factor_one noise s : 0 <= noise -> (noise <> 0 \/ s <> 0) -> (aei_factor noise s = 1 <-> noise = 0).
Proof.
  intros H NZ. unfold aei_factor. assert (P : 0 < s ^ 2 + noise ^ 2) by (destruct NZ; nra). assert (Q := sqrt_lt_R0 _ P). split; intros E.
  - destruct (Req_dec noise 0) as [Z|Z]; [exact Z|]. assert (0 < noise / sqrt (s ^ 2 + noise ^ 2)) by (apply Rdiv_lt_0_compat; lra). lra.
  - subst. unfold Rdiv. lra.
Qed.
Lemma factor_zero noise : 0 < noise -> aei_factor noise 0 = 0.
Proof. intros H. unfold aei_factor. replace (0 ^ 2 + noise ^ 2) with (noise ^ 2) by ring. rewrite sqrt_pow2 by lra. field. lra. Qed.
End AEI.
