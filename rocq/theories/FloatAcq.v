(** binary64: acquisition values of bounded predictions are finite. *)
From Verif Require Import Base Lists Num NumLaws NumFin UtilsModel HypsModel AcqModel BOModel SamplingFloat FloatSpec FloatOps FloatNorm FloatTrees.
From Coq Require Import Reals ZArith Bool List String Lra Lia Floats.SpecFloat.
From Flocq Require Import Core IEEE754.BinarySingleNaN.
Import ListNotations.
Local Open Scope R_scope.
#[local] Existing Instance vexp64.
#[local] Existing Instance vrndE.

Lemma mul_e a b x y : (-1074 <= a + b < 1024)%Z -> within a x -> within b y -> within (a + b) (fmul x y).
Proof. intros E Hx Hy. eapply fmul_bnd; [exact Hx|exact Hy|apply F64_bpow; lia|apply bpow_lt_max; lia|]. rewrite bpow_plus. lra. Qed.
Lemma add_e a x y : (-1074 <= a < 1023)%Z -> within a x -> within a y -> within (a + 1) (fadd x y).
Proof. intros E. apply add_bnd; lia. Qed.
Lemma sub_e a x y : (-1074 <= a < 1023)%Z -> within a x -> within a y -> within (a + 1) (fsub x y).
Proof. intros E. apply sub_bnd; lia. Qed.
Lemma unit_bounded x : finite x -> 0 <= B2R x <= 1 -> within 0 x.
Proof. intros F H. split; [exact F|]. rewrite Rabs_pos_eq by lra. cbn. lra. Qed.

Lemma lower_sum (s j : f64) e l : (-1074 <= e < 1023)%Z -> (-1074 <= l)%Z -> within e s -> within e j -> 0 <= B2R s -> bpow radix2 l <= B2R j ->
  finite (fadd s j) /\ bpow radix2 l <= B2R (fadd s j).
Proof.
  intros E L (Fs & Bs) (Fj & Bj) P J.
  destruct (fadd_val s j (bpow radix2 (e + 1)) Fs Fj) as ((F & _) & V).
  - apply F64_bpow; lia.
  - apply bpow_lt_max; lia.
  - pose proof (Rabs_triang (B2R s) (B2R j)). rewrite bpow_plus. change (bpow radix2 1) with 2. lra.
  - split; [exact F|]. rewrite V. rewrite <- (rnd64_id (bpow radix2 l)) by (apply F64_bpow; lia). apply rnd64_le. lra.
Qed.
Lemma div_e a l x y : (-1074 <= a - l < 1024)%Z -> within a x -> bpow radix2 l <= B2R y -> within (a - l) (fdiv x y).
Proof.
  intros E (F & B) L. pose proof (bpow_gt_0 radix2 l) as P.
  refine (proj1 (fdiv_val x y (bpow radix2 (a - l)) F _ _ _ _)).
  - lra.
  - apply F64_bpow; lia.
  - apply bpow_lt_max; lia.
  - unfold Rdiv. rewrite Rabs_mult, Rabs_inv, (Rabs_pos_eq (B2R y)) by lra. apply Rmult_le_reg_r with (B2R y); [lra|].
    rewrite Rmult_assoc, Rinv_l by lra. rewrite Rmult_1_r. replace (bpow radix2 a) with (bpow radix2 (a - l) * bpow radix2 l) in B by (rewrite <- bpow_plus; f_equal; lia).
    eapply Rle_trans; [exact B|]. apply Rmult_le_compat_l; [apply bpow_ge_0|exact L].
Qed.

Lemma jitter_val : finite (JITTER_ACQ NumF) /\ bpow radix2 (-17) <= B2R (JITTER_ACQ NumF : f64) <= 1.
Proof.
  unfold JITTER_ACQ, nlit. change (ndiv NumF (nofZ NumF 1) (nofZ NumF 100000)) with (fdiv (fofZ 1) (fofZ 100000)).
  destruct (fofZ_val 1 ltac:(reflexivity)) as (F1 & E1). destruct (fofZ_val 100000 ltac:(reflexivity)) as (F2 & E2).
  destruct (fdiv_val (fofZ 1) (fofZ 100000) 1 F1) as ((F & B) & V).
  - rewrite E2. lra.
  - apply (F64_Z 1). reflexivity.
  - change 1 with (bpow radix2 0). apply bpow_lt_max. lia.
  - rewrite E1, E2, Rabs_pos_eq by lra. lra.
  - split; [exact F|]. split; [|pose proof (Rle_abs (B2R (fdiv (fofZ 1) (fofZ 100000)))); lra].
    rewrite V, E1, E2, <- (rnd64_id (bpow radix2 (-17))) by (apply F64_bpow; lia). apply rnd64_le. cbn. lra.
Qed.

Section Acq.
Context (cdf pdf lg : f64 -> f64).
Hypotheses (HC : unit_valued cdf) (HP : unit_valued pdf) (HL : log_like lg).

Lemma val_z_bnd best m s : within 480 best -> within 480 m -> within 482 s -> 0 <= B2R s -> within 498 (val_z NumF best (JITTER_ACQ NumF) m s).
Proof.
  intros Hb Hm Hs Ps. destruct jitter_val as (FJ & J1 & J2).
  assert (BJ : within 482 (JITTER_ACQ NumF)).
  { apply bounded_le with 0%Z; [lia|]. apply unit_bounded; [exact FJ|]. pose proof (bpow_ge_0 radix2 (-17)). lra. }
  destruct (lower_sum s (JITTER_ACQ NumF) 482 (-17)) as (F & L); [lia|lia|exact Hs|exact BJ|exact Ps|exact J1|].
  apply (div_e 481 (-17)); [lia|apply (sub_e 480); [lia|exact Hb|exact Hm]|exact L].
Qed.
Lemma ei_bnd best m s : within 480 best -> within 480 m -> within 482 s -> 0 <= B2R s -> within 483 (ei_elt NumF cdf pdf best (JITTER_ACQ NumF) m s).
Proof.
  intros Hb Hm Hs Ps. destruct (val_z_bnd best m s Hb Hm Hs Ps) as (FZ & _). unfold ei_elt. cbv zeta.
  destruct (HC _ FZ) as (FC & C). destruct (HP _ FZ) as (FP & P).
  apply (add_e 482); [lia| |].
  - apply bounded_le with (481 + 0)%Z; [lia|]. apply mul_e; [lia|apply (sub_e 480); [lia|exact Hb|exact Hm]|now apply unit_bounded].
  - apply (mul_e 482 0); [lia|exact Hs|now apply unit_bounded].
Qed.

Lemma aei_factor noise s : noise_fine noise -> within 482 s -> 0 <= B2R s ->
  within 2 (nsub NumF (nofZ NumF 1) (ndiv NumF noise (nsqrt NumF (nadd NumF (nsq NumF s) (nsq NumF noise))))).
Proof.
  intros (FN & N1 & N2) Hs Ps. pose proof (bpow_gt_0 radix2 (-500)) as P0.
  set (k := mag radix2 (B2R noise) : Z). assert (KB := bpow_mag_gt radix2 (B2R noise)). assert (KL := bpow_mag_le radix2 (B2R noise) ltac:(lra)).
  fold k in KB, KL. rewrite Rabs_pos_eq in KB, KL by lra.
  assert (K1 : (-500 < k)%Z) by (apply (lt_bpow radix2); lra).
  assert (K2 : (k - 1 <= 480)%Z) by (apply (le_bpow radix2); lra).
  assert (SN : within 960 (nsq NumF noise) /\ bpow radix2 (2 * (k - 1)) <= B2R (nsq NumF noise : f64)).
  { destruct (fmul_val noise noise (bpow radix2 960) FN FN) as (B & V).
    - apply F64_bpow; lia.
    - apply bpow_lt_max; lia.
    - rewrite Rabs_mult, Rabs_pos_eq by lra. replace 960%Z with (480 + 480)%Z by lia. rewrite bpow_plus. apply Rmult_le_compat; lra.
    - split; [exact B|]. change (nsq NumF noise) with (fmul noise noise). rewrite V. rewrite <- (rnd64_id (bpow radix2 (2 * (k - 1)))) by (apply F64_bpow; lia).
      apply rnd64_le. replace (2 * (k - 1))%Z with ((k - 1) + (k - 1))%Z by lia. rewrite bpow_plus. pose proof (bpow_ge_0 radix2 (k - 1)). apply Rmult_le_compat; lra. }
  destruct SN as (BN & LN). destruct (nsq_bnd 482 s ltac:(lia) ltac:(lia) Hs) as (BS & PS).
  destruct (lower_sum (nsq NumF s) (nsq NumF noise) 964 (2 * (k - 1))) as (FA & LA); [lia|lia|exact BS|apply bounded_le with 960%Z; [lia|exact BN]|exact PS|exact LN|].
  assert (LQ : bpow radix2 (k - 1) <= B2R (fsqrt (fadd (nsq NumF s) (nsq NumF noise)))).
  { set (u := fadd (nsq NumF s) (nsq NumF noise)) in *. pose proof (bpow_gt_0 radix2 (2 * (k - 1))).
    destruct (Bsqrt_correct prec64 emax64 prec64_gt_0 prec64_lt_emax mode_NE u) as (E & _).
    change (round radix2 (SpecFloat.fexp prec64 emax64) (round_mode mode_NE)) with rnd64 in E. fold (fsqrt u) in E. rewrite E.
    rewrite <- (rnd64_id (bpow radix2 (k - 1))) by (apply F64_bpow; lia). apply rnd64_le.
    rewrite <- (sqrt_Rsqr (bpow radix2 (k - 1))) by apply bpow_ge_0. apply sqrt_le_1_alt. unfold Rsqr. rewrite <- bpow_plus. replace (k - 1 + (k - 1))%Z with (2 * (k - 1))%Z by lia. exact LA. }
  apply (sub_e 1); [lia|apply bounded_le with 0%Z; [lia|apply unit_bounded]|].
  - apply fofZ_val. reflexivity.
  - change (nofZ NumF 1) with (fofZ 1). rewrite (proj2 (fofZ_val 1 ltac:(reflexivity))). lra.
  - replace 1%Z with (k - (k - 1))%Z by lia. apply div_e; [lia| |exact LQ]. split; [exact FN|]. rewrite Rabs_pos_eq by lra. lra.
Qed.

Lemma kappa_bnd (n : nat) : few n -> within 54 (nmul NumF (nofZ NumF 2) (lg (nadd NumF (nofnat NumF n) (nofZ NumF 1)))).
Proof.
  intros H. unfold few in H. unfold nofnat. destruct (fofZ_val (Z.of_nat n) ltac:(lia)) as (F & E). destruct (fofZ_val 1 ltac:(reflexivity)) as (F1 & E1). destruct (fofZ_val 2 ltac:(reflexivity)) as (F2 & E2).
  assert (PN : 0 <= IZR (Z.of_nat n)) by (apply IZR_le; lia).
  assert (UN : IZR (Z.of_nat n) + 1 <= bpow radix2 53).
  { replace (bpow radix2 53) with (IZR (2 ^ 53)) by (rewrite <- (IZR_Zpower radix2 53) by lia; reflexivity). rewrite <- (plus_IZR _ 1). apply IZR_le. lia. }
  destruct (fadd_val (fofZ (Z.of_nat n)) (fofZ 1) (bpow radix2 53) F F1) as ((FS & BS) & V).
  - apply F64_bpow; lia.
  - apply bpow_lt_max; lia.
  - rewrite E, E1, Rabs_pos_eq by lra. exact UN.
  - assert (GE : 1 <= B2R (fadd (fofZ (Z.of_nat n)) (fofZ 1))).
    { rewrite V, E, E1. apply Rle_trans with (rnd64 1); [right; symmetry; apply rnd64_id, (F64_Z 1); reflexivity|apply rnd64_le; lra]. }
    destruct (HL _ FS GE) as (FL & L1 & L2). apply (mul_e 1 53); [lia| |].
    + split; [exact F2|]. change (nofZ NumF 2) with (fofZ 2). rewrite E2, Rabs_pos_eq by lra. cbn. lra.
    + split; [exact FL|]. rewrite Rabs_pos_eq by exact L1. rewrite Rabs_pos_eq in BS by lra. eapply Rle_trans; [exact L2|exact BS].
Qed.

Lemma map2_all (f : f64 -> f64 -> f64) (P : f64 -> Prop) (mu sd : list f64) : preds_ok mu sd ->
  (forall m s, within 480 m -> within 482 s -> 0 <= B2R s -> P (f m s)) -> Forall P (AcqModel.map2 NumF f mu sd) /\ List.length (AcqModel.map2 NumF f mu sd) = List.length mu.
Proof.
  intros (L & HM & HS) H. split.
  - apply Forall_forall. intros x Hx. apply in_map_iff in Hx as ((m & s) & <- & Hp). rewrite Forall_forall in HM, HS.
    specialize (HM m (in_combine_l _ _ _ _ Hp)). destruct (HS s (in_combine_r _ _ _ _ Hp)). now apply H.
  - unfold AcqModel.map2. rewrite map_length, combine_length. change (car NumF) with f64. lia.
Qed.
Lemma bounded_opp e x : within e x -> within e (Bopp x).
Proof. intros (F & B). split; [now rewrite is_finite_Bopp|]. rewrite B2R_Bopp, Rabs_Ropp. exact B. Qed.

Local Open Scope string_scope.
Lemma acquisitions_bnd str_acq noise mu sd Y : In str_acq ["pi"; "ei"; "ucb"; "aei"; "pure_exploit"; "pure_explore"] -> noise_fine noise ->
  preds_ok mu sd -> Y <> [] -> few (List.length Y) -> Forall (within 480) Y ->
  exists f a, choose_fun_acquisition NumF cdf pdf lg str_acq (Some noise) = Ok f /\ f mu sd Y = Ok a /\ List.length a = List.length mu /\ Forall (within 540) a.
Proof.
  intros HA HN OK NE FY HY. pose proof OK as (L & HM & HS).
  assert (SL : same_len NumF mu sd = true) by (apply Nat.eqb_eq; exact L).
  destruct (npmin NumF Y) as [b|] eqn:EB; [|destruct Y; [congruence|discriminate]].
  assert (Hb : within 480 b).
  { rewrite Forall_forall in HY. apply HY. apply (npmin_F Y b); [apply Forall_forall; intros y Hy; now apply HY|exact EB]. }
  destruct HA as [<-|[<-|[<-|[<-|[<-|[<-|[]]]]]]].
  - eexists. exists (AcqModel.map2 NumF (fun m s => cdf (val_z NumF b (JITTER_ACQ NumF) m s)) mu sd). split; [reflexivity|].
    destruct (map2_all (fun m s => cdf (val_z NumF b (JITTER_ACQ NumF) m s)) (within 540) mu sd OK) as (A & B).
    { intros m s Hm Hs Ps. destruct (HC _ (proj1 (val_z_bnd b m s Hb Hm Hs Ps))) as (FC & C). apply bounded_le with 0%Z; [lia|now apply unit_bounded]. }
    split; [|auto]. cbv beta. unfold acq_pi. rewrite SL. cbn [assert_ rbind]. rewrite EB. reflexivity.
  - eexists. exists (AcqModel.map2 NumF (ei_elt NumF cdf pdf b (JITTER_ACQ NumF)) mu sd). split; [reflexivity|].
    destruct (map2_all (ei_elt NumF cdf pdf b (JITTER_ACQ NumF)) (within 540) mu sd OK) as (A & B).
    { intros m s Hm Hs Ps. apply bounded_le with 483%Z; [lia|now apply ei_bnd]. }
    split; [|auto]. cbv beta. unfold acq_ei. rewrite SL. cbn [assert_ rbind]. rewrite EB. reflexivity.
  - set (k := nmul NumF (nofZ NumF 2) (lg (nadd NumF (nofnat NumF (List.length Y)) (nofZ NumF 1)))).
    eexists. exists (AcqModel.map2 NumF (fun m s => nadd NumF (nopp NumF m) (nmul NumF k s)) mu sd). split; [reflexivity|].
    destruct (map2_all (fun m s => nadd NumF (nopp NumF m) (nmul NumF k s)) (within 540) mu sd OK) as (A & B).
    { intros m s Hm Hs Ps. apply bounded_le with (536 + 1)%Z; [lia|]. apply (add_e 536); [lia| |].
      - apply bounded_le with 480%Z; [lia|]. now apply bounded_opp.
      - apply (mul_e 54 482); [lia|apply kappa_bnd, FY|exact Hs]. }
    split; [|auto]. cbv beta. unfold acq_ucb. rewrite SL. reflexivity.
  - set (g := fun m s => nmul NumF (ei_elt NumF cdf pdf b (JITTER_ACQ NumF) m s) (nsub NumF (nofZ NumF 1) (ndiv NumF noise (nsqrt NumF (nadd NumF (nsq NumF s) (nsq NumF noise)))))).
    eexists. exists (AcqModel.map2 NumF g mu sd). split; [reflexivity|].
    destruct (map2_all g (within 540) mu sd OK) as (A & B).
    { intros m s Hm Hs Ps. apply bounded_le with (483 + 2)%Z; [lia|]. apply mul_e; [lia|now apply ei_bnd|now apply aei_factor]. }
    split; [|auto]. cbv beta. unfold acq_aei. rewrite SL. cbn [assert_ rbind]. rewrite EB. reflexivity.
  - eexists. exists (map (nopp NumF) mu). split; [reflexivity|]. split; [reflexivity|]. split; [apply map_length|].
    apply Forall_forall. intros x Hx. apply in_map_iff in Hx as (m & <- & Hm). rewrite Forall_forall in HM. apply bounded_le with 480%Z; [lia|]. now apply bounded_opp, HM.
  - eexists. exists sd. split; [reflexivity|]. split; [reflexivity|]. split; [symmetry; exact L|].
    eapply Forall_impl; [|exact HS]. intros s (Bs & _). apply bounded_le with 482%Z; [lia|exact Bs].
Qed.

Lemma neg_scaled_bnd a : Forall (within 540) a -> Forall (within 545) (BOModel.neg NumF (BOModel.scaled NumF a)).
Proof.
  intros H. unfold BOModel.neg, BOModel.scaled. rewrite map_map. apply Forall_forall. intros x Hx. apply in_map_iff in Hx as (y & <- & Hy).
  rewrite Forall_forall in H. specialize (H y Hy). apply bounded_le with (0 + (540 + 4))%Z; [lia|].
  destruct (fofZ_val 10 ltac:(reflexivity)) as (F10 & E10). destruct (fofZ_val (-1) ltac:(reflexivity)) as (F1 & E1).
  apply (mul_e 0 (540 + 4)); [lia| |apply (mul_e 540 4); [lia|exact H|]].
  - split; [exact F1|]. change (nofZ NumF (-1)) with (fofZ (-1)). rewrite E1, Rabs_left by lra. cbn. lra.
  - split; [exact F10|]. change (nofZ NumF 10) with (fofZ 10). rewrite E10, Rabs_pos_eq by lra. cbn. lra.
Qed.
End Acq.
