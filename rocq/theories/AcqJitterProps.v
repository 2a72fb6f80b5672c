(** Property C114: acquisition values reward low means and high deviations, with the jitter the code uses. *)
From Verif Require Import Base Num UtilsModel UtilsRProofs Gauss AcqModel AcqSpec AcqProofs AcqProps AcqJitter.
From Coq Require Import Reals Lra List.
Import ListNotations. Local Open Scope list_scope. Local Open Scope R_scope.

Lemma same_best (Y : list R) b b' : is_best Y b -> is_best Y b' -> b = b'.
Proof. intros (A & B) (A' & B'). apply Rle_antisym; auto. Qed.

(** what holds of ei for any jitter: a prediction that is no worse in either respect is worth no less, provided
    j (best - m)^2 <= s (s + j)^2; missing: means further above the best response, and deviations near zero *)
Theorem C114_ei_partial : forall (mean std mean' std' Y v v' : list R) j i i' m m' s s' p p',
  acq_ei NumR Phi phi mean std Y j = Ok v -> acq_ei NumR Phi phi mean' std' Y j = Ok v' ->
  nth_error mean i = Some m -> nth_error std i = Some s -> nth_error v i = Some p ->
  nth_error mean' i' = Some m' -> nth_error std' i' = Some s' -> nth_error v' i' = Some p' ->
  0 < j -> 0 <= s -> s <= s' -> m' <= m -> (forall best, is_best Y best -> j * (best - m)^2 <= s * (s + j)^2) ->
  p <= p' /\ (s < s' \/ m' < m -> p < p').
Proof.
  intros mean std mean' std' Y v v' j i i' m m' s s' p p' H H' A1 A2 A3 B1 B2 B3 J S LS LM C.
  destruct (acq_ei_inv _ _ _ _ _ H) as (b & B & L & PL & P). destruct (acq_ei_inv _ _ _ _ _ H') as (b' & B' & L' & PL' & P').
  assert (b = b') by exact (same_best _ _ _ B B'). subst b'.
  rewrite (P _ _ _ A1 A2) in A3. rewrite (P' _ _ _ B1 B2) in B3. injection A3 as <-. injection B3 as <-.
  exact (ei_jit_mono j b m m' s s' J S LS LM (C b B)).
Qed.
Print Assumptions C114_ei_partial.
(** for equal deviations it is enough that the larger mean is not above the best response *)
Theorem C114_ei_improving : forall (mean std mean' std' Y v v' : list R) j i i' m m' s p p',
  acq_ei NumR Phi phi mean std Y j = Ok v -> acq_ei NumR Phi phi mean' std' Y j = Ok v' ->
  nth_error mean i = Some m -> nth_error std i = Some s -> nth_error v i = Some p ->
  nth_error mean' i' = Some m' -> nth_error std' i' = Some s -> nth_error v' i' = Some p' ->
  0 < j -> 0 <= s -> m' < m -> (forall y, In y Y -> m <= y) -> p < p'.
Proof.
  intros mean std mean' std' Y v v' j i i' m m' s p p' H H' A1 A2 A3 B1 B2 B3 J S LM C.
  destruct (acq_ei_inv _ _ _ _ _ H) as (b & B & L & PL & P). destruct (acq_ei_inv _ _ _ _ _ H') as (b' & B' & L' & PL' & P').
  assert (b = b') by exact (same_best _ _ _ B B'). subst b'.
  rewrite (P _ _ _ A1 A2) in A3. rewrite (P' _ _ _ B1 B2) in B3. injection A3 as <-. injection B3 as <-.
  apply ei_jit_mean; try assumption. left. apply C, B.
Qed.
Print Assumptions C114_ei_improving.
(** the exact role of the deviation: ei grows with it while (s + j)^3 >= j (best - m)^2 and falls with it before *)
Theorem C114_ei_deviation : forall (mean std mean' std' Y v v' : list R) j i i' m s s' p p',
  acq_ei NumR Phi phi mean std Y j = Ok v -> acq_ei NumR Phi phi mean' std' Y j = Ok v' ->
  nth_error mean i = Some m -> nth_error std i = Some s -> nth_error v i = Some p ->
  nth_error mean' i' = Some m -> nth_error std' i' = Some s' -> nth_error v' i' = Some p' ->
  0 < j -> 0 <= s -> s < s' -> exists best, is_best Y best /\
  (j * (best - m)^2 <= (s + j)^3 -> p < p') /\ ((s' + j)^3 <= j * (best - m)^2 -> p' < p).
Proof.
  intros mean std mean' std' Y v v' j i i' m s s' p p' H H' A1 A2 A3 B1 B2 B3 J S LS.
  destruct (acq_ei_inv _ _ _ _ _ H) as (b & B & L & PL & P). destruct (acq_ei_inv _ _ _ _ _ H') as (b' & B' & L' & PL' & P').
  assert (b = b') by exact (same_best _ _ _ B B'). subst b'.
  rewrite (P _ _ _ A1 A2) in A3. rewrite (P' _ _ _ B1 B2) in B3. injection A3 as <-. injection B3 as <-.
  exists b. split; [exact B|]. split; [now apply ei_jit_std|now apply ei_jit_std_dec].
Qed.
Print Assumptions C114_ei_deviation.
(** Findings, with the default jitter.  At deviation 0 the larger of two means can have the larger value; *)
Theorem C114_ei_refuted : exists (mean std Y v : list R) m m' p p',
  List.Forall (fun s : R => 0 <= s) std /\ acq_ei NumR Phi phi mean std Y (JITTER_ACQ NumR) = Ok v /\
  nth_error std 0 = nth_error std 1 /\
  nth_error mean 0 = Some m /\ nth_error mean 1 = Some m' /\ nth_error v 0 = Some p /\ nth_error v 1 = Some p' /\ m < m' /\ p < p'.
Proof.
  assert (B : is_best (0 :: nil) 0) by (split; [now left|intros y [<-|[]]; lra]).
  destruct (call_ok Phi phi (0 + / 100000 :: 0 + 2 * / 100000 :: nil) (0 :: 0 :: nil) (0 :: nil) (JITTER_ACQ NumR) 0 eq_refl B) as (_ & E).
  eexists _, _, _, _, _, _, _, _. split; [|split; [exact E|]]; [repeat constructor; lra|].
  repeat (split; [reflexivity|]). split; [lra|]. rewrite dec_jit. apply (ei_zero_far (/ 100000) 0). lra.
Qed.
Print Assumptions C114_ei_refuted.
(** this is so at deviation 0 whatever the best response and the jitter; *)
Theorem C114_zero_deviation : forall (Y mean std v : list R) best j i i' p p', is_best Y best -> 0 < j ->
  acq_ei NumR Phi phi mean std Y j = Ok v -> nth_error std i = Some 0 -> nth_error std i' = Some 0 ->
  nth_error mean i = Some (best + j) -> nth_error mean i' = Some (best + 2 * j) -> nth_error v i = Some p -> nth_error v i' = Some p' -> p < p'.
Proof.
  intros Y mean std v best j i i' p p' B J H S1 S2 M1 M2 V1 V2. destruct (acq_ei_inv _ _ _ _ _ H) as (b & B' & L & PL & P).
  assert (b = best) by exact (same_best _ _ _ B' B). subst b.
  rewrite (P _ _ _ M1 S1) in V1. rewrite (P _ _ _ M2 S2) in V2. injection V1 as <-. injection V2 as <-. now apply ei_zero_far.
Qed.
Print Assumptions C114_zero_deviation.
(** and of two equal means the one with the larger deviation can have the smaller value *)
Theorem C114_ei_deviation_refuted : exists (mean std Y v : list R) s s' p p',
  List.Forall (fun s : R => 0 <= s) std /\ acq_ei NumR Phi phi mean std Y (JITTER_ACQ NumR) = Ok v /\
  nth_error mean 0 = nth_error mean 1 /\
  nth_error std 0 = Some s /\ nth_error std 1 = Some s' /\ nth_error v 0 = Some p /\ nth_error v 1 = Some p' /\ s < s' /\ p' < p.
Proof.
  assert (B : is_best (0 :: nil) 0) by (split; [now left|intros y [<-|[]]; lra]).
  destruct (call_ok Phi phi (/ 10000 :: / 10000 :: nil) (0 :: / 100000 :: nil) (0 :: nil) (JITTER_ACQ NumR) 0 eq_refl B) as (_ & E).
  eexists _, _, _, _, _, _, _, _. split; [|split; [exact E|]]; [repeat constructor; lra|].
  repeat (split; [reflexivity|]). split; [lra|]. rewrite dec_jit. apply (ei_jit_std_dec (/ 100000) 0 (/ 10000) 0 (/ 100000)); lra.
Qed.
Print Assumptions C114_ei_deviation_refuted.

(** pi: a larger deviation is worth more above the best response and less below it *)
Theorem C114_pi_deviation : forall (mean std mean' std' Y v v' : list R) j i i' m s s' p p',
  acq_pi NumR Phi mean std Y j = Ok v -> acq_pi NumR Phi mean' std' Y j = Ok v' ->
  nth_error mean i = Some m -> nth_error std i = Some s -> nth_error v i = Some p ->
  nth_error mean' i' = Some m -> nth_error std' i' = Some s' -> nth_error v' i' = Some p' ->
  0 < s + j -> s < s' -> exists best, is_best Y best /\ (best < m -> p < p') /\ (m < best -> p' < p) /\ (m = best -> p = p').
Proof.
  intros mean std mean' std' Y v v' j i i' m s s' p p' H H' A1 A2 A3 B1 B2 B3 SJ LS.
  destruct (acq_pi_inv _ _ _ _ _ H) as (b & B & L & PL & P). destruct (acq_pi_inv _ _ _ _ _ H') as (b' & B' & L' & PL' & P').
  assert (b = b') by exact (same_best _ _ _ B B'). subst b'.
  rewrite (P _ _ _ A1 A2) in A3. rewrite (P' _ _ _ B1 B2) in B3. injection A3 as <-. injection B3 as <-.
  exists b. split; [exact B|]. split; [now apply pi_std_above|]. split; [now apply pi_std_below|].
  intros ->. unfold pi_formula, Rminus, Rdiv. now rewrite Rplus_opp_r, !Rmult_0_l.
Qed.
Print Assumptions C114_pi_deviation.

(** aei follows ei wherever ei is not negative *)
Theorem C114_aei_partial : forall (mean std mean' std' Y v v' w w' : list R) noise j i i' s s' p p' e e',
  acq_aei NumR Phi phi mean std Y noise j = Ok v -> acq_aei NumR Phi phi mean' std' Y noise j = Ok v' ->
  acq_ei NumR Phi phi mean std Y j = Ok w -> acq_ei NumR Phi phi mean' std' Y j = Ok w' ->
  nth_error std i = Some s -> nth_error std' i' = Some s' -> nth_error v i = Some p -> nth_error v' i' = Some p' ->
  nth_error w i = Some e -> nth_error w' i' = Some e' ->
  0 <= noise -> noise <> 0 \/ s <> 0 -> 0 <= s -> s <= s' -> 0 <= e -> e <= e' -> p <= p'.
Proof.
  intros mean std mean' std' Y v v' w w' noise j i i' s s' p p' e e' H H' HE HE' A1 A1' A2 A2' A3 A3' NN NZ S LS E0 E.
  destruct (acq_ei_inv _ _ _ _ _ HE) as (b & B & L & PL & P). destruct (acq_ei_inv _ _ _ _ _ HE') as (b' & B' & L' & PL' & P').
  assert (b = b') by exact (same_best _ _ _ B B'). subst b'.
  unfold acq_aei in H, H'. rewrite (proj2 (@same_len_true NumR _ _) L), (npmin_best B) in H. rewrite (proj2 (@same_len_true NumR _ _) L'), (npmin_best B) in H'.
  cbn [assert_ rbind] in H, H'. apply Ok_inj in H. apply Ok_inj in H'. subst v v'.
  assert (M : forall (l k : list R) n x, List.length l = List.length k -> nth_error k n = Some x -> exists y, nth_error l n = Some y).
  { intros l k n x LL N. assert (n < List.length l)%nat by (rewrite LL; apply nth_error_Some; congruence).
    destruct (nth_error l n) eqn:Z; [eauto|]. apply nth_error_None in Z. exfalso. apply (PeanoNat.Nat.lt_irrefl n). eapply PeanoNat.Nat.lt_le_trans; eassumption. }
  destruct (M _ _ _ _ L A1) as (m & M1). destruct (M _ _ _ _ L' A1') as (m' & M1').
  rewrite (P _ _ _ M1 A1) in A3. rewrite (P' _ _ _ M1' A1') in A3'. injection A3 as <-. injection A3' as <-.
  assert (Q := aei_mono j noise b m m' s s' NN S LS NZ E0 E). rewrite !aei_is in Q.
  erewrite (@map2_nth NumR) in A2 by eassumption. erewrite (@map2_nth NumR) in A2' by eassumption. injection A2 as <-. injection A2' as <-. cbn in *.
  unfold aei_factor in Q. rewrite <- !Rsqr_pow2 in Q. unfold Rsqr in Q. exact Q.
Qed.
Print Assumptions C114_aei_partial.
Example C114_example : exists v v' w w',
  acq_ei NumR Phi phi [2] [1] [0] (JITTER_ACQ NumR) = Ok v /\ acq_ei NumR Phi phi [1; 3] [2; 1] [0] (JITTER_ACQ NumR) = Ok v' /\
  acq_pi NumR Phi [2] [1] [0] (JITTER_ACQ NumR) = Ok w /\ acq_pi NumR Phi [2] [2] [0] (JITTER_ACQ NumR) = Ok w' /\
  (forall best, is_best [0] best -> JITTER_ACQ NumR * (best - 2)^2 <= 1 * (1 + JITTER_ACQ NumR)^2) /\ is_best [0] 0.
Proof.
  assert (B : is_best [0] 0) by (split; [now left|intros y [<-|[]]; lra]).
  eexists _, _, _, _.
  split; [exact (proj2 (call_ok Phi phi [2] [1] [0] _ 0 eq_refl B))|]. split; [exact (proj2 (call_ok Phi phi [1; 3] [2; 1] [0] _ 0 eq_refl B))|].
  split; [exact (proj1 (call_ok Phi phi [2] [1] [0] _ 0 eq_refl B))|]. split; [exact (proj1 (call_ok Phi phi [2] [2] [0] _ 0 eq_refl B))|].
  split; [|exact B]. intros best H. rewrite dec_jit. rewrite (same_best _ _ _ H B). lra.
Qed.
