(** Properties C17, C42-C47 (acquisition functions).  Exact reals with the normal distribution function [Phi] and
    density [phi] of Gauss.v, except C47 which holds for any arithmetic. *)
From Verif Require Import Base Num UtilsModel UtilsRProofs Gauss AcqModel AcqSpec AcqProofs.
From Coq Require Import Reals Lra List ZArith Bool String.
From Coquelicot Require Import Coquelicot.
Import ListNotations. Local Open Scope list_scope. Local Open Scope R_scope.

(** ** C17 *)
Theorem C17_dispatch : forall noise : option R,
  let choose := choose_fun_acquisition NumR Phi phi ln in
  (exists f, choose "pi"%string noise = Ok f /\ forall mean std Y best, List.length mean = List.length std -> is_best Y best ->
     exists v, f mean std Y = Ok v /\ pointwise (pi_formula (/ 100000) best) mean std v) /\
  (exists f, choose "ei"%string noise = Ok f /\ forall mean std Y best, List.length mean = List.length std -> is_best Y best ->
     exists v, f mean std Y = Ok v /\ pointwise (ei_formula (/ 100000) best) mean std v) /\
  (exists f, choose "ucb"%string noise = Ok f /\ forall mean std Y, List.length mean = List.length std ->
     exists v, f mean std Y = Ok v /\ pointwise (ucb_formula (2 * ln (INR (List.length Y) + 1))) mean std v) /\
  (exists f, choose "pure_exploit"%string noise = Ok f /\ forall mean std Y, f mean std Y = Ok (map Ropp mean)) /\
  (exists f, choose "pure_explore"%string noise = Ok f /\ forall mean std Y, f mean std Y = Ok std).
Proof.
  intros noise choose. exact (conj (choose_pi noise) (conj (choose_ei noise) (conj (choose_ucb noise) (conj (choose_exploit noise) (choose_explore noise))))).
Qed.
Print Assumptions C17_dispatch.
Theorem C17_aei : forall noise : R, exists f, choose_fun_acquisition NumR Phi phi ln "aei" (Some noise) = Ok f /\
  forall mean std Y best, List.length mean = List.length std -> is_best Y best ->
  exists v, f mean std Y = Ok v /\ pointwise (aei_formula (/ 100000) noise best) mean std v.
Proof. exact choose_aei. Qed.
Print Assumptions C17_aei.
Theorem C17_aei_needs_noise : choose_fun_acquisition NumR Phi phi ln "aei" None = Raise AssertionError.
Proof. exact choose_aei_none. Qed.
Theorem C17_rejects : forall s noise, ~ In s ["pi"; "ei"; "ucb"; "aei"; "pure_exploit"; "pure_explore"]%string ->
  choose_fun_acquisition NumR Phi phi ln s noise = Raise AssertionError.
Proof. exact choose_other. Qed.
Print Assumptions C17_rejects.
Example C17_example : is_best [3; 1; 2] 1 /\ ~ In "eii"%string ["pi"; "ei"; "ucb"; "aei"; "pure_exploit"; "pure_explore"]%string.
Proof. split; [split; [cbn; lra|]; intros y [<-|[<-|[<-|[]]]]; lra|cbn; intuition discriminate]. Qed.

(** [Phi] is the normal distribution function *)
Theorem Phi_is_normal_cdf : (forall z, is_derive Phi z (phi z)) /\ is_lim Phi m_infty 0 /\ is_lim Phi p_infty 1.
Proof. exact (conj Phi_derive (conj Phi_lim_m Phi_lim_p)). Qed.
Print Assumptions Phi_is_normal_cdf.

(** ** C42 *)
Lemma acq_pi_inv (mean std Y v : list R) j : acq_pi NumR Phi mean std Y j = Ok v ->
  exists best, is_best Y best /\ List.length mean = List.length std /\ pointwise (pi_formula j best) mean std v.
Proof.
  unfold acq_pi. destruct (same_len NumR mean std) eqn:L; cbn [assert_ rbind]; [|discriminate]. apply same_len_true in L.
  destruct (npmin NumR Y) as [b|] eqn:E; cbn [rbind]; [|discriminate]. intros H. apply Ok_inj in H. subst v.
  exists b. split; [exact (npmin_R _ _ E)|]. split; [exact L|]. exact (@map2_pointwise NumR (pi_formula j b) _ _ L).
Qed.
Theorem C42_pi : forall (mean std Y v : list R) j, acq_pi NumR Phi mean std Y j = Ok v ->
  exists best, is_best Y best /\ List.length v = List.length mean /\
  forall i m s p, nth_error mean i = Some m -> nth_error std i = Some s -> nth_error v i = Some p ->
    0 < p < 1 /\ (0 < s + j -> (p <= 1 / 2 <-> best <= m)).
Proof.
  intros mean std Y v j H. destruct (acq_pi_inv _ _ _ _ _ H) as (best & B & L & PL & P). exists best. split; [exact B|]. split; [exact PL|].
  intros i m s p A1 A2 A3. rewrite (P i m s A1 A2) in A3. injection A3 as <-. split; [apply pi_range|]. apply pi_half.
Qed.
Print Assumptions C42_pi.
(** strictly decreasing in the mean, comparing any two calls with the same responses *)
Theorem C42_decreasing : forall (mean std mean' std' Y v v' : list R) j i i' m m' s p p',
  acq_pi NumR Phi mean std Y j = Ok v -> acq_pi NumR Phi mean' std' Y j = Ok v' ->
  nth_error mean i = Some m -> nth_error std i = Some s -> nth_error v i = Some p ->
  nth_error mean' i' = Some m' -> nth_error std' i' = Some s -> nth_error v' i' = Some p' ->
  0 < s + j -> m < m' -> p' < p.
Proof.
  intros mean std mean' std' Y v v' j i i' m m' s p p' H H' A1 A2 A3 B1 B2 B3 SJ LT.
  destruct (acq_pi_inv _ _ _ _ _ H) as (b & B & L & PL & P). destruct (acq_pi_inv _ _ _ _ _ H') as (b' & B' & L' & PL' & P').
  assert (b = b') by (apply Rle_antisym; [apply B, B'|apply B', B]). subst b'.
  rewrite (P _ _ _ A1 A2) in A3. rewrite (P' _ _ _ B1 B2) in B3. injection A3 as <-. injection B3 as <-. now apply pi_decreasing.
Qed.
Print Assumptions C42_decreasing.

Lemma call_ok (cdf pdf : NumR -> NumR) (mean std Y : list R) (j best : R) : List.length mean = List.length std -> is_best Y best ->
  acq_pi NumR cdf mean std Y j = Ok (map2 NumR (fun m s => cdf (val_z NumR best j m s)) mean std) /\
  acq_ei NumR cdf pdf mean std Y j = Ok (map2 NumR (ei_elt NumR cdf pdf best j) mean std).
Proof.
  intros L B. unfold acq_pi, acq_ei. rewrite (proj2 (@same_len_true NumR _ _) L), (npmin_best B). split; reflexivity.
Qed.
Example C42_example : exists v, acq_pi NumR Phi [0; 2] [1; 3] [3; 1; 2] (/ 100000) = Ok v /\ List.length v = 2%nat.
Proof.
  destruct (call_ok Phi phi [0; 2] [1; 3] [3; 1; 2] (/ 100000) 1 eq_refl (proj1 C17_example)) as (E & _).
  eexists. split; [exact E|reflexivity].
Qed.

(** ** C43, C44 *)
Lemma acq_ei_inv (mean std Y v : list R) j : acq_ei NumR Phi phi mean std Y j = Ok v ->
  exists best, is_best Y best /\ List.length mean = List.length std /\ pointwise (ei_formula j best) mean std v.
Proof.
  unfold acq_ei. destruct (same_len NumR mean std) eqn:L; cbn [assert_ rbind]; [|discriminate]. apply same_len_true in L.
  destruct (npmin NumR Y) as [b|] eqn:E; cbn [rbind]; [|discriminate]. intros H. apply Ok_inj in H. subst v.
  exists b. split; [exact (npmin_R _ _ E)|]. split; [exact L|]. exact (@map2_pointwise NumR (ei_formula j b) _ _ L).
Qed.
(** Finding: with the default jitter the value can be negative (deviation 0, mean above the best response). *)
Theorem C43_refuted : exists (mean std Y v : list R) p,
  List.Forall (fun s : R => 0 <= s) std /\ acq_ei NumR Phi phi mean std Y (JITTER_ACQ NumR) = Ok v /\ nth_error v 0 = Some p /\ p < 0.
Proof.
  exists (1 :: nil), (0 :: nil), (0 :: nil). assert (B : is_best (0 :: nil) 0) by (split; [now left|intros y [<-|[]]; lra]).
  destruct (call_ok Phi phi (1 :: nil) (0 :: nil) (0 :: nil) (JITTER_ACQ NumR) 0 eq_refl B) as (_ & E).
  eexists _, _. split; [repeat constructor; lra|]. split; [exact E|]. split; [reflexivity|].
  rewrite dec_jit. apply (ei_negative (j := / 100000) (best := 0) (m := 1)); lra.
Qed.
Print Assumptions C43_refuted.
(** in fact it is negative at every point of deviation 0 whose mean is above the best response *)
Theorem C43_negative_at_zero_deviation : forall (mean std Y v : list R) j i m p, acq_ei NumR Phi phi mean std Y j = Ok v -> 0 < j ->
  nth_error mean i = Some m -> nth_error std i = Some 0 -> nth_error v i = Some p -> (exists y, In y Y /\ y < m) -> p < 0.
Proof.
  intros mean std Y v j i m p H J A1 A2 A3 (y & Y1 & Y2). destruct (acq_ei_inv _ _ _ _ _ H) as (b & (B1 & B2) & L & PL & P).
  rewrite (P _ _ _ A1 A2) in A3. injection A3 as <-. apply ei_negative; [exact J|]. eapply Rle_lt_trans; [apply B2, Y1|exact Y2].
Qed.
Print Assumptions C43_negative_at_zero_deviation.
(** what holds: non-negative without jitter, or when the mean is not above the best response; missing: a positive jitter
    with a mean above the best response, where C44_lower_bound is the bound that holds *)
Theorem C43_partial : forall (mean std Y v : list R) j, acq_ei NumR Phi phi mean std Y j = Ok v ->
  forall i m s p, nth_error mean i = Some m -> nth_error std i = Some s -> nth_error v i = Some p ->
  0 <= s -> 0 < s + j -> j = 0 \/ (forall y, In y Y -> m <= y) -> 0 <= p.
Proof.
  intros mean std Y v j H i m s p A1 A2 A3 S SJ C. destruct (acq_ei_inv _ _ _ _ _ H) as (b & (B1 & B2) & L & PL & P).
  rewrite (P _ _ _ A1 A2) in A3. injection A3 as <-. destruct C as [-> | C].
  - left. apply ei_pos0. lra.
  - apply ei_nonneg_improving; auto.
Qed.
Print Assumptions C43_partial.

Theorem C44_lower_bound : forall (mean std Y v : list R) j, acq_ei NumR Phi phi mean std Y j = Ok v ->
  exists best, is_best Y best /\ List.length v = List.length mean /\
  forall i m s p, nth_error mean i = Some m -> nth_error std i = Some s -> nth_error v i = Some p -> 0 < s + j ->
    - j * phi ((best - m) / (s + j)) <= p.
Proof.
  intros mean std Y v j H. destruct (acq_ei_inv _ _ _ _ _ H) as (b & B & L & PL & P). exists b. split; [exact B|]. split; [exact PL|].
  intros i m s p A1 A2 A3 SJ. rewrite (P _ _ _ A1 A2) in A3. injection A3 as <-. now apply ei_lower.
Qed.
Print Assumptions C44_lower_bound.
Theorem C44_expectation : forall (mean std Y v : list R), acq_ei NumR Phi phi mean std Y 0 = Ok v ->
  exists best, is_best Y best /\ List.length v = List.length mean /\
  forall i m s p, nth_error mean i = Some m -> nth_error std i = Some s -> nth_error v i = Some p -> 0 < s ->
    expected_improvement best m s p /\ 0 < p /\ best - m < p.
Proof.
  intros mean std Y v H. destruct (acq_ei_inv _ _ _ _ _ H) as (b & B & L & PL & P). exists b. split; [exact B|]. split; [exact PL|].
  intros i m s p A1 A2 A3 SJ. rewrite (P _ _ _ A1 A2) in A3. injection A3 as <-.
  split; [now apply ei_is_expectation|]. split; [now apply ei_pos0|now apply ei_ge_diff].
Qed.
Print Assumptions C44_expectation.
Theorem C44_expectation_unique : forall best m s v v', expected_improvement best m s v -> expected_improvement best m s v' -> v = v'.
Proof. exact expectation_unique. Qed.
Print Assumptions C44_expectation_unique.
Theorem C44_monotone : forall (mean std mean' std' Y v v' : list R) i i' m m' s s' p p',
  acq_ei NumR Phi phi mean std Y 0 = Ok v -> acq_ei NumR Phi phi mean' std' Y 0 = Ok v' ->
  nth_error mean i = Some m -> nth_error std i = Some s -> nth_error v i = Some p ->
  nth_error mean' i' = Some m' -> nth_error std' i' = Some s' -> nth_error v' i' = Some p' ->
  0 < s -> s <= s' -> m' <= m -> p <= p' /\ (s < s' \/ m' < m -> p < p').
Proof.
  intros mean std mean' std' Y v v' i i' m m' s s' p p' H H' A1 A2 A3 B1 B2 B3 S LS LM.
  destruct (acq_ei_inv _ _ _ _ _ H) as (b & B & L & PL & P). destruct (acq_ei_inv _ _ _ _ _ H') as (b' & B' & L' & PL' & P').
  assert (b = b') by (apply Rle_antisym; [apply B, B'|apply B', B]). subst b'.
  rewrite (P _ _ _ A1 A2) in A3. rewrite (P' _ _ _ B1 B2) in B3. injection A3 as <-. injection B3 as <-.
  assert (M1 : ei_formula 0 b m s <= ei_formula 0 b m' s /\ (m' < m -> ei_formula 0 b m s < ei_formula 0 b m' s)).
  { destruct (Req_dec m m') as [-> |]; [split; [lra|]; intros; lra|]. assert (ei_formula 0 b m s < ei_formula 0 b m' s) by (apply ei_dec_mean; lra). split; [lra|tauto]. }
  assert (M2 : ei_formula 0 b m' s <= ei_formula 0 b m' s' /\ (s < s' -> ei_formula 0 b m' s < ei_formula 0 b m' s')).
  { destruct (Req_dec s s') as [-> |]; [split; [lra|]; intros; lra|]. assert (ei_formula 0 b m' s < ei_formula 0 b m' s') by (apply ei_inc_std; lra). split; [lra|tauto]. }
  destruct M1 as (M1 & M1'). destruct M2 as (M2 & M2'). split; [lra|]. intros [C|C]; [specialize (M2' C)|specialize (M1' C)]; lra.
Qed.
Print Assumptions C44_monotone.
Example C44_example : exists v, acq_ei NumR Phi phi [0; 2] [1; 3] [3; 1; 2] 0 = Ok v /\ List.length v = 2%nat.
Proof.
  destruct (call_ok Phi phi [0; 2] [1; 3] [3; 1; 2] 0 1 eq_refl (proj1 C17_example)) as (_ & E).
  eexists. split; [exact E|reflexivity].
Qed.

(** ** C45 *)
Theorem C45_ucb : forall kappa (inc : bool) Yo (mean std : list R), List.length mean = List.length std ->
  exists v, acq_ucb NumR ln mean std Yo kappa inc = Ok v /\
    pointwise (fun m s => - m + (match Yo with Some Y => if inc then kappa * ln (INR (List.length Y) + 1) else kappa | None => kappa end) * s) mean std v.
Proof. exact ucb_value. Qed.
Print Assumptions C45_ucb.
Theorem C45_monotone : forall (kappa : R) (inc : bool) (Y Y' : list R) (mean std mean' std' v v' : list R) i i' m m' s s' p p',
  acq_ucb NumR ln mean std (Some Y) kappa inc = Ok v -> acq_ucb NumR ln mean' std' (Some Y') kappa inc = Ok v' ->
  nth_error mean i = Some m -> nth_error std i = Some s -> nth_error v i = Some p ->
  nth_error mean' i' = Some m' -> nth_error std' i' = Some s' -> nth_error v' i' = Some p' ->
  0 <= kappa -> (List.length Y <= List.length Y')%nat -> m' <= m -> 0 <= s -> s <= s' -> p <= p' /\ (m' < m -> p < p').
Proof.
  intros kappa inc Y Y' mean std mean' std' v v' i i' m m' s s' p p' H H' A1 A2 A3 B1 B2 B3 K LY LM S LS.
  assert (L : List.length mean = List.length std) by (unfold acq_ucb in H; destruct (same_len NumR mean std) eqn:E; [exact (proj1 (@same_len_true NumR _ _) E)|discriminate]).
  assert (L' : List.length mean' = List.length std') by (unfold acq_ucb in H'; destruct (same_len NumR mean' std') eqn:E; [exact (proj1 (@same_len_true NumR _ _) E)|discriminate]).
  destruct (ucb_value kappa inc (Some Y) L) as (w & E & _ & P). rewrite E in H. apply Ok_inj in H. subst w.
  destruct (ucb_value kappa inc (Some Y') L') as (w & E' & _ & P'). rewrite E' in H'. apply Ok_inj in H'. subst w.
  rewrite (P _ _ _ A1 A2) in A3. rewrite (P' _ _ _ B1 B2) in B3. injection A3 as <-. injection B3 as <-.
  set (k := if inc then kappa * ln (INR (List.length Y) + 1) else kappa). set (k' := if inc then kappa * ln (INR (List.length Y') + 1) else kappa).
  assert (0 <= k) by (unfold k; destruct inc; [now apply kappa_nonneg|assumption]).
  assert (k <= k') by (unfold k, k'; destruct inc; [now apply kappa_mono|lra]).
  unfold ucb_formula. split; [nra|]. intros; nra.
Qed.
Print Assumptions C45_monotone.
Example C45_example : exists v, acq_ucb NumR ln [0; 2] [1; 3] (Some [3; 1; 2]) 2 true = Ok v /\ nth_error v 1 = Some (-2 + 2 * ln (3 + 1) * 3).
Proof. eexists. split; reflexivity. Qed.

(** ** C46 *)
Theorem C46_aei : forall (mean std Y v w : list R) (noise j : R),
  acq_aei NumR Phi phi mean std Y noise j = Ok v -> acq_ei NumR Phi phi mean std Y j = Ok w ->
  List.length v = List.length w /\
  forall i s a e, nth_error std i = Some s -> nth_error v i = Some a -> nth_error w i = Some e ->
    0 <= noise -> noise <> 0 \/ s <> 0 ->
    Rabs a <= Rabs e /\ 0 <= a * e /\ (Rabs a = Rabs e <-> noise = 0 \/ e = 0) /\ (s = 0 -> noise > 0 -> a = 0).
Proof.
  intros mean std Y v w noise j H HE. destruct (acq_ei_inv _ _ _ _ _ HE) as (b & B & L & PL & P).
  unfold acq_aei in H. rewrite (proj2 (@same_len_true NumR _ _) L), (npmin_best B) in H. cbn [assert_ rbind] in H. apply Ok_inj in H. subst v.
  split. { rewrite PL. apply (@map2_length NumR). exact L. }
  intros i s a e A2 A3 A4 NN NZ.
  destruct (nth_error mean i) as [m|] eqn:A1.
  2: { apply nth_error_None in A1. assert (nth_error std i = None) by (apply nth_error_None; rewrite <- L; exact A1). congruence. }
  rewrite (P _ _ _ A1 A2) in A4. injection A4 as <-.
  rewrite (@map2_nth NumR _ _ _ _ _ _ A1 A2) in A3. injection A3 as <-.
  match goal with |- context [Rabs ?x <= _] => replace x with (ei_formula j b m s * aei_factor noise s) end.
  2: { unfold aei_factor, nsq. cbn [NumR nmul nsub ndiv nadd nsqrt nofZ]. simpl pow. rewrite !Rmult_1_r. reflexivity. }
  set (e := ei_formula j b m s). set (c := aei_factor noise s).
  assert (C := factor_range NN NZ). assert (C1 := factor_one NN NZ). fold c in C, C1.
  rewrite Rabs_mult, (Rabs_pos_eq c) by lra. assert (Q := Rabs_pos e).
  split; [nra|]. split; [assert (0 <= e * e) by nra; nra|]. split.
  - split.
    + intros E. destruct (Req_dec e 0) as [Z|Z]; [now right|]. left. apply C1. assert (Rabs e <> 0) by now apply Rabs_no_R0. nra.
    + intros [Z|Z]; [rewrite (proj2 C1 Z); ring|rewrite Z, Rabs_R0; ring].
  - intros -> N0. unfold c. rewrite factor_zero by lra. ring.
Qed.
Print Assumptions C46_aei.
Example C46_example : exists v, acq_aei NumR Phi phi [0; 2] [1; 3] [3; 1; 2] (1 / 10) (/ 100000) = Ok v /\ List.length v = 2%nat.
Proof.
  unfold acq_aei. rewrite (@npmin_best [3; 1; 2] 1) by apply C17_example. cbn [assert_ rbind]. eexists. split; reflexivity.
Qed.

(** ** C47, any arithmetic *)
Theorem C47_pointwise : forall (N : Num) (cdf pdf lg : N -> N) name noise f Y,
  choose_fun_acquisition N cdf pdf lg name noise = Ok f ->
  (exists F : N -> N -> N, forall mean std, List.length mean = List.length std ->
     exists v, f mean std Y = Ok v /\ pointwise F mean std v)
  \/ (Y = [] /\ forall mean std, List.length mean = List.length std -> f mean std Y = Raise ValueError).
Proof. intros N cdf pdf lg name noise f Y. apply acq_pointwise. Qed.
Print Assumptions C47_pointwise.
Theorem C47_reorder : forall (N : Num) (cdf pdf lg : N -> N) name noise f Y mean std v mean' std' v' p,
  choose_fun_acquisition N cdf pdf lg name noise = Ok f -> List.length mean = List.length std ->
  f mean std Y = Ok v -> List.length mean' = List.length p -> List.length std' = List.length p ->
  map Some mean' = map (nth_error mean) p -> map Some std' = map (nth_error std) p ->
  f mean' std' Y = Ok v' -> map Some v' = map (nth_error v) p.
Proof. intros N cdf pdf lg name noise f Y mean std v mean' std' v' p. apply acq_reorder. Qed.
Print Assumptions C47_reorder.
Theorem C47_responses : forall (N : Num) (cdf pdf lg : N -> N) name noise f Y Y' mean std,
  choose_fun_acquisition N cdf pdf lg name noise = Ok f -> npmin N Y = npmin N Y' -> List.length Y = List.length Y' ->
  f mean std Y = f mean std Y'.
Proof. intros N cdf pdf lg name noise f Y Y' mean std. apply acq_responses. Qed.
Print Assumptions C47_responses.
Example C47_example : exists f, choose_fun_acquisition NumR Phi phi ln "ei" None = Ok f /\ npmin NumR [3; 1; 2] = npmin NumR [1; 2; 3] /\
  map Some [2; 0; 2] = map (nth_error [0; 2]) [1; 0; 1]%nat.
Proof.
  eexists. split; [reflexivity|]. split; [|reflexivity].
  rewrite (@npmin_best [3; 1; 2] 1) by apply C17_example. symmetry. apply npmin_best. split; [now left|]. intros y [<-|[<-|[<-|[]]]]; lra.
Qed.
