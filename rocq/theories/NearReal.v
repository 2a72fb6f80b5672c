(** Averages of repeated measurements as linear predictors, and the behaviour of the kernels at small distances. *)
From Verif Require Import Base Num UtilsSpec HypsModel CovModel KernelSpec CovSpec CovProofs GPModel GPSpec PredSpec NearSpec.
From Coq Require Import List Reals Lra Lia Arith String Bool.
From Coquelicot Require Import Coquelicot.
Import ListNotations.
Open Scope R_scope.
Set Implicit Arguments.
Unset Asymmetric Patterns.

(** ** sums over a selection *)
Lemma Rsum_ext_in (f g : nat -> R) l : (forall i, In i l -> f i = g i) -> Rsum (map f l) = Rsum (map g l).
Proof. intros H. f_equal. now apply map_ext_in. Qed.
Lemma Rsum_scale (c : R) (f : nat -> R) l : Rsum (map (fun i => c * f i) l) = c * Rsum (map f l).
Proof. induction l as [|a l IH]; cbn [map Rsum]; [ring|]. rewrite IH. ring. Qed.
Lemma Rsum_const_in (a : R) (P : nat -> bool) l : Rsum (map (fun i => if P i then a else 0) l) = INR (List.length (filter P l)) * a.
Proof.
  induction l as [|i l IH]; [cbn; ring|]. cbn [map Rsum filter]. rewrite IH. destruct (P i); [|ring].
  cbn [List.length]. rewrite S_INR. ring.
Qed.
Lemma Rsum_single (f : nat -> R) n i : (i < n)%nat -> Rsum (map (fun j => if Nat.eqb i j then f j else 0) (seq 0 n)) = f i.
Proof.
  intros H. rewrite (Rsum_ext_in _ (fun j => if Nat.eqb i j then f i else 0)).
  - rewrite Rsum_const_in. replace (List.length (filter (Nat.eqb i) (seq 0 n))) with 1%nat; [cbn; ring|].
    replace n with (i + (1 + (n - i - 1)))%nat by lia. rewrite !seq_app, !filter_app, !app_length. cbn [seq filter plus].
    rewrite Nat.eqb_refl. cbn [List.length].
    assert (Z : forall a b, (forall j, In j (seq a b) -> i <> j) -> List.length (filter (Nat.eqb i) (seq a b)) = 0%nat).
    { intros a b. generalize (seq a b) as l. induction l as [|x l IH]; intros G; [reflexivity|]. cbn [filter].
      destruct (Nat.eqb_spec i x) as [E|_]; [exfalso; exact (G x (or_introl eq_refl) E)|]. apply IH. intros j Hj. apply G. now right. }
    rewrite !Z; [reflexivity| |]; intros j Hj; apply in_seq in Hj; lia.
  - intros j _. destruct (Nat.eqb_spec i j) as [->|]; reflexivity.
Qed.
Lemma selection_length (I : list nat) n : NoDup I -> (forall i, In i I -> (i < n)%nat) ->
  List.length (filter (fun i => existsb (Nat.eqb i) I) (seq 0 n)) = List.length I.
Proof.
  intros ND H. apply Nat.le_antisymm; apply NoDup_incl_length.
  - apply NoDup_filter, seq_NoDup.
  - intros i Hi. apply filter_In in Hi. destruct Hi as [_ E]. apply existsb_exists in E. destruct E as [j [Hj E]]. apply Nat.eqb_eq in E. now subst.
  - exact ND.
  - intros i Hi. apply filter_In. split; [apply in_seq; specialize (H i Hi); lia|]. apply existsb_exists. exists i. split; [exact Hi|apply Nat.eqb_refl].
Qed.

(** ** the average of the measurements at [e] as a predictor of the value at [z] *)
Lemma average_error K t X e k z : (forall a b, K a b = K b a) -> measured X e k -> (0 < k)%nat -> exists u,
  squared_error K t (alen X) (elem_nth X) u z = kernel_gap K e z + t / INR k.
Proof.
  intros KS [I [ND [L H]]] Hk. assert (Pk : INR k <> 0) by (apply not_0_INR; lia).
  set (P := fun i => existsb (Nat.eqb i) I). exists (fun i => if P i then / INR k else 0).
  assert (E : forall i, P i = true -> elem_nth X i = e).
  { intros i Hi. apply existsb_exists in Hi. destruct Hi as [j [Hj Q]]. apply Nat.eqb_eq in Q. subst j. exact (proj2 (H i Hj)). }
  assert (CT : List.length (filter P (seq 0 (alen X))) = k).
  { rewrite <- L. apply selection_length; [exact ND|]. intros i Hi. exact (proj1 (H i Hi)). }
  unfold squared_error, kernel_gap.
  rewrite (Rsum_ext_in _ (fun i => if P i then / INR k * K e z else 0)), Rsum_const_in, CT.
  2:{ intros i _. destruct (P i) eqn:Q; [rewrite (E i Q); reflexivity|ring]. }
  rewrite (Rsum_ext_in _ (fun i => if P i then / INR k * K e e + / INR k * / INR k * t else 0)), Rsum_const_in, CT.
  - field. exact Pk.
  - intros i Hi. apply in_seq in Hi. destruct (P i) eqn:Q.
    + rewrite (Rsum_ext_in _ (fun j => (if P j then / INR k * / INR k * K e e else 0) + (if Nat.eqb i j then (if P j then / INR k * / INR k * t else 0) else 0))).
      * assert (SP : forall (f g : nat -> R) l, Rsum (map (fun j => f j + g j) l) = Rsum (map f l) + Rsum (map g l)).
        { intros f g l. induction l as [|a l IH]; cbn [map Rsum]; [ring|]. rewrite IH. ring. }
        rewrite SP, Rsum_const_in, CT, (Rsum_single (fun j => if P j then / INR k * / INR k * t else 0)) by lia. rewrite Q. field. exact Pk.
      * intros j _. destruct (P j) eqn:Qj; [rewrite (E i Q), (E j Qj)|]; destruct (Nat.eqb i j); ring.
    + rewrite (Rsum_ext_in _ (fun j => 0 * 0)); [rewrite Rsum_scale; ring|]. intros j _. ring.
Qed.

(** ** the profiles at small distances *)
Lemma grows (f f' : R -> R) (u : R) : 0 <= u -> f 0 = 0 -> (forall v, is_derive f v (f' v)) -> (forall v, 0 <= v -> 0 <= f' v) -> 0 <= f u.
Proof.
  intros Hu F0 D G. destruct (Req_dec u 0) as [->|N]; [lra|].
  destruct (MVT_gen f 0 u f') as [c [[Hc1 Hc2] E]].
  - intros x _. apply D.
  - intros x _. apply continuity_pt_filterlim. apply (ex_derive_continuous f x). exists (f' x). apply D.
  - rewrite Rmin_left in Hc1 by lra. assert (P := G c Hc1). rewrite F0 in E. assert (0 <= f' c * (u - 0)) by (apply Rmult_le_pos; lra). lra.
Qed.
Lemma exp_low u : 1 - u <= exp (- u).
Proof. destruct (Req_dec u 0) as [->|N]; [rewrite Ropp_0, exp_0; lra|]. left. replace (1 - u) with (1 + - u) by ring. apply exp_ineq1. lra. Qed.
Lemma one_u u : 0 <= u -> (1 + u) * exp (- u) <= 1.
Proof.
  intros Hu. assert (E := exp_ineq1_le u). rewrite exp_Ropp. assert (P := exp_pos u).
  apply (Rmult_le_reg_r (exp u)); [exact P|]. rewrite Rmult_assoc, Rinv_l by lra. lra.
Qed.
Lemma m32_low u : 0 <= u -> 1 - u * u / 2 <= (1 + u) * exp (- u).
Proof.
  intros Hu. cut (0 <= (1 + u) * exp (- u) - 1 + u * u / 2); [lra|].
  apply (@grows (fun v => (1 + v) * exp (- v) - 1 + v * v / 2) (fun v => v * (1 - exp (- v)))); [exact Hu| | |].
  - rewrite Ropp_0, exp_0. lra.
  - intros v. auto_derive; [exact I|]. field.
  - intros v Hv. apply Rmult_le_pos; [exact Hv|]. assert (exp (- v) <= exp 0) by (destruct (Req_dec v 0) as [->|]; [rewrite Ropp_0; lra|left; apply exp_increasing; lra]). rewrite exp_0 in *. lra.
Qed.
Lemma m52_low u : 0 <= u -> 1 - u * u / 6 <= (1 + u + u * u / 3) * exp (- u).
Proof.
  intros Hu. cut (0 <= (1 + u + u * u / 3) * exp (- u) - 1 + u * u / 6); [lra|].
  apply (@grows (fun v => (1 + v + v * v / 3) * exp (- v) - 1 + v * v / 6) (fun v => v / 3 * (1 - (1 + v) * exp (- v)))); [exact Hu| | |].
  - rewrite Ropp_0, exp_0. lra.
  - intros v. auto_derive; [exact I|]. field.
  - intros v Hv. apply Rmult_le_pos; [lra|]. assert (Q := one_u Hv). lra.
Qed.
Lemma profile_low name p r : profile_of name = Some p -> 0 <= r -> 1 - curvature name / 2 * (r * r) <= p r.
Proof.
  unfold profile_of, curvature. intros E Hr.
  destruct ((name =? "eq") || (name =? "se"))%string eqn:N1.
  { injection E as <-. assert (name = "eq" \/ name = "se")%string as [-> | ->] by (apply orb_true_iff in N1; destruct N1 as [N1|N1]; apply String.eqb_eq in N1; auto);
    cbn; unfold se_profile; assert (L := exp_low (r * r / 2)); replace (- (r * r) / 2) with (- (r * r / 2)) by field; lra. }
  destruct (name =? "matern32")%string eqn:N2.
  { injection E as <-. unfold matern32_profile. assert (P := Rmult_le_pos _ _ (sqrt_pos 3) Hr). assert (L := m32_low P).
    replace (sqrt 3 * r * (sqrt 3 * r)) with (3 * (r * r)) in L by (rewrite <- (sqrt_sqrt 3) at 1 by lra; ring). lra. }
  destruct (name =? "matern52")%string eqn:N3; [|discriminate].
  injection E as <-. unfold matern52_profile. assert (P := Rmult_le_pos _ _ (sqrt_pos 5) Hr). assert (L := m52_low P).
  replace (sqrt 5 * r * (sqrt 5 * r)) with (5 * (r * r)) in L by (rewrite <- (sqrt_sqrt 5) at 1 by lra; ring).
  replace (5 / 3 * (r * r)) with (5 * (r * r) / 3) by field. lra.
Qed.
Lemma profile_at_0 name p : profile_of name = Some p -> p 0 = 1.
Proof.
  unfold profile_of. intros E.
  destruct ((name =? "eq") || (name =? "se"))%string; [|destruct (name =? "matern32")%string; [|destruct (name =? "matern52")%string; [|discriminate]]];
    injection E as <-; unfold se_profile, matern32_profile, matern52_profile; rewrite ?Rmult_0_r; replace (- 0 / 2) with 0 by field; rewrite ?Ropp_0, exp_0; lra.
Qed.
Lemma scaled_sq_self f d x : scaled_sq f d x x = 0.
Proof.
  unfold scaled_sq. rewrite (Rsum_ext_in _ (fun i => 0 * 0)); [rewrite Rsum_scale; ring|].
  intros i _. unfold Rdiv. rewrite Rminus_diag_eq by reflexivity. cbv zeta. ring.
Qed.
Lemma gap_points name p ls s d K x y : profile_of name = Some p -> cov_of name ls s d = Some K ->
  kernel_gap K (EPoint x) (EPoint y) <= s * s * curvature name * (scaled_dist (ls_at ls) d x y * scaled_dist (ls_at ls) d x y).
Proof.
  intros P E. unfold cov_of in E. rewrite P in E. injection E as <-. unfold kernel_gap, base_kernel. cbn [point].
  unfold scaled_dist at 1 3. rewrite !scaled_sq_self, sqrt_0, !(profile_at_0 _ P).
  set (r := scaled_dist (ls_at ls) d x y). assert (Hr : 0 <= r) by apply sqrt_pos. assert (L := profile_low _ P Hr).
  assert (S := Rle_0_sqr s). unfold Rsqr in S. nra.
Qed.
