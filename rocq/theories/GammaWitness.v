(** A pair of functions meeting [gamma_contract], so that the theorems assuming it are not vacuous. *)
From Verif Require Import Base Num GradSpec.
From Coq Require Import List ZArith Reals Lra Lia.
From Coquelicot Require Import Coquelicot.
Unset Asymmetric Patterns.
Set Bullet Behavior "Strict Subproofs".
Open Scope R_scope.

Definition bump (x : R) : R := (x - 1) * (x - 2) / 2.
Definition start (x : R) : R := if Rlt_dec x 1 then bump (x + 1) - ln x else bump x.
Fixpoint lg (n : nat) (x : R) : R :=
  match n with
  | O => start x
  | S n => if Rlt_dec x 2 then start x else lg n (x - 1) + ln (x - 1)
  end.

Lemma lg_low n x : x < 2 -> lg n x = start x.
Proof. intros H. destruct n; [reflexivity|]. cbn. destruct (Rlt_dec x 2); [reflexivity|lra]. Qed.
Lemma start_step x : 0 < x < 1 -> start (x + 1) = start x + ln x.
Proof. intros H. unfold start. destruct (Rlt_dec (x + 1) 1), (Rlt_dec x 1); lra. Qed.
Lemma lg_stable n k x : x < INR n + 2 -> lg (n + k) x = lg n x.
Proof.
  revert x. induction n as [|n IH]; intros x H.
  - cbn [INR] in H. rewrite !lg_low by lra. reflexivity.
  - rewrite S_INR in H. cbn. destruct (Rlt_dec x 2); [reflexivity|]. rewrite IH by lra. reflexivity.
Qed.
Lemma lg_step n x : 0 < x -> lg (S n) (x + 1) = lg n x + ln x.
Proof.
  intros H. cbn. destruct (Rlt_dec (x + 1) 2).
  - rewrite start_step by lra. rewrite lg_low by lra. reflexivity.
  - now replace (x + 1 - 1) with x by ring.
Qed.

Lemma glue f a b x l : derivable_pt_lim a x l -> derivable_pt_lim b x l ->
  (forall t, t < x -> f t = a t) -> (forall t, x <= t -> f t = b t) -> a x = b x -> derivable_pt_lim f x l.
Proof.
  intros A B FA FB E eps He. destruct (A eps He) as [d1 H1]. destruct (B eps He) as [d2 H2].
  assert (D : 0 < Rmin d1 d2) by (apply Rmin_glb_lt; [apply d1|apply d2]).
  exists (mkposreal _ D). intros h Hh Hd. cbn in Hd. rewrite (FB x) by lra.
  destruct (Rlt_dec h 0).
  - rewrite (FA (x + h)) by lra. rewrite <- E. apply H1; [exact Hh|]. apply Rlt_le_trans with (1 := Hd). apply Rmin_l.
  - rewrite (FB (x + h)) by lra. apply H2; [exact Hh|]. apply Rlt_le_trans with (1 := Hd). apply Rmin_r.
Qed.
Lemma start_left x : 0 < x -> is_derive (fun t => bump (t + 1) - ln t) x (x - / 2 - / x).
Proof. intros H. unfold bump. auto_derive; [lra|]. field. lra. Qed.
Lemma start_right x : is_derive bump x (x - 3 / 2).
Proof. unfold bump. auto_derive; [trivial|]. field. Qed.
Lemma start_derive x : 0 < x < 2 -> exists l, is_derive start x l.
Proof.
  intros H. destruct (Rlt_dec x 1) as [L|L]; [|destruct (Req_dec x 1) as [->|N]].
  - exists (x - / 2 - / x). apply (is_derive_ext_loc (fun t => bump (t + 1) - ln t)); [|apply start_left; lra].
    assert (D : 0 < 1 - x) by lra. exists (mkposreal _ D). intros t Ht. unfold ball in Ht; cbn in Ht.
    unfold AbsRing_ball, abs, minus, plus, opp in Ht; cbn in Ht. apply Rabs_def2 in Ht. unfold start. destruct (Rlt_dec t 1); lra.
  - exists (- / 2). apply is_derive_Reals.
    apply (glue _ (fun t => bump (t + 1) - ln t) bump).
    + apply is_derive_Reals. replace (- / 2) with (1 - / 2 - / 1) by field. apply start_left. lra.
    + apply is_derive_Reals. replace (- / 2) with (1 - 3 / 2) by field. apply start_right.
    + intros t Ht. unfold start. destruct (Rlt_dec t 1); lra.
    + intros t Ht. unfold start. destruct (Rlt_dec t 1); lra.
    + unfold bump. rewrite ln_1. field.
  - exists (x - 3 / 2). apply (is_derive_ext_loc bump); [|apply start_right].
    assert (D : 0 < x - 1) by lra. exists (mkposreal _ D). intros t Ht. unfold ball in Ht; cbn in Ht.
    unfold AbsRing_ball, abs, minus, plus, opp in Ht; cbn in Ht. apply Rabs_def2 in Ht. unfold start. destruct (Rlt_dec t 1); lra.
Qed.
Lemma lg_derive n x : 0 < x < INR n + 2 -> exists l, is_derive (lg n) x l.
Proof.
  revert x. induction n as [|n IH]; intros x H.
  - apply start_derive. cbn [INR] in H. lra.
  - rewrite S_INR in H. destruct (Rlt_dec 1 x) as [L|L].
    + destruct (IH (x - 1)) as [l Hl]; [lra|]. exists (l + / (x - 1)).
      apply (is_derive_ext_loc (fun t => lg n (t - 1) + ln (t - 1))).
      * assert (D : 0 < x - 1) by lra. exists (mkposreal _ D). intros t Ht. unfold ball in Ht; cbn [pos] in Ht; cbn in Ht.
        unfold AbsRing_ball, abs, minus, plus, opp in Ht; cbn in Ht. apply Rabs_def2 in Ht.
        replace t with (t - 1 + 1) at 3 by ring. now rewrite lg_step by lra.
      * assert (A : is_derive (fun t => lg n (t - 1)) x l).
        { evar_last; [apply (is_derive_comp (lg n) (fun t => t - 1) x l 1); [exact Hl|]|].
          - auto_derive; [trivial|ring].
          - unfold scal; cbn. unfold mult; cbn. ring. }
        assert (B : is_derive (fun t => ln (t - 1)) x (/ (x - 1))).
        { auto_derive; [lra|]. field. lra. }
        exact (is_derive_plus (fun t => lg n (t - 1)) (fun t => ln (t - 1)) x l (/ (x - 1)) A B).
    + destruct (start_derive x) as [l Hl]; [lra|]. exists l.
      apply (is_derive_ext_loc start); [|exact Hl].
      assert (D : 0 < 2 - x) by lra. exists (mkposreal _ D). intros t Ht. unfold ball in Ht; cbn in Ht.
      unfold AbsRing_ball, abs, minus, plus, opp in Ht; cbn in Ht. apply Rabs_def2 in Ht. symmetry. apply lg_low. lra.
Qed.

Definition depth (x : R) : nat := Z.to_nat (up x).
Lemma depth_above x : 0 < x -> x < INR (depth x) + 1.
Proof.
  intros H. destruct (archimed x) as [A _]. unfold depth. rewrite INR_IZR_INZ, Z2Nat.id; [lra|].
  apply le_IZR. lra.
Qed.
Definition lgamma (x : R) : R := lg (depth x) x.
Definition some_gamma (x : R) : R := exp (lgamma x).
Definition some_digamma (x : R) : R := Derive lgamma x.

Lemma lgamma_eq n x : 0 < x < INR n + 2 -> lgamma x = lg n x.
Proof.
  intros H. unfold lgamma. assert (D := depth_above x (proj1 H)).
  transitivity (lg (depth x + n) x); [symmetry; apply lg_stable; lra|]. rewrite Nat.add_comm. apply lg_stable. lra.
Qed.
Theorem some_gamma_ok : gamma_contract some_gamma some_digamma.
Proof.
  intros x Hx. unfold some_gamma. split; [apply exp_pos|]. assert (D := depth_above x Hx). split.
  - rewrite (lgamma_eq (S (depth x)) (x + 1)) by (rewrite S_INR; lra). rewrite lg_step by exact Hx.
    rewrite exp_plus, exp_ln by exact Hx. unfold lgamma. ring.
  - apply is_derive_Reals. destruct (lg_derive (depth x) x) as [l Hl]; [lra|].
    assert (A : is_derive lgamma x l).
    { apply (is_derive_ext_loc (lg (depth x))); [|exact Hl].
      assert (P : 0 < Rmin x 1) by (apply Rmin_glb_lt; lra). exists (mkposreal _ P). intros t Ht. unfold ball in Ht; cbn in Ht.
      unfold AbsRing_ball, abs, minus, plus, opp in Ht; cbn in Ht. apply Rabs_def2 in Ht.
      assert (Q1 := Rmin_l x 1). assert (Q2 := Rmin_r x 1). symmetry. apply lgamma_eq. lra. }
    unfold some_digamma. rewrite (is_derive_unique _ _ _ A).
    evar_last; [apply (is_derive_comp exp lgamma x (exp (lgamma x)) l); [apply is_derive_exp|exact A]|].
    unfold scal; cbn. unfold mult; cbn. ring.
Qed.
