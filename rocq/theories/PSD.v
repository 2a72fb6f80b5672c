(** Positive semidefinite kernels: closure properties; the squared exponential and the two Matern
    profiles are positive semidefinite in every dimension. *)
From Verif Require Import Base UtilsSpec UtilsRProofs KernelSpec Gauss.
From Coq Require Import List Reals Lra Lia.
From Coquelicot Require Import Coquelicot.
Import ListNotations.
Open Scope R_scope.
Set Implicit Arguments.
Unset Strict Implicit.

Section Closure.
Context {T : Type}.
Implicit Types (k : T -> T -> R) (l : list (R * T)).

Lemma qform_ext k k' l : (forall x y, k x y = k' x y) -> qform k l = qform k' l.
Proof.
  intros H. unfold qform. apply Rsum_map_ext. intros p _. apply Rsum_map_ext. intros q _. now rewrite H.
Qed.
Lemma psd_ext k k' : (forall x y, k x y = k' x y) -> psd k -> psd k'.
Proof. intros H P l. rewrite <- (qform_ext l H). apply P. Qed.

Lemma qform_plus k k' l : qform (fun x y => k x y + k' x y) l = qform k l + qform k' l.
Proof.
  unfold qform. rewrite <- Rsum_map_plus. apply Rsum_map_ext. intros p _.
  rewrite <- Rsum_map_plus. apply Rsum_map_ext. intros q _. ring.
Qed.
Lemma qform_scal c k l : qform (fun x y => c * k x y) l = c * qform k l.
Proof.
  unfold qform. rewrite <- Rsum_map_scal. apply Rsum_map_ext. intros p _.
  rewrite <- Rsum_map_scal. apply Rsum_map_ext. intros q _. ring.
Qed.
Lemma psd_plus k k' : psd k -> psd k' -> psd (fun x y => k x y + k' x y).
Proof. intros P P' l. rewrite qform_plus. specialize (P l). specialize (P' l). lra. Qed.
Lemma psd_scal c k : 0 <= c -> psd k -> psd (fun x y => c * k x y).
Proof. intros H P l. rewrite qform_scal. apply Rmult_le_pos; [assumption|apply P]. Qed.

Lemma qform_feature (f : T -> R) l :
  qform (fun x y => f x * f y) l = (Rsum (map (fun p => fst p * f (snd p)) l)) ^ 2.
Proof.
  unfold qform. set (s := Rsum (map (fun p => fst p * f (snd p)) l)).
  rewrite (Rsum_map_ext _ (fun p => s * (fst p * f (snd p)))).
  - rewrite Rsum_map_scal. fold s. ring.
  - intros p _. unfold s.
    rewrite (Rsum_map_ext _ (fun q => (fst p * f (snd p)) * (fst q * f (snd q)))).
    + rewrite Rsum_map_scal. ring.
    + intros q _. ring.
Qed.
Lemma psd_feature f : psd (fun x y : T => f x * f y).
Proof. intros l. rewrite qform_feature. apply pow2_ge_0. Qed.

Lemma psd_zero : psd (fun _ _ : T => 0).
Proof.
  intros l. unfold qform. apply Rsum_map_nonneg. intros p _. apply Rsum_map_nonneg. intros q _. lra.
Qed.

(** finitely many features *)
Definition Feat k := exists fs : list (T -> R), forall x y, k x y = Rsum (map (fun f => f x * f y) fs).

Lemma Feat_psd k : Feat k -> psd k.
Proof.
  intros [fs H]. apply (@psd_ext (fun x y => Rsum (map (fun f => f x * f y) fs))).
  { intros. now rewrite H. }
  clear H. induction fs as [|f fs IH]; cbn [map Rsum].
  - apply psd_zero.
  - apply psd_plus; [apply psd_feature|apply IH].
Qed.

Lemma Rsum_map_flat {A B} (h : A -> B -> R) (la : list A) (lb : list B) (g : B -> R) (f : A -> R) :
  Rsum (map f la) * Rsum (map g lb)
  = Rsum (map (fun ab => f (fst ab) * g (snd ab)) (list_prod la lb)).
Proof.
  induction la as [|a la IH]; cbn [map Rsum list_prod]; [ring|].
  rewrite map_app, Rsum_app, <- IH, map_map. cbn [fst snd]. rewrite Rsum_map_scal. ring.
Qed.

Lemma Feat_mult k k' : Feat k -> Feat k' -> Feat (fun x y => k x y * k' x y).
Proof.
  intros [fs H] [gs G].
  exists (map (fun fg x => fst fg x * snd fg x) (list_prod fs gs)). intros x y.
  rewrite H, G, (@Rsum_map_flat _ _ (fun _ _ => 0)), map_map. apply Rsum_map_ext. intros fg _. ring.
Qed.
Lemma Feat_one : Feat (fun _ _ => 1).
Proof. exists ((fun _ => 1) :: nil). intros. cbn. ring. Qed.
Lemma Feat_pow k n : Feat k -> Feat (fun x y => k x y ^ n).
Proof.
  intros H. induction n as [|n IH]; cbn [pow]; [apply Feat_one|]. now apply Feat_mult.
Qed.

Lemma qform_lim (kn : nat -> T -> T -> R) k l :
  (forall x y, is_lim_seq (fun n => kn n x y) (k x y)) -> is_lim_seq (fun n => qform (kn n) l) (qform k l).
Proof.
  intros H. unfold qform.
  assert (G : forall (A : Type) (F : nat -> A -> R) (f : A -> R) (m : list A),
             (forall a, is_lim_seq (fun n => F n a) (f a)) ->
             is_lim_seq (fun n => Rsum (map (F n) m)) (Rsum (map f m))).
  { intros A F f m Hm. induction m as [|a m IH]; cbn [map Rsum].
    - apply is_lim_seq_const.
    - apply is_lim_seq_plus'; [apply Hm|apply IH]. }
  apply (G _ (fun n p => Rsum (map (fun q => fst p * fst q * kn n (snd p) (snd q)) l))).
  intros p. apply (G _ (fun n q => fst p * fst q * kn n (snd p) (snd q))).
  intros q. apply is_lim_seq_mult'; [apply is_lim_seq_const|apply H].
Qed.
Lemma psd_lim (kn : nat -> T -> T -> R) k :
  (forall x y, is_lim_seq (fun n => kn n x y) (k x y)) -> (forall n, psd (kn n)) -> psd k.
Proof.
  intros H P l. pose proof (@qform_lim kn k l H) as L.
  apply (is_lim_seq_le (fun _ => 0) (fun n => qform (kn n) l) 0 (qform k l)).
  - intros n. apply P.
  - apply is_lim_seq_const.
  - exact L.
Qed.

Lemma psd_conj (f : T -> R) k : psd k -> psd (fun x y => f x * f y * k x y).
Proof.
  intros P l. specialize (P (map (fun p => (fst p * f (snd p), snd p)) l)).
  unfold qform in *. rewrite map_map in P. cbn [fst snd] in P.
  replace (Rsum _) with
    (Rsum (map (fun p => Rsum (map (fun q => fst q * f (snd q) * (fst p * f (snd p)) * k (snd q) (snd p)) l)) l)) in P.
  - eapply Rle_trans; [exact P|]. right.
    (* both double sums run over the same pairs *)
    assert (SW : forall (A B : Type) (F : A -> B -> R) (m : list A) (m' : list B),
               Rsum (map (fun a => Rsum (map (fun b => F a b) m')) m)
               = Rsum (map (fun b => Rsum (map (fun a => F a b) m)) m')).
    { clear. intros A B F m m'. induction m as [|a m IH]; cbn [map Rsum].
      - induction m' as [|b m' IH]; cbn [map Rsum]; [reflexivity|]. rewrite <- IH. ring.
      - rewrite IH, <- Rsum_map_plus. reflexivity. }
    rewrite SW. apply Rsum_map_ext. intros p _. apply Rsum_map_ext. intros q _. ring.
  - assert (SW : forall (A B : Type) (F : A -> B -> R) (m : list A) (m' : list B),
               Rsum (map (fun a => Rsum (map (fun b => F a b) m')) m)
               = Rsum (map (fun b => Rsum (map (fun a => F a b) m)) m')).
    { clear. intros A B F m m'. induction m as [|a m IH]; cbn [map Rsum].
      - induction m' as [|b m' IH]; cbn [map Rsum]; [reflexivity|]. rewrite <- IH. ring.
      - rewrite IH, <- Rsum_map_plus. reflexivity. }
    rewrite SW. apply Rsum_map_ext. intros p _. rewrite map_map. apply Rsum_map_ext. intros q _. reflexivity.
Qed.
End Closure.

Lemma psd_comp {T T' : Type} (g : T -> T') (k : T' -> T' -> R) : psd k -> psd (fun x y => k (g x) (g y)).
Proof.
  intros P l. specialize (P (map (fun p => (fst p, g (snd p))) l)). unfold qform in *.
  rewrite map_map in P. cbn [fst snd] in P. erewrite Rsum_map_ext; [exact P|].
  intros p _. cbv beta. rewrite map_map. reflexivity.
Qed.

(** sums over pairs may be exchanged *)
Lemma Rsum_swap {A B} (F : A -> B -> R) (m : list A) (m' : list B) :
  Rsum (map (fun a => Rsum (map (fun b => F a b) m')) m)
  = Rsum (map (fun b => Rsum (map (fun a => F a b) m)) m').
Proof.
  induction m as [|a m IH]; cbn [map Rsum].
  - induction m' as [|b m' IH]; cbn [map Rsum]; [reflexivity|]. rewrite <- IH. ring.
  - rewrite IH, <- Rsum_map_plus. reflexivity.
Qed.

(** ** the squared exponential *)
Definition dotp (ls : nat -> R) (d : nat) (x y : list R) : R :=
  Rsum (map (fun i => (nth i x 0 / ls i) * (nth i y 0 / ls i)) (seq 0 d)).

Lemma dotp_Feat ls d : Feat (dotp ls d).
Proof.
  exists (map (fun i x => nth i x 0 / ls i) (seq 0 d)). intros x y. unfold dotp. now rewrite map_map.
Qed.
Lemma scaled_sq_dotp ls d x y : scaled_sq ls d x y = dotp ls d x x + dotp ls d y y - 2 * dotp ls d x y.
Proof.
  unfold scaled_sq, dotp. induction (seq 0 d) as [|i s IH]; cbn [map Rsum]; [ring|].
  cbv zeta in *. rewrite IH. unfold Rdiv. ring.
Qed.

Lemma psd_exp {T} (k : T -> T -> R) : Feat k -> psd (fun x y => exp (k x y)).
Proof.
  intros F.
  apply (@psd_lim T (fun n x y => sum_n (fun j => k x y ^ j * / INR (fact j)) n)).
  - intros x y. pose proof (is_exp_Reals (k x y)) as H. unfold is_pseries, is_series in H.
    unfold is_lim_seq. cbn [Rbar_locally].
    eapply filterlim_ext; [|exact H]. intros n. apply sum_n_ext. intros j.
    rewrite pow_n_pow. reflexivity.
  - intros n. induction n as [|n IH].
    + apply (@psd_ext T (fun x y => / INR (fact 0) * k x y ^ 0)).
      * intros x y. rewrite sum_O. ring.
      * apply psd_scal; [left; apply Rinv_0_lt_compat, INR_fact_lt_0|]. apply Feat_psd, Feat_pow, F.
    + apply (@psd_ext T (fun x y => sum_n (fun j => k x y ^ j * / INR (fact j)) n
                                    + / INR (fact (S n)) * k x y ^ (S n))).
      * intros x y. rewrite sum_Sn. unfold plus; cbn [AbelianGroup.plus]. cbn -[pow fact INR sum_n]. ring.
      * apply psd_plus; [exact IH|].
        apply psd_scal; [left; apply Rinv_0_lt_compat, INR_fact_lt_0|]. apply Feat_psd, Feat_pow, F.
Qed.

Lemma Feat_scal {T} c (k : T -> T -> R) : 0 <= c -> Feat k -> Feat (fun x y => c * k x y).
Proof.
  intros Hc [fs H]. exists (map (fun f x => sqrt c * f x) fs). intros x y. rewrite H, map_map, <- Rsum_map_scal.
  apply Rsum_map_ext. intros f _. replace c with (sqrt c * sqrt c) at 1 by now apply sqrt_sqrt. ring.
Qed.

Lemma psd_gauss s ls d : 0 <= s -> psd (fun x y => exp (- (s * scaled_sq ls d x y))).
Proof.
  intros Hs.
  apply (@psd_ext _ (fun x y => exp (- (s * dotp ls d x x)) * exp (- (s * dotp ls d y y))
                                * exp (2 * s * dotp ls d x y))).
  - intros x y. rewrite <- !exp_plus. f_equal. rewrite scaled_sq_dotp. ring.
  - apply (@psd_conj _ (fun x => exp (- (s * dotp ls d x x))) (fun x y => exp (2 * s * dotp ls d x y))).
    apply psd_exp. apply Feat_scal; [lra|]. apply dotp_Feat.
Qed.

(** ** the Matern profiles as mixtures of squared exponentials *)
Section Mixture.
Let w : R := sqrt (2 * PI).
Lemma w_pos : 0 < w. Proof. apply s2pi_pos. Qed.

Definition EE (c v : R) : R := exp (- (v * v / 2) - c * c / (2 * (v * v))).
Definition H2 (c v : R) : R :=
  w * (1 - c) / 2 * exp c * Phi (v + c / v) + w * (1 + c) / 2 * exp (- c) * Phi (v - c / v) - v * EE c v.
Definition H4 (c v : R) : R :=
  w * (3 - 3 * c + c * c) / 2 * exp c * Phi (v + c / v)
  + w * (3 + 3 * c + c * c) / 2 * exp (- c) * Phi (v - c / v) - (3 * v + v * v * v) * EE c v.

Lemma phi_p (c v : R) : v <> 0 -> exp c * phi (v + c / v) = EE c v / w.
Proof.
  intros Hv. unfold phi, EE, w, Rdiv. rewrite <- Rmult_assoc, <- exp_plus. f_equal. f_equal. field. exact Hv.
Qed.
Lemma phi_m (c v : R) : v <> 0 -> exp (- c) * phi (v - c / v) = EE c v / w.
Proof.
  intros Hv. unfold phi, EE, w, Rdiv. rewrite <- Rmult_assoc, <- exp_plus. f_equal. f_equal. field. exact Hv.
Qed.
Lemma EE_derive (c v : R) : v <> 0 -> is_derive (EE c) v ((- v + c * c / (v * v * v)) * EE c v).
Proof.
  intros Hv. unfold EE at 1.
  apply (is_derive_comp exp (fun u => - (u * u / 2) - c * c / (2 * (u * u))) v (EE c v)).
  - apply is_derive_exp.
  - auto_derive.
    + repeat split; try exact Logic.I. intros K. apply Hv. nra.
    + field. exact Hv.
Qed.
Lemma Phip_derive (c v : R) : v <> 0 -> is_derive (fun u => Phi (u + c / u)) v ((1 - c / (v * v)) * phi (v + c / v)).
Proof.
  intros Hv. apply (is_derive_comp Phi (fun u => u + c / u) v (phi (v + c / v)) (1 - c / (v * v))).
  - apply Phi_derive.
  - auto_derive; [exact Hv|]. field. exact Hv.
Qed.
Lemma Phim_derive (c v : R) : v <> 0 -> is_derive (fun u => Phi (u - c / u)) v ((1 + c / (v * v)) * phi (v - c / v)).
Proof.
  intros Hv. apply (is_derive_comp Phi (fun u => u - c / u) v (phi (v - c / v)) (1 + c / (v * v))).
  - apply Phi_derive.
  - auto_derive; [exact Hv|]. field. exact Hv.
Qed.

Lemma H_derive (a b : R) (q dq : R -> R) (c v : R) : v <> 0 ->
  is_derive q v (dq v) ->
  is_derive (fun u => a * exp c * Phi (u + c / u) + b * exp (- c) * Phi (u - c / u) - q u * EE c u) v
    (EE c v * ((a * (1 - c / (v * v)) + b * (1 + c / (v * v))) / w
               - dq v - q v * (- v + c * c / (v * v * v)))).
Proof.
  intros Hv Hq.
  assert (D : is_derive (fun u => a * exp c * Phi (u + c / u) + b * exp (- c) * Phi (u - c / u) - q u * EE c u) v
    (a * exp c * ((1 - c / (v * v)) * phi (v + c / v)) + b * exp (- c) * ((1 + c / (v * v)) * phi (v - c / v))
     - (dq v * EE c v + q v * ((- v + c * c / (v * v * v)) * EE c v)))).
  { apply (is_derive_minus (fun u => a * exp c * Phi (u + c / u) + b * exp (- c) * Phi (u - c / u)) (fun u => q u * EE c u)).
    - apply (is_derive_plus (fun u => a * exp c * Phi (u + c / u)) (fun u => b * exp (- c) * Phi (u - c / u))).
      + apply (is_derive_scal (fun u => Phi (u + c / u)) v (a * exp c)). now apply Phip_derive.
      + apply (is_derive_scal (fun u => Phi (u - c / u)) v (b * exp (- c))). now apply Phim_derive.
    - apply (is_derive_mult q (EE c) v (dq v)); [exact Hq|now apply EE_derive|intros; apply Rmult_comm]. }
  replace (EE c v * _) with (a * exp c * ((1 - c / (v * v)) * phi (v + c / v)) + b * exp (- c) * ((1 + c / (v * v)) * phi (v - c / v))
     - (dq v * EE c v + q v * ((- v + c * c / (v * v * v)) * EE c v))); [exact D|].
  replace (a * exp c * ((1 - c / (v * v)) * phi (v + c / v)))
    with (a * (1 - c / (v * v)) * (exp c * phi (v + c / v))) by ring.
  replace (b * exp (- c) * ((1 + c / (v * v)) * phi (v - c / v)))
    with (b * (1 + c / (v * v)) * (exp (- c) * phi (v - c / v))) by ring.
  rewrite phi_p, phi_m by exact Hv. pose proof w_pos. field. split; [exact Hv|lra].
Qed.

Lemma H2_derive (c v : R) : v <> 0 -> is_derive (H2 c) v (v * v * EE c v).
Proof.
  intros Hv. pose proof w_pos as W. unfold H2.
  assert (Q : is_derive (fun u : R => u) v ((fun _ => 1) v)) by (auto_derive; trivial; ring).
  pose proof (@H_derive (w * (1 - c) / 2) (w * (1 + c) / 2) (fun u => u) (fun _ => 1) c v Hv Q) as D.
  cbv beta in D. replace (v * v * EE c v) with (EE c v *
          ((w * (1 - c) / 2 * (1 - c / (v * v)) + w * (1 + c) / 2 * (1 + c / (v * v))) / w - 1 -
           v * (- v + c * c / (v * v * v)))) by (field; split; [exact Hv|lra]).
  exact D.
Qed.
Lemma H4_derive (c v : R) : v <> 0 -> is_derive (H4 c) v (v * v * (v * v) * EE c v).
Proof.
  intros Hv. pose proof w_pos as W. unfold H4.
  assert (Q : is_derive (fun u : R => 3 * u + u * u * u) v ((fun u => 3 + 3 * (u * u)) v))
    by (auto_derive; trivial; ring).
  pose proof (@H_derive (w * (3 - 3 * c + c * c) / 2) (w * (3 + 3 * c + c * c) / 2)
               (fun u => 3 * u + u * u * u) (fun u => 3 + 3 * (u * u)) c v Hv Q) as D.
  cbv beta in D.
  match type of D with is_derive _ _ ?e => replace (v * v * (v * v) * EE c v) with e by (field; split; [exact Hv|lra]) end.
  exact D.
Qed.

Let up (n : nat) : R := INR n + 1.
Let lo (n : nat) : R := / (INR n + 1).
Lemma up_pos n : 1 <= up n. Proof. unfold up. pose proof (pos_INR n). lra. Qed.
Lemma lo_pos n : 0 < lo n <= 1.
Proof.
  unfold lo. pose proof (up_pos n) as U. unfold up in U. split.
  - apply Rinv_0_lt_compat. lra.
  - rewrite <- Rinv_1. apply Rinv_le_contravar; lra.
Qed.
Lemma up_lim : is_lim_seq up p_infty.
Proof.
  unfold up. apply (is_lim_seq_plus INR (fun _ => 1) p_infty 1).
  - apply is_lim_seq_INR.
  - apply is_lim_seq_const.
  - reflexivity.
Qed.
Lemma lo_lim : is_lim_seq lo 0.
Proof.
  apply (is_lim_seq_inv up p_infty); [apply up_lim|discriminate].
Qed.

Lemma exp_ge_sq (x : R) : 0 <= x -> x * x / 4 <= exp x.
Proof.
  intros Hx. replace x with (x / 2 + x / 2) at 3 by field. rewrite exp_plus.
  pose proof (exp_ineq1_le (x / 2)). assert (0 <= 1 + x / 2) by lra.
  apply Rle_trans with ((1 + x / 2) * (1 + x / 2)); [nra|]. apply Rmult_le_compat; lra.
Qed.
Lemma EE_pos c v : 0 < EE c v. Proof. apply exp_pos. Qed.
Lemma EE_le c v : 1 <= v -> EE c v <= 16 / (v * v * (v * v)).
Proof.
  intros Hv. unfold EE.
  apply Rle_trans with (exp (- (v * v / 2))).
  - assert (0 <= c * c / (2 * (v * v))).
    { apply Rmult_le_pos; [nra|]. left. apply Rinv_0_lt_compat. nra. }
    destruct (Req_dec (- (v * v / 2) - c * c / (2 * (v * v))) (- (v * v / 2))) as [->|]; [lra|].
    left. apply exp_increasing. lra.
  - rewrite exp_Ropp. pose proof (@exp_ge_sq (v * v / 2) ltac:(nra)) as Q.
    apply Rle_trans with (/ (v * v / 2 * (v * v / 2) / 4)).
    + apply Rinv_le_contravar; [|exact Q]. assert (1 <= v * v) by nra. assert (1 <= (v * v) * (v * v)) by nra. lra.
    + right. field. lra.
Qed.
Lemma EE_le1 c v : EE c v <= 1.
Proof.
  unfold EE. rewrite <- exp_0.
  assert (- (v * v / 2) - c * c / (2 * (v * v)) <= 0).
  { assert (0 <= c * c / (2 * (v * v))).
    { destruct (Req_dec v 0) as [->|Hv].
      - rewrite !Rmult_0_r. unfold Rdiv. rewrite Rinv_0. lra.
      - apply Rmult_le_pos; [nra|]. left. apply Rinv_0_lt_compat. nra. }
    nra. }
  destruct (Req_dec (- (v * v / 2) - c * c / (2 * (v * v))) 0) as [->|]; [lra|].
  left. apply exp_increasing. lra.
Qed.

Lemma tail_up (q : R -> R) c : (forall v, 1 <= v -> 0 <= q v <= 4 * (v * v * v)) ->
  is_lim_seq (fun n => q (up n) * EE c (up n)) 0.
Proof.
  intros Hq. apply (is_lim_seq_le_le (fun _ => 0) _ (fun n => 64 * / up n)).
  - intros n. pose proof (up_pos n) as U. pose proof (Hq _ U) as [A B]. pose proof (EE_pos c (up n)) as P.
    pose proof (@EE_le c _ U) as L. split.
    + apply Rmult_le_pos; lra.
    + apply Rle_trans with (4 * (up n * up n * up n) * (16 / (up n * up n * (up n * up n)))).
      * apply Rmult_le_compat; lra.
      * right. field. lra.
  - apply is_lim_seq_const.
  - replace (Finite 0) with (Finite (64 * 0)) by (f_equal; ring).
    apply (is_lim_seq_mult' (fun _ => 64) (fun n => / up n) 64 0); [apply is_lim_seq_const|].
    apply (is_lim_seq_inv up p_infty); [apply up_lim|discriminate].
Qed.
Lemma tail_lo (q : R -> R) c : (forall v, 0 < v <= 1 -> 0 <= q v <= 4 * v) ->
  is_lim_seq (fun n => q (lo n) * EE c (lo n)) 0.
Proof.
  intros Hq. apply (is_lim_seq_le_le (fun _ => 0) _ (fun n => 4 * lo n)).
  - intros n. pose proof (lo_pos n) as U. pose proof (Hq _ U) as [A B]. pose proof (EE_pos c (lo n)) as P.
    pose proof (EE_le1 c (lo n)) as L. split.
    + apply Rmult_le_pos; lra.
    + apply Rle_trans with (4 * lo n * 1); [|lra]. apply Rmult_le_compat; lra.
  - apply is_lim_seq_const.
  - replace (Finite 0) with (Finite (4 * 0)) by (f_equal; ring).
    apply (is_lim_seq_mult' (fun _ => 4) lo 4 0); [apply is_lim_seq_const|apply lo_lim].
Qed.

Lemma Phi_seq_p u : is_lim_seq u p_infty -> is_lim_seq (fun n => Phi (u n)) 1.
Proof.
  intros H. apply (is_lim_comp_seq Phi u p_infty 1); [apply Phi_lim_p| |exact H].
  exists 0%nat. intros n _. discriminate.
Qed.
Lemma Phi_seq_m u : is_lim_seq u m_infty -> is_lim_seq (fun n => Phi (u n)) 0.
Proof.
  intros H. apply (is_lim_comp_seq Phi u m_infty 0); [apply Phi_lim_m| |exact H].
  exists 0%nat. intros n _. discriminate.
Qed.
Lemma Phi_seq_c u (x : R) : is_lim_seq u x -> is_lim_seq (fun n => Phi (u n)) (Phi x).
Proof.
  intros H. apply (is_lim_seq_continuous Phi u x); [|exact H].
  apply derivable_continuous_pt. exists (phi x). apply is_derive_Reals, Phi_derive.
Qed.

Lemma div_up c : is_lim_seq (fun n => c / up n) 0.
Proof.
  replace (Finite 0) with (Finite (c * 0)) by (f_equal; ring).
  apply (is_lim_seq_mult' (fun _ => c) (fun n => / up n) c 0); [apply is_lim_seq_const|].
  apply (is_lim_seq_inv up p_infty); [apply up_lim|discriminate].
Qed.
Lemma p_up c : is_lim_seq (fun n => up n + c / up n) p_infty.
Proof. apply (is_lim_seq_plus up _ p_infty 0); [apply up_lim|apply div_up|reflexivity]. Qed.
Lemma m_up c : is_lim_seq (fun n => up n - c / up n) p_infty.
Proof. apply (is_lim_seq_minus up _ p_infty 0); [apply up_lim|apply div_up|reflexivity]. Qed.
Lemma div_lo c : 0 < c -> is_lim_seq (fun n => c / lo n) p_infty.
Proof.
  intros Hc. apply (is_lim_seq_ext (fun n => c * up n)).
  - intros n. unfold lo. pose proof (up_pos n) as U. unfold up in *. field. lra.
  - replace p_infty with (Rbar_mult c p_infty).
    + apply (is_lim_seq_scal_l up c p_infty). apply up_lim.
    + cbn. destruct (Rle_dec 0 c) as [r|]; [|lra]. destruct (Rle_lt_or_eq_dec 0 c r); [reflexivity|lra].
Qed.
Lemma p_lo c : 0 < c -> is_lim_seq (fun n => lo n + c / lo n) p_infty.
Proof. intros H. apply (is_lim_seq_plus lo _ 0 p_infty); [apply lo_lim|now apply div_lo|reflexivity]. Qed.
Lemma m_lo c : 0 < c -> is_lim_seq (fun n => lo n - c / lo n) m_infty.
Proof. intros H. apply (is_lim_seq_minus lo _ 0 p_infty); [apply lo_lim|now apply div_lo|reflexivity]. Qed.

(** the increments of the antiderivatives over ]1/n, n[ tend to the profile *)
Lemma H_lim (a b : R) (q : R -> R) c : 0 <= c -> (c = 0 -> a = b) ->
  (forall v, 1 <= v -> 0 <= q v <= 4 * (v * v * v)) -> (forall v, 0 < v <= 1 -> 0 <= q v <= 4 * v) ->
  let H v := a * exp c * Phi (v + c / v) + b * exp (- c) * Phi (v - c / v) - q v * EE c v in
  is_lim_seq (fun n => H (up n) - H (lo n)) (b * exp (- c)).
Proof.
  intros Hc Hab Q1 Q2 H.
  assert (U : is_lim_seq (fun n => H (up n)) (a * exp c * 1 + b * exp (- c) * 1 - 0)).
  { unfold H. apply is_lim_seq_minus'; [apply is_lim_seq_plus'|].
    - apply is_lim_seq_mult'; [apply is_lim_seq_const|]. apply Phi_seq_p, p_up.
    - apply is_lim_seq_mult'; [apply is_lim_seq_const|]. apply Phi_seq_p, m_up.
    - now apply tail_up. }
  destruct (Rle_lt_or_eq_dec 0 c Hc) as [Hp|Hz].
  - assert (L : is_lim_seq (fun n => H (lo n)) (a * exp c * 1 + b * exp (- c) * 0 - 0)).
    { unfold H. apply is_lim_seq_minus'; [apply is_lim_seq_plus'|].
      - apply is_lim_seq_mult'; [apply is_lim_seq_const|]. now apply Phi_seq_p, p_lo.
      - apply is_lim_seq_mult'; [apply is_lim_seq_const|]. now apply Phi_seq_m, m_lo.
      - now apply tail_lo. }
    pose proof (is_lim_seq_minus' _ _ _ _ U L) as D.
    replace (b * exp (- c)) with (a * exp c * 1 + b * exp (- c) * 1 - 0 - (a * exp c * 1 + b * exp (- c) * 0 - 0)) by ring.
    exact D.
  - assert (L : is_lim_seq (fun n => H (lo n)) (a * exp c * Phi 0 + b * exp (- c) * Phi 0 - 0)).
    { unfold H. apply is_lim_seq_minus'; [apply is_lim_seq_plus'|].
      - apply is_lim_seq_mult'; [apply is_lim_seq_const|]. apply Phi_seq_c.
        apply (is_lim_seq_ext lo); [|apply lo_lim]. intros n. rewrite <- Hz. unfold Rdiv. ring.
      - apply is_lim_seq_mult'; [apply is_lim_seq_const|]. apply Phi_seq_c.
        apply (is_lim_seq_ext lo); [|apply lo_lim]. intros n. rewrite <- Hz. unfold Rdiv. ring.
      - now apply tail_lo. }
    pose proof (is_lim_seq_minus' _ _ _ _ U L) as D.
    replace (b * exp (- c)) with (a * exp c * 1 + b * exp (- c) * 1 - 0 - (a * exp c * Phi 0 + b * exp (- c) * Phi 0 - 0)).
    { exact D. }
    rewrite Phi_0, (Hab (eq_sym Hz)), <- Hz, Ropp_0. field.
Qed.
Lemma H2_lim c : 0 <= c -> is_lim_seq (fun n => H2 c (up n) - H2 c (lo n)) (w / 2 * ((1 + c) * exp (- c))).
Proof.
  intros Hc. replace (w / 2 * ((1 + c) * exp (- c))) with (w * (1 + c) / 2 * exp (- c)) by (unfold Rdiv; ring).
  apply (@H_lim (w * (1 - c) / 2) (w * (1 + c) / 2) (fun v => v) c); try assumption.
  - intros ->. unfold Rdiv; ring.
  - intros v Hv. split; [lra|]. nra.
  - intros v Hv. lra.
Qed.
Lemma H4_lim c : 0 <= c -> is_lim_seq (fun n => H4 c (up n) - H4 c (lo n)) (w / 2 * ((3 + 3 * c + c * c) * exp (- c))).
Proof.
  intros Hc. replace (w / 2 * ((3 + 3 * c + c * c) * exp (- c))) with (w * (3 + 3 * c + c * c) / 2 * exp (- c)) by (unfold Rdiv; ring).
  apply (@H_lim (w * (3 - 3 * c + c * c) / 2) (w * (3 + 3 * c + c * c) / 2) (fun v => 3 * v + v * v * v) c); try assumption.
  - intros ->. unfold Rdiv; ring.
  - intros v Hv. assert (1 <= v * v) by nra. assert (v <= v * v * v) by nra. nra.
  - intros v Hv. assert (v * v <= 1) by nra. assert (0 <= v * v * v <= v) by nra. lra.
Qed.

(** a mixture of positive semidefinite kernels *)
Lemma mix_psd {T} (c : T -> T -> R) (p : R -> R) (H : R -> R -> R) :
  (forall c v, v <> 0 -> is_derive (H c) v (p v * EE c v)) ->
  (forall v, continuous p v) -> (forall v, 0 <= p v) ->
  (forall s, 0 <= s -> psd (fun x y => exp (- (s * (c x y * c x y))))) ->
  forall e m : R, 0 < e -> e <= m -> psd (fun x y => H (c x y) m - H (c x y) e).
Proof.
  intros HD Cp Pp PS e m He Hem l.
  assert (S1 : forall (A : Type) (F : A -> R -> R) (I : A -> R) (k : list A),
             (forall a, is_RInt (F a) e m (I a)) ->
             is_RInt (fun v => Rsum (map (fun a => F a v) k)) e m (Rsum (map I k))).
  { intros A F I k Hk. induction k as [|a k IH]; cbn [map Rsum].
    - pose proof (is_RInt_const (V := R_NormedModule) e m 0) as Z.
      change (is_RInt (fun _ : R => 0) e m ((m - e) * 0)) in Z. rewrite Rmult_0_r in Z. exact Z.
    - apply (is_RInt_plus (V := R_NormedModule) (F a) (fun v => Rsum (map (fun a => F a v) k))); [apply Hk|exact IH]. }
  assert (B : forall x y, is_RInt (fun v => p v * EE (c x y) v) e m (H (c x y) m - H (c x y) e)).
  { intros x y. apply (is_RInt_derive (V := R_CompleteNormedModule) (H (c x y))).
    - intros v Hv. rewrite Rmin_left in Hv by exact Hem. apply HD. lra.
    - intros v Hv. rewrite Rmin_left in Hv by exact Hem.
      apply (continuous_mult p (EE (c x y)) v); [apply Cp|].
      apply (ex_derive_continuous (V := R_NormedModule)). eexists. apply EE_derive. lra. }
  assert (Q : is_RInt (fun v => qform (fun x y => p v * EE (c x y) v) l) e m
                (qform (fun x y => H (c x y) m - H (c x y) e) l)).
  { unfold qform.
    apply (S1 _ (fun pp v => Rsum (map (fun q => fst pp * fst q * (p v * EE (c (snd pp) (snd q)) v)) l))).
    intros pp. apply (S1 _ (fun q v => fst pp * fst q * (p v * EE (c (snd pp) (snd q)) v))).
    intros q. apply (is_RInt_scal (V := R_NormedModule) (fun v => p v * EE (c (snd pp) (snd q)) v)). apply B. }
  rewrite <- (is_RInt_unique _ _ _ _ Q). apply RInt_ge_0; [exact Hem|eexists; exact Q|].
  intros v Hv. rewrite (@qform_ext _ _ (fun x y => p v * exp (- (v * v / 2)) * exp (- (/ (2 * (v * v)) * (c x y * c x y))))).
  - rewrite (@qform_scal _ (p v * exp (- (v * v / 2)))). apply Rmult_le_pos.
    + apply Rmult_le_pos; [apply Pp|]. left. apply exp_pos.
    + apply PS. left. apply Rinv_0_lt_compat. nra.
  - intros x y. unfold EE. rewrite Rmult_assoc, <- exp_plus. f_equal. f_equal. field. lra.
Qed.

Lemma matern32_mix {T} (c : T -> T -> R) : (forall x y, 0 <= c x y) ->
  (forall s, 0 <= s -> psd (fun x y => exp (- (s * (c x y * c x y))))) ->
  psd (fun x y => (1 + c x y) * exp (- c x y)).
Proof.
  intros Hc PS. pose proof w_pos as W.
  apply (@psd_ext _ (fun x y => 2 / w * (w / 2 * ((1 + c x y) * exp (- c x y))))).
  - intros x y. field. lra.
  - apply psd_scal; [left; apply Rdiv_lt_0_compat; lra|].
    apply (@psd_lim _ (fun n x y => H2 (c x y) (up n) - H2 (c x y) (lo n))).
    + intros x y. apply H2_lim, Hc.
    + intros n. apply (@mix_psd _ c (fun v => v * v) H2).
      * intros. now apply H2_derive.
      * intros v. apply (ex_derive_continuous (V := R_NormedModule)). auto_derive. trivial.
      * intros v. nra.
      * exact PS.
      * apply lo_pos.
      * pose proof (lo_pos n). pose proof (up_pos n). lra.
Qed.
Lemma matern52_mix {T} (c : T -> T -> R) : (forall x y, 0 <= c x y) ->
  (forall s, 0 <= s -> psd (fun x y => exp (- (s * (c x y * c x y))))) ->
  psd (fun x y => (1 + c x y + c x y * c x y / 3) * exp (- c x y)).
Proof.
  intros Hc PS. pose proof w_pos as W.
  apply (@psd_ext _ (fun x y => 2 / (3 * w) * (w / 2 * ((3 + 3 * c x y + c x y * c x y) * exp (- c x y))))).
  - intros x y. field. lra.
  - apply psd_scal; [left; apply Rdiv_lt_0_compat; lra|].
    apply (@psd_lim _ (fun n x y => H4 (c x y) (up n) - H4 (c x y) (lo n))).
    + intros x y. apply H4_lim, Hc.
    + intros n. apply (@mix_psd _ c (fun v => v * v * (v * v)) H4).
      * intros. now apply H4_derive.
      * intros v. apply (ex_derive_continuous (V := R_NormedModule)). auto_derive. trivial.
      * intros v. nra.
      * exact PS.
      * apply lo_pos.
      * pose proof (lo_pos n). pose proof (up_pos n). lra.
Qed.
End Mixture.

(** ** the kernels of the library, on points with [d] coordinates *)
Lemma scaled_sq_nonneg ls d x y : 0 <= scaled_sq ls d x y.
Proof. apply Rsum_map_nonneg. intros i _. cbv zeta. apply Rle_0_sqr. Qed.
Lemma scaled_dist_sq ls d x y : scaled_dist ls d x y * scaled_dist ls d x y = scaled_sq ls d x y.
Proof. apply sqrt_sqrt, scaled_sq_nonneg. Qed.

Theorem se_psd ls d : psd (fun x y => se_profile (scaled_dist ls d x y)).
Proof.
  apply (@psd_ext _ (fun x y => exp (- (/ 2 * scaled_sq ls d x y)))).
  - intros x y. unfold se_profile. rewrite scaled_dist_sq. f_equal. field.
  - apply psd_gauss. lra.
Qed.
Theorem matern32_psd ls d : psd (fun x y => matern32_profile (scaled_dist ls d x y)).
Proof.
  apply (@matern32_mix _ (fun x y => sqrt 3 * scaled_dist ls d x y)).
  - intros. apply Rmult_le_pos; apply sqrt_pos.
  - intros s Hs. apply (@psd_ext _ (fun x y => exp (- (s * 3 * scaled_sq ls d x y)))).
    + intros x y. f_equal. f_equal. rewrite <- scaled_dist_sq.
      replace 3 with (sqrt 3 * sqrt 3) at 1 by (apply sqrt_sqrt; lra). ring.
    + apply psd_gauss. lra.
Qed.
Theorem matern52_psd ls d : psd (fun x y => matern52_profile (scaled_dist ls d x y)).
Proof.
  apply (@psd_ext _ (fun x y => (1 + sqrt 5 * scaled_dist ls d x y
       + (sqrt 5 * scaled_dist ls d x y) * (sqrt 5 * scaled_dist ls d x y) / 3) * exp (- (sqrt 5 * scaled_dist ls d x y)))).
  { intros x y. unfold matern52_profile. f_equal. f_equal.
    set (r := scaled_dist ls d x y). replace (sqrt 5 * r * (sqrt 5 * r)) with (sqrt 5 * sqrt 5 * (r * r)) by ring.
    rewrite sqrt_sqrt by lra. field. }
  apply (@matern52_mix _ (fun x y => sqrt 5 * scaled_dist ls d x y)).
  - intros. apply Rmult_le_pos; apply sqrt_pos.
  - intros s Hs. apply (@psd_ext _ (fun x y => exp (- (s * 5 * scaled_sq ls d x y)))).
    + intros x y. f_equal. f_equal. rewrite <- scaled_dist_sq.
      replace 5 with (sqrt 5 * sqrt 5) at 1 by (apply sqrt_sqrt; lra). ring.
    + apply psd_gauss. lra.
Qed.

(** averages over pairs of elements of finite sets *)
Theorem set_average_psd {T} (k : T -> T -> R) : psd k -> psd (set_average k).
Proof.
  intros P l.
  pose (spread := flat_map (fun p => map (fun x => (fst p / INR (List.length (snd p)), x)) (snd p)) l).
  specialize (P spread). replace (qform (set_average k) l) with (qform k spread); [exact P|].
  assert (F : forall (g : R * T -> R), Rsum (map g spread)
      = Rsum (map (fun p => Rsum (map (fun x => g (fst p / INR (List.length (snd p)), x)) (snd p))) l)).
  { intros g. unfold spread. clear P spread. induction l as [|p l IH]; cbn [flat_map map Rsum]; [reflexivity|].
    rewrite map_app, Rsum_app, IH, map_map. reflexivity. }
  unfold qform. rewrite F. apply Rsum_map_ext. intros p _. cbn [fst snd].
  rewrite (Rsum_map_ext _ (fun x => Rsum (map (fun q => Rsum (map (fun y =>
     fst p / INR (List.length (snd p)) * (fst q / INR (List.length (snd q))) * k x y) (snd q))) l))).
  2:{ intros x _. rewrite F. reflexivity. }
  rewrite Rsum_swap. apply Rsum_map_ext. intros q _. unfold set_average.
  destruct p as [cp xs], q as [cq ys]. cbn [fst snd].
  rewrite (Rsum_map_ext _ (fun x => (cp / INR (List.length xs) * (cq / INR (List.length ys)))
             * Rsum (map (fun y => k x y) ys))).
  2:{ intros x _. rewrite <- Rsum_map_scal. reflexivity. }
  rewrite Rsum_map_scal. unfold Rdiv.
  destruct xs as [|x xs]; [cbn; ring|]. destruct ys as [|y ys].
  { rewrite (Rsum_map_ext _ (fun _ => 0)) by reflexivity. rewrite Rsum_const. ring. }
  rewrite Rinv_mult. ring.
Qed.
