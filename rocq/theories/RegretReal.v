(** Real analysis and counting for the regret bounds: averages of close measurements, cells of a box, the pigeonhole
    principle, and growth of powers of logarithms. *)
From Verif Require Import Base Num UtilsSpec HypsModel CovModel KernelSpec CovSpec CovProofs GPModel GPSpec PredSpec NearSpec NearReal RegretSpec.
From Coq Require Import List Reals Lra Lia Arith String Bool Classical ZArith.
Import ListNotations.
Open Scope R_scope.
Set Implicit Arguments.
Unset Asymmetric Patterns.
Set Bullet Behavior "Strict Subproofs".

Lemma Rsum_plus (A : Type) (f g : A -> R) l : Rsum (map (fun j => f j + g j) l) = Rsum (map f l) + Rsum (map g l).
Proof. induction l as [|a l IH]; cbn [map Rsum]; [ring|]. rewrite IH. ring. Qed.
Lemma Rsum_mul (A : Type) (c : R) (f : A -> R) l : Rsum (map (fun i => c * f i) l) = c * Rsum (map f l).
Proof. induction l as [|a l IH]; cbn [map Rsum]; [ring|]. rewrite IH. ring. Qed.
Lemma Rsum_le (A : Type) (f g : A -> R) l : (forall i, In i l -> f i <= g i) -> Rsum (map f l) <= Rsum (map g l).
Proof.
  induction l as [|a l IH]; intros H; cbn [map Rsum]; [lra|]. assert (f a <= g a) by (apply H; now left).
  assert (Rsum (map f l) <= Rsum (map g l)) by (apply IH; intros i Hi; apply H; now right). lra.
Qed.

(** ** the average of the measurements at inputs close to [z] *)
Lemma near_error K t X (I : list nat) z v g : NoDup I -> (0 < List.length I)%nat ->
  (forall i, In i I -> (i < alen X)%nat) ->
  (forall i, In i I -> v - g / 2 <= K (elem_nth X i) z) -> (forall i j, K (elem_nth X i) (elem_nth X j) <= v) -> K z z <= v ->
  exists u, squared_error K t (alen X) (elem_nth X) u z <= g + t / INR (List.length I).
Proof.
  intros ND Hk HX HZ HK HV. set (k := List.length I) in *. assert (Pk : 0 < INR k) by (apply lt_0_INR; lia). assert (Ik : 0 < / INR k) by now apply Rinv_0_lt_compat.
  set (P := fun i => existsb (Nat.eqb i) I). exists (fun i => if P i then / INR k else 0).
  assert (PI : forall i, P i = true -> In i I).
  { intros i Hi. apply existsb_exists in Hi. destruct Hi as [j [Hj Q]]. apply Nat.eqb_eq in Q. now subst. }
  assert (CT : List.length (filter P (seq 0 (alen X))) = k) by (apply selection_length; assumption).
  unfold squared_error.
  assert (A1 : v - g / 2 <= Rsum (map (fun i => (if P i then / INR k else 0) * K (elem_nth X i) z) (seq 0 (alen X)))).
  { replace (v - g / 2) with (Rsum (map (fun i => if P i then / INR k * (v - g / 2) else 0) (seq 0 (alen X)))).
    - apply Rsum_le. intros i _. destruct (P i) eqn:Q; [|lra]. apply Rmult_le_compat_l; [lra|]. apply HZ, PI, Q.
    - rewrite Rsum_const_in, CT. field. lra. }
  assert (A2 : Rsum (map (fun i => Rsum (map (fun j => (if P i then / INR k else 0) * (if P j then / INR k else 0) * (K (elem_nth X i) (elem_nth X j) + (if Nat.eqb i j then t else 0))) (seq 0 (alen X)))) (seq 0 (alen X))) <= v + t / INR k).
  { apply Rle_trans with (Rsum (map (fun i => if P i then / INR k * v + / INR k * / INR k * t else 0) (seq 0 (alen X)))).
    - apply Rsum_le. intros i Hi. apply in_seq in Hi. destruct (P i) eqn:Q.
      + apply Rle_trans with (Rsum (map (fun j => (if P j then / INR k * / INR k * v else 0) + (if Nat.eqb i j then (if P j then / INR k * / INR k * t else 0) else 0)) (seq 0 (alen X)))).
        * apply Rsum_le. intros j _. assert (L := HK i j). assert (0 < / INR k * / INR k) by now apply Rmult_lt_0_compat.
          destruct (P j), (Nat.eqb i j); nra.
        * rewrite Rsum_plus, Rsum_const_in, CT, (Rsum_single (fun j => if P j then / INR k * / INR k * t else 0)) by lia. rewrite Q. right. field. lra.
      + rewrite (Rsum_ext_in _ (fun j => 0 * 0)); [rewrite Rsum_scale; lra|]. intros j _. ring.
    - rewrite Rsum_const_in, CT. right. field. lra. }
  lra.
Qed.

(** ** sums of squares *)
Lemma cauchy (A : Type) (f g : A -> R) l : Rsum (map (fun i => f i * g i) l) * Rsum (map (fun i => f i * g i) l) <= Rsum (map (fun i => f i * f i) l) * Rsum (map (fun i => g i * g i) l).
Proof.
  assert (Q : forall u, 0 <= Rsum (map (fun i => f i * f i) l) * u * u - 2 * u * Rsum (map (fun i => f i * g i) l) + Rsum (map (fun i => g i * g i) l)).
  { intros u. replace (_ - _ + _) with (Rsum (map (fun i => (u * f i - g i) * (u * f i - g i)) l)).
    - clear. induction l as [|a l IH]; cbn [map Rsum]; [lra|]. assert (S := Rle_0_sqr (u * f a - g a)). unfold Rsqr in S. lra.
    - clear. induction l as [|a l IH]; cbn [map Rsum]; [ring|]. rewrite IH. ring. }
  set (a := Rsum (map (fun i => f i * f i) l)) in *. set (b := Rsum (map (fun i => f i * g i) l)) in *. set (c := Rsum (map (fun i => g i * g i) l)) in *.
  assert (Pa : 0 <= a). { unfold a. clear. induction l as [|x l IH]; cbn [map Rsum]; [lra|]. assert (S := Rle_0_sqr (f x)). unfold Rsqr in S. lra. }
  assert (Pc : 0 <= c). { assert (q := Q 0). lra. }
  destruct (Req_dec a 0) as [Z|NZ].
  - assert (b = 0).
    { destruct (Req_dec b 0) as [|Nb]; [assumption|]. exfalso. assert (q := Q ((c + 1) / (2 * b))). rewrite Z in q.
      replace (0 * ((c + 1) / (2 * b)) * ((c + 1) / (2 * b)) - 2 * ((c + 1) / (2 * b)) * b + c) with (-1) in q by (field; exact Nb). lra. }
    rewrite H, Z. lra.
  - assert (q := Q (b / a)). replace (a * (b / a) * (b / a) - 2 * (b / a) * b + c) with (c - b * b / a) in q by (field; exact NZ).
    assert (b * b / a <= c) by lra. apply (Rmult_le_compat_l a) in H; [|exact Pa]. replace (a * (b * b / a)) with (b * b) in H by (field; exact NZ). exact H.
Qed.

(** ** cells *)
Definition cell1 (q : nat) (b : R * R) (v : R) : nat :=
  match find (fun i => if Rle_dec v (fst b + (INR i + 1) * ((snd b - fst b) / INR q)) then true else false) (seq 0 q) with Some i => i | None => 0%nat end.
Lemma cell1_ok q b v : (0 < q)%nat -> fst b <= v <= snd b -> (cell1 q b v < q)%nat /\
  fst b + INR (cell1 q b v) * ((snd b - fst b) / INR q) <= v <= fst b + (INR (cell1 q b v) + 1) * ((snd b - fst b) / INR q).
Proof.
  intros Hq Hv. assert (Pq : 0 < INR q) by (apply lt_0_INR; lia). set (w := (snd b - fst b) / INR q).
  assert (W : INR q * w = snd b - fst b) by (unfold w; field; lra).
  set (p := fun i => if Rle_dec v (fst b + (INR i + 1) * w) then true else false).
  unfold cell1. fold w. fold p.
  assert (G : forall k a, (exists i, In i (seq a k) /\ p i = true) -> (forall i, (i < a)%nat -> p i = false) ->
    exists i, find p (seq a k) = Some i /\ (i < a + k)%nat /\ p i = true /\ forall j, (j < i)%nat -> p j = false).
  { induction k as [|k IH]; intros a (i & Hi & Pi) L; [contradiction|]. cbn [seq find]. destruct (p a) eqn:Q.
    - exists a. repeat split; [lia|exact Q|exact L].
    - destruct (IH (S a)) as (i' & A & B & C & D).
      + exists i. split; [|exact Pi]. cbn [seq] in Hi. destruct Hi as [<-|Hi]; [congruence|exact Hi].
      + intros j Hj. destruct (Nat.eq_dec j a) as [->|]; [exact Q|apply L; lia].
      + exists i'. repeat split; try assumption. lia. }
  destruct (G q 0%nat) as (i & -> & B & C & D).
  - exists (q - 1)%nat. split; [apply in_seq; lia|]. unfold p. destruct (Rle_dec _ _) as [|N0]; [reflexivity|]. exfalso. apply N0.
    rewrite minus_INR by lia. cbn [INR]. replace (INR q - 1 + 1) with (INR q) by ring. rewrite W. lra.
  - intros j Hj. lia.
  - split; [lia|]. unfold p in C. destruct (Rle_dec v _) as [Le|]; [|discriminate]. split; [|exact Le].
    destruct i as [|i]; [cbn [INR]; lra|]. specialize (D i (Nat.lt_succ_diag_r i)). unfold p in D. destruct (Rle_dec v _) as [|N0]; [discriminate|].
    rewrite S_INR. lra.
Qed.
Lemma cell1_close q b v v' : (0 < q)%nat -> fst b <= v <= snd b -> fst b <= v' <= snd b -> cell1 q b v = cell1 q b v' -> Rabs (v - v') <= (snd b - fst b) / INR q.
Proof.
  intros Hq Hv Hv' E. destruct (cell1_ok b Hq Hv) as (_ & A). destruct (cell1_ok b Hq Hv') as (_ & B). rewrite <- E in B. apply Rabs_le. lra.
Qed.
Fixpoint cell (q : nat) (range : list (R * R)) (x : list R) : nat :=
  match range, x with b :: range, v :: x => (cell1 q b v + q * cell q range x)%nat | _, _ => 0%nat end.
Lemma cell_lt q range x : (0 < q)%nat -> in_box range x -> (cell q range x < q ^ List.length range)%nat.
Proof.
  intros Hq H. induction H as [|b v range x Hv H IH]; [cbn; lia|]. cbn [cell List.length Nat.pow]. destruct (cell1_ok b Hq Hv) as (A & _). nia.
Qed.
Lemma cell_close q range : (0 < q)%nat -> forall x y, in_box range x -> in_box range y -> cell q range x = cell q range y ->
  forall i, (i < List.length range)%nat -> Rabs (nth i x 0 - nth i y 0) <= (snd (nth i range (0, 0)) - fst (nth i range (0, 0))) / INR q.
Proof.
  intros Hq. induction range as [|b range IH]; intros x y Hx Hy E i Hi; [cbn in Hi; lia|].
  inversion Hx as [|? v ? x' Hv Hx' Q1 Q2]; subst. inversion Hy as [|? v' ? y' Hv' Hy' Q1 Q2]; subst. cbn [cell] in E.
  destruct (cell1_ok b Hq Hv) as (A & _). destruct (cell1_ok b Hq Hv') as (A' & _).
  assert (E1 : cell1 q b v = cell1 q b v').
  { apply (f_equal (fun n => n mod q)%nat) in E. rewrite !(Nat.mul_comm q), !Nat.mod_add, !Nat.mod_small in E by lia. exact E. }
  assert (E2 : cell q range x' = cell q range y') by nia.
  destruct i as [|i]; cbn [nth]; [now apply cell1_close|]. apply IH; [assumption..|cbn in Hi; lia].
Qed.

(** ** the pigeonhole principle: a long sequence returns often to one of finitely many cells *)
Lemma often (c : nat -> nat) (M k a : nat) : forall len, (forall n, (a <= n)%nat -> (c n < M)%nat) -> (M * k < len)%nat ->
  exists n, (a <= n < a + len)%nat /\ (k <= List.length (filter (fun i => Nat.eqb (c i) (c n)) (seq a (n - a))))%nat.
Proof.
  intros len HM HL. apply NNPP. intros NE.
  assert (H : forall n, (a <= n < a + len)%nat -> (List.length (filter (fun i => Nat.eqb (c i) (c n)) (seq a (n - a))) < k)%nat).
  { intros n Hn. destruct (Nat.lt_ge_cases (List.length (filter (fun i => Nat.eqb (c i) (c n)) (seq a (n - a)))) k) as [|G]; [assumption|]. exfalso. apply NE. exists n. now split. }
  (* every cell occurs at most k times *)
  assert (C : forall m v, (m <= len)%nat -> (List.length (filter (fun i => Nat.eqb (c i) v) (seq a m)) <= k)%nat).
  { induction m as [|m IH]; intros v Hm; [cbn; lia|]. rewrite seq_S, filter_app, app_length. cbn [filter].
    destruct (Nat.eqb_spec (c (a + m)%nat) v) as [E|_]; [|cbn; rewrite Nat.add_0_r; apply IH; lia].
    specialize (H (a + m)%nat ltac:(lia)). replace (a + m - a)%nat with m in H by lia. rewrite E in H. cbn [List.length]. lia. }
  assert (T : forall M l, (forall i, In i l -> (c i < M)%nat) -> (forall v, (List.length (filter (fun i => Nat.eqb (c i) v) l) <= k)%nat) -> (List.length l <= M * k)%nat).
  { clear. induction M as [|M IH]; intros l HL HC.
    - destruct l as [|i l]; [cbn; lia|]. specialize (HL i (or_introl eq_refl)). lia.
    - assert (S : forall l : list nat, (List.length l = List.length (filter (fun i => Nat.eqb (c i) M) l) + List.length (filter (fun i => negb (Nat.eqb (c i) M)) l))%nat).
      { clear. induction l as [|i l IH]; [reflexivity|]. cbn [filter]. destruct (Nat.eqb (c i) M); cbn [negb List.length]; lia. }
      rewrite (S l). assert (A := HC M). assert (B : (List.length (filter (fun i => negb (Nat.eqb (c i) M)) l) <= M * k)%nat); [|lia].
      apply IH.
      + intros i Hi. apply filter_In in Hi. destruct Hi as [Hi N0]. specialize (HL i Hi). destruct (Nat.eqb_spec (c i) M); [discriminate|]. lia.
      + intros v. eapply Nat.le_trans; [|exact (HC v)]. clear. induction l as [|i l IH]; [cbn; lia|]. cbn [filter].
        destruct (Nat.eqb (c i) M); cbn [negb filter]; destruct (Nat.eqb (c i) v); cbn [List.length]; lia. }
  assert (Q := T M (seq a len) ltac:(intros i Hi; apply in_seq in Hi; apply HM; lia) (fun v => C len v (Nat.le_refl _))). rewrite seq_length in Q. lia.
Qed.

(** ** powers of logarithms grow slowly *)
Lemma exp_beats p : forall u, 0 <= u -> (u / INR (S p)) ^ (S p) <= exp u.
Proof.
  intros u Hu. assert (P : 0 < INR (S p)) by (apply lt_0_INR; lia).
  replace (exp u) with (exp (u / INR (S p)) ^ (S p)).
  - apply pow_incr. split; [apply Rmult_le_pos; [exact Hu|left; now apply Rinv_0_lt_compat]|]. assert (E := exp_ineq1_le (u / INR (S p))). lra.
  - assert (G : forall n x, exp x ^ n = exp (INR n * x)).
    { induction n as [|n IH]; intros x; [cbn; now rewrite Rmult_0_l, exp_0|]. cbn [pow]. rewrite IH, <- exp_plus. f_equal. rewrite S_INR. ring. }
    rewrite G. f_equal. field. lra.
Qed.
Lemma above (r : R) : exists n, r < INR n.
Proof.
  destruct (Rle_lt_dec r 0) as [L|L]; [exists 1%nat; cbn; lra|]. destruct (archimed r) as [A _]. exists (Z.to_nat (up r)). rewrite INR_IZR_INZ, Z2Nat.id; [lra|].
  apply le_IZR. lra.
Qed.
(** for every polynomial in the logarithm there are arbitrarily large numbers above it *)
Lemma log_grows (A : R) (p n0 : nat) : 0 < A -> exists n, (n0 < n)%nat /\ INR n0 + (A * (1 + 2 * ln (INR n + 1))) ^ p < INR n.
Proof.
  intros HA.
  (* with t = ln (n + 1) >= 1: A (1 + 2 t) <= 3 A t, and n + 1 >= (t / (p + 1)) ^ (p + 1) *)
  set (b := INR (S p)). assert (Pb : 0 < b) by (apply lt_0_INR; lia).
  set (c := b ^ (S p) * (INR n0 + 1 + (3 * A) ^ p) + 1). assert (P3 : 0 < (3 * A) ^ p) by (apply pow_lt; lra). assert (Pn := pos_INR n0).
  assert (Pbp : 0 < b ^ (S p)) by now apply pow_lt.
  assert (Pc : 1 < c) by (unfold c; nra).
  destruct (above (exp c + INR n0)) as [n Hn]. exists n.
  assert (Ec := exp_pos c). assert (Lt : INR n0 < INR n) by lra. split; [now apply INR_lt|].
  set (t := ln (INR n + 1)).
  assert (Ht : c <= t). { unfold t. rewrite <- (ln_exp c). left. apply ln_increasing; [exact Ec|lra]. }
  assert (En : INR n + 1 = exp t) by (unfold t; rewrite exp_ln; lra).
  assert (E := exp_beats p (u := t) ltac:(lra)). rewrite <- En in E. fold b in E.
  unfold Rdiv in E. rewrite Rpow_mult_distr, pow_inv in E. 
  assert (E2 : t ^ (S p) <= b ^ (S p) * (INR n + 1)).
  { apply (Rmult_le_compat_l (b ^ (S p))) in E; [|lra]. replace (b ^ S p * (t ^ S p * / b ^ S p)) with (t ^ S p) in E by (field; lra). exact E. }
  assert (Tp : 1 <= t ^ p) by (apply pow_R1_Rle; lra).
  assert (L1 : (A * (1 + 2 * t)) ^ p <= (3 * A) ^ p * t ^ p).
  { rewrite <- Rpow_mult_distr. apply pow_incr. split; [apply Rmult_le_pos; lra|]. nra. }
  cbn [pow] in E2. change (b * b ^ p) with (b ^ S p) in E2.
  assert (E3 : c * t ^ p <= b ^ (S p) * (INR n + 1)) by (eapply Rle_trans; [|exact E2]; apply Rmult_le_compat_r; lra).
  assert (E4 : (INR n0 + 1 + (3 * A) ^ p) * t ^ p + / b ^ S p * t ^ p <= INR n + 1).
  { apply (Rmult_le_reg_l (b ^ S p)); [exact Pbp|]. eapply Rle_trans; [|exact E3]. unfold c. right. field. lra. }
  assert (0 < / b ^ S p * t ^ p) by (apply Rmult_lt_0_compat; [now apply Rinv_0_lt_compat|lra]). nra.
Qed.
