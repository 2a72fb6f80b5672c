(** Layout of the vector of hyperparameters of the Student-t process, and derivatives of real functions. *)
From Verif Require Import Base Num UtilsModel HypsModel HypsProofs CovModel KernelSpec CovSpec CovProofs CovProofs2 CovGrad GradSpec.
From Coq Require Import List ZArith Bool String Reals Lra Lia Arith.
From Coquelicot Require Import Coquelicot.
Import ListNotations.
Unset Asymmetric Patterns.
Set Bullet Behavior "Strict Subproofs".
Open Scope R_scope.
Local Open Scope string_scope.

(** insertion of the degrees of freedom *)
Definition ins {T} (fx : bool) (x : T) (l : list T) : list T :=
  if fx then x :: l else match l with nil => x :: nil | y :: t => y :: x :: t end.
Definition tind (fx : bool) (i : nat) : nat := if fx then S i else match i with O => O | _ => S i end.
Lemma lset_ins T fx (x u : T) l i : (i < List.length l)%nat -> lset (ins fx x l) (tind fx i) u = ins fx x (lset l i u).
Proof. destruct fx; [reflexivity|]. destruct l as [|y t], i as [|i]; cbn; intros; try lia; reflexivity. Qed.
Lemma nth_ins T fx (x d : T) l i : (i < List.length l)%nat -> nth (tind fx i) (ins fx x l) d = nth i l d.
Proof. destruct fx; [reflexivity|]. destruct l as [|y t], i as [|i]; cbn; intros; try lia; reflexivity. Qed.
Lemma lset_dof T fx (x u : T) l : (0 < List.length l)%nat -> lset (ins fx x l) (tp_dof fx) u = ins fx u l.
Proof. destruct fx; [reflexivity|]. destruct l; cbn; intros; [lia|reflexivity]. Qed.
Lemma nth_dof T fx (x d : T) l : (0 < List.length l)%nat -> nth (tp_dof fx) (ins fx x l) d = x.
Proof. destruct fx; [reflexivity|]. destruct l; cbn; intros; [lia|reflexivity]. Qed.
Lemma length_ins T fx (x : T) l : List.length (ins fx x l) = S (List.length l).
Proof. destruct fx; [reflexivity|]. destruct l; reflexivity. Qed.
Lemma ins_map T U (f : T -> U) fx x l : map f (ins fx x l) = ins fx (f x) (map f l).
Proof. destruct fx; [reflexivity|]. destruct l; reflexivity. Qed.
(** every position is that of the degrees of freedom or comes from the other vector *)
Lemma tind_cases fx k q : (q < S k)%nat -> (0 < k)%nat -> q = tp_dof fx \/ exists i, (i < k)%nat /\ q = tind fx i.
Proof.
  intros H K. destruct fx; cbn [tp_dof tind].
  - destruct q as [|q]; [now left|]. right. exists q. split; [lia|reflexivity].
  - destruct q as [|[|q]]; [|now left|].
    + right. exists 0%nat. split; [lia|reflexivity].
    + right. exists (S q). split; [lia|reflexivity].
Qed.
Lemma tind_signal fx i : Nat.eqb (tind fx i) (tp_signal fx) = Nat.eqb i (gp_signal fx).
Proof. destruct fx, i as [|[|i]]; reflexivity. Qed.
Lemma tind_dof fx i : Nat.eqb (tind fx i) (tp_dof fx) = false.
Proof. destruct fx, i as [|[|i]]; reflexivity. Qed.

Lemma lset_length T (l : list T) i u : List.length (lset l i u) = List.length l.
Proof. revert i. induction l as [|x l IH]; intros [|i]; cbn; auto. Qed.
Lemma fold_ins T fx (x : T) (c : nat -> T) (is : list nat) l : (forall i, In i is -> (i < List.length l)%nat) ->
  fold_left (fun g i => lset g (tind fx i) (c i)) is (ins fx x l) = ins fx x (fold_left (fun g i => lset g i (c i)) is l).
Proof.
  revert l. induction is as [|i is IH]; intros l H; [reflexivity|]. cbn [fold_left].
  rewrite lset_ins by (apply H; now left). apply IH. intros j Hj. rewrite lset_length. apply H. now right.
Qed.
Lemma lset_app T (a b : list T) k u : (List.length a <= k)%nat -> lset (a ++ b)%list k u = (a ++ lset b (k - List.length a) u)%list.
Proof.
  revert k. induction a as [|x a IH]; intros k H; [cbn; now rewrite Nat.sub_0_r|].
  destruct k as [|k]; [cbn in H; lia|]. cbn in *. now rewrite IH by lia.
Qed.
Lemma fold_lset T (c : nat -> T) k (a b : list T) : List.length b = k ->
  fold_left (fun g i => lset g i (c i)) (seq (List.length a) k) (a ++ b)%list = (a ++ map c (seq (List.length a) k))%list.
Proof.
  revert a b. induction k as [|k IH]; intros a b L; [destruct b; [reflexivity|discriminate]|].
  destruct b as [|y b]; [discriminate|]. cbn [seq fold_left map]. rewrite lset_app, Nat.sub_diag by lia. cbn [lset].
  replace (a ++ c (List.length a) :: b)%list with ((a ++ (c (List.length a) :: nil)) ++ b)%list by (rewrite <- app_assoc; reflexivity).
  replace (S (List.length a)) with (List.length (a ++ (c (List.length a) :: nil))) by (rewrite app_length; cbn; lia).
  rewrite IH by (cbn in L; lia). rewrite <- app_assoc. reflexivity.
Qed.

(** the vector behind a dictionary *)
Definition ttheta fx nz nu s ls : list R := ins fx nu (theta fx nz s ls).
Lemma restore_gp_inv name th ard fx n0 h d ls s nz :
  @restore_hyps NumR name th true ard fx n0 = Ok h -> has_hyps h d ls s nz ->
  th = theta fx nz s ls /\ is_arr ls = ard /\ (fx = true -> nz = n0).
Proof.
  unfold restore_hyps, has_hyps. intros E (A & B & C & D).
  destruct (str_in name ALLOWED_COV); [|discriminate]. cbn [assert_ rbind] in E.
  destruct (str_in name list_first).
  2:{ destruct fx; cbn [rbind] in E; [discriminate|]. destruct (anth NumR th 0); discriminate. }
  destruct fx; cbn [rbind] in E.
  - destruct th as [|x th]; [discriminate|]. cbn [anth nth_error rbind] in E.
    destruct ard.
    + apply Ok_inj in E. subst h. cbn in A, B, C. injection A as <-. injection B as <-. injection C as <-. repeat split.
    + destruct th as [|y [|z th]]; try discriminate. cbn in E. apply Ok_inj in E. subst h. cbn in A, B, C.
      injection A as <-. injection B as <-. injection C as <-. repeat split.
  - destruct th as [|x th]; [discriminate|]. cbn [anth nth_error rbind] in E.
    destruct th as [|y th]; [discriminate|]. cbn [anth nth_error rbind] in E.
    destruct ard.
    + apply Ok_inj in E. subst h. cbn in A, B, C. injection A as <-. injection B as <-. injection C as <-. repeat split. discriminate.
    + destruct th as [|z [|t th]]; try discriminate. cbn in E. apply Ok_inj in E. subst h. cbn in A, B, C.
      injection A as <-. injection B as <-. injection C as <-. repeat split. discriminate.
Qed.
Lemma restore_tp_inv name th ard fx n0 h d ls s nz nu :
  @restore_hyps NumR name th false ard fx n0 = Ok h -> has_hyps h d ls s nz -> dget h "dof" = Some (PFloat NumR nu) ->
  th = ttheta fx nz nu s ls /\ is_arr ls = ard /\ (fx = true -> nz = n0).
Proof.
  unfold restore_hyps, has_hyps. intros E (A & B & C & D) G.
  destruct (str_in name ALLOWED_COV); [|discriminate]. cbn [assert_ rbind] in E.
  assert (EL : str_in name list_first = true).
  { destruct (str_in name list_first); [reflexivity|]. destruct fx; cbn [rbind] in E; destruct th as [|x [|y th]]; discriminate. }
  rewrite EL in E. clear EL.
  destruct fx; cbn [rbind] in E.
  - destruct th as [|w [|x th]]; try discriminate. cbn [anth nth_error rbind] in E.
    destruct ard.
    + apply Ok_inj in E. subst h. cbn in A, B, C, G. injection A as <-. injection B as <-. injection C as <-. injection G as <-. repeat split.
    + destruct th as [|y [|z th]]; try discriminate. cbn in E. apply Ok_inj in E. subst h. cbn in A, B, C, G.
      injection A as <-. injection B as <-. injection C as <-. injection G as <-. repeat split.
  - destruct th as [|x [|w [|y th]]]; try discriminate. cbn [anth nth_error rbind] in E.
    destruct ard.
    + apply Ok_inj in E. subst h. cbn in A, B, C, G. injection A as <-. injection B as <-. injection C as <-. injection G as <-. repeat split. discriminate.
    + destruct th as [|z [|t th]]; try discriminate. cbn in E. apply Ok_inj in E. subst h. cbn in A, B, C, G.
      injection A as <-. injection B as <-. injection C as <-. injection G as <-. repeat split. discriminate.
Qed.
Lemma restore_ttheta name p d ls s nz nu n0 fx : profile_of name = Some p -> ls_ok ls d ->
  exists h', @restore_hyps NumR name (ttheta fx nz nu s ls) false (is_arr ls) fx n0 = Ok h' /\
    has_hyps h' d ls s (if fx then n0 else nz) /\ dget h' "dof" = Some (PFloat NumR nu).
Proof.
  intros P E. destruct (choose_profile P) as (_ & _ & _ & A & _).
  unfold restore_hyps. rewrite A. cbn [assert_ rbind]. rewrite (list_first_base P). unfold ttheta, theta.
  destruct fx, ls as [l|l|t]; try contradiction; cbn; (eexists; split; [reflexivity|]); repeat split; exact E.
Qed.

(** derivative of the Student-t likelihood in the degrees of freedom *)
Lemma dof_derivative gamma digamma nn beta c nu : gamma_contract gamma digamma -> 2 < nu -> 0 <= beta -> 0 < nn ->
  derivable_pt_lim (fun v => (nn / 2 * ln ((v - 2) * PI) + c - ln (gamma ((v + nn) / 2) / gamma (v / 2))
      + (v + nn) / 2 * ln (1 + beta / (v - 2))) / nn) nu
    ((nn / (2 * (nu - 2)) - / 2 * (digamma ((nu + nn) / 2) - digamma (nu / 2)) + / 2 * ln (1 + beta / (nu - 2))
      - (nu + nn) * beta / (2 * (nu - 2) * (nu - 2) + 2 * beta * (nu - 2))) / nn).
Proof.
  intros G Hnu Hb Hn. apply is_derive_Reals.
  destruct (G ((nu + nn) / 2)) as (P1 & _ & D1); [lra|]. destruct (G (nu / 2)) as (P0 & _ & D0); [lra|].
  apply is_derive_Reals in D1. apply is_derive_Reals in D0.
  assert (Hpi := PI_RGT_0).
  assert (Q1 : 0 < (nu + -2) * PI) by (apply Rmult_lt_0_compat; lra).
  assert (Q2 : 0 < 1 + beta * / (nu + -2)).
  { assert (0 < / (nu + -2)) by (apply Rinv_0_lt_compat; lra). assert (0 <= beta * / (nu + -2)) by (apply Rmult_le_pos; lra). lra. }
  auto_derive.
  - replace ((nu + nn) * / 2) with ((nu + nn) / 2) by reflexivity. replace (nu * / 2) with (nu / 2) by reflexivity.
    repeat split; try lra; try (eexists; eassumption); try (apply Rgt_not_eq; lra).
    + apply Rmult_lt_0_compat; [exact P1|]. now apply Rinv_0_lt_compat.
    + replace (nu + Ropp 2) with (nu + -2) by lra. exact Q2.
  - replace ((nu + nn) * / 2) with ((nu + nn) / 2) by reflexivity. replace (nu * / 2) with (nu / 2) by reflexivity.
    assert (E1 : Derive (fun x : R => gamma x) ((nu + nn) / 2) = gamma ((nu + nn) / 2) * digamma ((nu + nn) / 2)) by now apply is_derive_unique.
    assert (E0 : Derive (fun x : R => gamma x) (nu / 2) = gamma (nu / 2) * digamma (nu / 2)) by now apply is_derive_unique.
    rewrite E1, E0. clear E1 E0.
    replace (nu + Ropp 2) with (nu + -2) by lra. change (beta * / (nu + -2)) with (beta / (nu + -2)). replace (nu + -2) with (nu - 2) in * by ring.
    set (l1 := ln _). generalize l1. generalize dependent (gamma ((nu + nn) / 2)). generalize dependent (gamma (nu / 2)).
    generalize (digamma ((nu + nn) / 2)) (digamma (nu / 2)). intros a b g0 P0 D0' g1 P1 D1' l.
    assert (2 * (nu - 2) * (nu - 2) + 2 * beta * (nu - 2) > 0) by nra.
    assert (1 + beta / (nu - 2) = (nu - 2 + beta) / (nu - 2)) by (field; lra). 
    field. repeat split; try lra; nra.
Qed.

Lemma digamma_step gamma digamma x : gamma_contract gamma digamma -> 0 < x -> digamma (x + 1) = digamma x + / x.
Proof.
  intros G Hx. destruct (G x Hx) as (P & E & D). destruct (G (x + 1)) as (P1 & _ & D1); [lra|].
  apply is_derive_Reals in D. apply is_derive_Reals in D1.
  assert (A : is_derive (fun t => t * gamma t) x (gamma x + x * (gamma x * digamma x))).
  { auto_derive; [eexists; exact D|].
    assert (E1 : Derive (fun t : R => gamma t) x = gamma x * digamma x) by now apply is_derive_unique. rewrite E1. ring. }
  assert (B : is_derive (fun t => t * gamma t) x (gamma (x + 1) * digamma (x + 1))).
  { apply (is_derive_ext_loc (fun t => gamma (t + 1))).
    - exists (mkposreal x Hx). intros t Ht. apply (G t). unfold ball in Ht; cbn in Ht. unfold AbsRing_ball, abs, minus, plus, opp in Ht. cbn in Ht.
      apply Rabs_def2 in Ht. lra.
    - evar_last; [apply (is_derive_comp gamma (fun t => t + 1) x (gamma (x + 1) * digamma (x + 1)) 1); [exact D1|]|].
      + auto_derive; [trivial|reflexivity].
      + unfold scal; cbn. unfold mult; cbn. ring. }
  apply is_derive_unique in A. apply is_derive_unique in B. rewrite A in B. rewrite E in B.
  apply Rmult_eq_reg_l with (x * gamma x); [|nra]. rewrite <- B. field. lra.
Qed.
(** an increment of a positive even number of halves is not 0 *)
Lemma digamma_gap gamma digamma x k : gamma_contract gamma digamma -> 0 < x -> (0 < k)%nat -> digamma x < digamma (x + INR k).
Proof.
  intros G Hx Hk. induction k as [|k IH]; [lia|]. rewrite S_INR, <- Rplus_assoc.
  assert (0 <= INR k) by apply pos_INR. rewrite (digamma_step _ _ _ G) by lra.
  assert (0 < / (x + INR k)) by (apply Rinv_0_lt_compat; lra).
  destruct k as [|k]; [cbn [INR] in *; rewrite Rplus_0_r in *; lra|]. specialize (IH ltac:(lia)). lra.
Qed.
