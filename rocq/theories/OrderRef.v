(** The default likelihood of three observations in two orders. *)
From Verif Require Import Base Num UtilsSpec HypsModel CovModel KernelSpec CovSpec CovProofs CovProofs2 GPModel GPSpec GPProofs GPProofs2 Contracts
  LikModel LikSpec LikProofs LikProofs2 LikProps OrderAlg OrderProofs.
From Coq Require Import List ZArith Bool String Reals Lra Lia Arith Permutation.
Import ListNotations.
Open Scope R_scope.
Local Open Scope string_scope.
Unset Asymmetric Patterns.
Set Bullet Behavior "Strict Subproofs".

Definition ord_X : arr NumR := A2 NumR (mkmat ([[0]; [0]; [1]] : list (list NumR)) 1).
Definition ord_Y : mat NumR := mkmat ([[1]; [2]; [4]] : list (list NumR)) 1.
Definition ord_q : mat NumR := mkmat ([[0]; [0]; [0]] : list (list NumR)) 1.
Definition ord_th : list R := [1 / 10; 1; 1].
Definition ord_p : list nat := [0; 2; 1]%nat.
Definition ord_K (e e' : elem) : R := base_kernel se_profile (PArr NumR [1]) 1 1 (point e) (point e').

Lemma ord_fits : fits "se" ord_X 1.
Proof. split; [|split; [discriminate|reflexivity]]. intros r [<-|[<-|[<-|[]]]]; reflexivity. Qed.
Lemma ord_column_Y : column (alen ord_X) ord_Y.
Proof. split; [reflexivity|]. split; [reflexivity|]. intros r [<-|[<-|[<-|[]]]]; reflexivity. Qed.
Lemma ord_column_q : column (alen ord_X) ord_q.
Proof. split; [reflexivity|]. split; [reflexivity|]. intros r [<-|[<-|[<-|[]]]]; reflexivity. Qed.
Lemma ord_perm : Permutation ord_p (seq 0 (alen ord_X)).
Proof. apply perm_skip. apply perm_swap. Qed.
Lemma ord_hyps : exists h, @restore_hyps NumR "se" ord_th true true false (GP_NOISE NumR) = Ok h /\ has_hyps h 1 (PArr NumR [1]) 1 (1 / 10).
Proof. eexists. split; [reflexivity|repeat split]. Qed.
Lemma ord_cov : cov_of "se" (PArr NumR [1]) 1 1 = Some ord_K.
Proof. reflexivity. Qed.
Lemma ord_val x y : base_kernel se_profile (PArr NumR [1]) 1 1 [x] [y] = exp (- ((x - y) * (x - y)) / 2).
Proof.
  unfold base_kernel, se_profile, scaled_dist, scaled_sq. cbn [seq map Rsum nth ls_at].
  rewrite sqrt_sqrt by (rewrite Rplus_0_r; apply Rle_0_sqr). rewrite !Rmult_1_l. f_equal. field.
Qed.
Lemma exp_half : 0 < exp (- (1) / 2) < 1.
Proof. split; [apply exp_pos|]. apply Rlt_le_trans with (exp 0); [apply exp_increasing; lra|rewrite exp_0; lra]. Qed.

Lemma order_matters inv chol cho_solve slogdet : chol_contract chol -> cho_solve_contract cho_solve ->
  exists v v', @neg_log_ml NumR exp ln PI inv chol cho_solve slogdet ord_X ord_Y ord_th "se" ord_q true false true false = Ok (v, None) /\
    @neg_log_ml NumR exp ln PI inv chol cho_solve slogdet (take_rows ord_X ord_p) (take_out ord_Y ord_p) ord_th "se" (take_out ord_q ord_p) true false true false = Ok (v', None) /\
    v' <> v.
Proof.
  intros HC HS. destruct ord_hyps as (h & ER & HH).
  assert (N3 : (0 < alen ord_X)%nat) by (cbn; lia). assert (N3' : (0 < alen (take_rows ord_X ord_p))%nat) by (cbn; lia).
  assert (F' : fits "se" (take_rows ord_X ord_p) 1) by (apply fits_take; [intros k [<-|[<-|[<-|[]]]]; cbn; lia|apply ord_fits]).
  destruct (C36_cholesky_total _ _ _ _ _ _ _ _ _ _ ord_th true false inv _ _ slogdet ord_fits HH ord_cov ord_column_Y ord_column_q HC HS N3 ER) as (v & V).
  destruct (C36_cholesky_total _ _ _ _ _ _ _ _ _ _ ord_th true false inv _ _ slogdet F' HH ord_cov
     (col_perm_ok ord_perm ord_column_Y) (col_perm_ok ord_perm ord_column_q) HC HS N3' ER) as (v' & V').
  exists v, v'. split; [exact V|]. split; [exact V'|].
  destruct (@mlc_terms "se" h 1 (PArr NumR [1]) 1 (1 / 10) ord_K ord_X ord_fits HH ord_cov ord_p ord_perm ord_Y ord_q ord_th true false inv some_inv some_inv_ok
     chol cho_solve slogdet false false v None v' None ord_column_Y ord_column_q HC HS (ssrbool.introT ssrnat.ltP N3) ER V V') as (C & L & C' & L' & z & EC & HL & EC' & HL' & -> & ->).
  destruct (train_cov_ok ord_fits HH ord_cov) as (C0 & E0 & _ & A). rewrite EC in E0. injection E0 as <-.
  destruct (train_cov_ok F' HH ord_cov) as (C1 & E1 & _ & A'). rewrite EC' in E1. injection E1 as <-.
  change (alen ord_X) with 3%nat in *. change (alen (take_rows ord_X ord_p)) with 3%nat in A'.
  pose proof (chol3 HL) as G. pose proof (chol3 HL') as G'. cbv zeta in G, G'.
  assert (KV : forall i j, (i < 3)%nat -> (j < 3)%nat -> ord_K (elem_nth ord_X i) (elem_nth ord_X j) = if (i <? 2)%nat then (if (j <? 2)%nat then 1 else exp (- (1) / 2)) else (if (j <? 2)%nat then exp (- (1) / 2) else 1)).
  { assert (E00 : exp (- ((0 - 0) * (0 - 0)) / 2) = 1) by (replace (- ((0 - 0) * (0 - 0)) / 2) with 0 by field; apply exp_0).
    assert (E11 : exp (- ((1 - 1) * (1 - 1)) / 2) = 1) by (replace (- ((1 - 1) * (1 - 1)) / 2) with 0 by field; apply exp_0).
    intros [|[|[|i]]] [|[|[|j]]] Hi Hj; try lia; unfold ord_K, elem_nth; cbn [elems ord_X nth map mrows point Nat.ltb Nat.leb];
      (etransitivity; [apply ord_val|]); first [exact E00|exact E11|f_equal; lra]. }
  assert (KV' : forall i j, (i < 3)%nat -> (j < 3)%nat -> ord_K (elem_nth (take_rows ord_X ord_p) i) (elem_nth (take_rows ord_X ord_p) j)
     = ord_K (elem_nth ord_X (nth i ord_p 0%nat)) (elem_nth ord_X (nth j ord_p 0%nat))).
  { intros i j Hi Hj. rewrite !elem_take; [reflexivity|intros k [<-|[<-|[<-|[]]]]; cbn; lia|exact Hj|intros k [<-|[<-|[<-|[]]]]; cbn; lia|exact Hi]. }
  assert (AV : forall i j, (i < 3)%nat -> (j < 3)%nat -> at_ C i j = (if (i <? 2)%nat then (if (j <? 2)%nat then 1 else exp (- (1) / 2)) else (if (j <? 2)%nat then exp (- (1) / 2) else 1)) + (if Nat.eqb i j then / 100000 + 1 / 10 * (1 / 10) else 0))
    by (intros i j Hi Hj; rewrite A, KV by assumption; reflexivity).
  assert (NP : forall i, (i < 3)%nat -> (nth i ord_p 0 < 3)%nat) by (intros [|[|[|i]]] Hi; cbn; lia).
  assert (AV' : forall i j, (i < 3)%nat -> (j < 3)%nat -> at_ C' i j = (if (nth i ord_p 0 <? 2)%nat then (if (nth j ord_p 0 <? 2)%nat then 1 else exp (- (1) / 2)) else (if (nth j ord_p 0 <? 2)%nat then exp (- (1) / 2) else 1)) + (if Nat.eqb i j then / 100000 + 1 / 10 * (1 / 10) else 0))
    by (intros i j Hi Hj; rewrite A', KV', KV by auto; reflexivity).
  rewrite !AV in G by lia. rewrite !AV' in G' by lia. cbn [ord_p nth Nat.ltb Nat.leb Nat.eqb] in G, G'.
  destruct (G eq_refl eq_refl) as (G1 & G2 & G3). destruct (G' eq_refl eq_refl) as (G1' & G2' & G3').
  pose proof exp_half as EH. set (b := exp (- (1) / 2)) in *. rewrite ?Rplus_0_r in G2. rewrite ?Rplus_0_r in G3. rewrite ?Rplus_0_r in G2'. rewrite ?Rplus_0_r in G3'.
  set (c := 1 + (/ 100000 + 1 / 10 * (1 / 10))) in *.
  destruct HL as (_ & _ & PL & _). destruct HL' as (_ & _ & PL' & _).
  assert (D := @diag_differ (/ 10000000) c 1 b _ _ _ _ _ _ ltac:(lra) (proj1 EH) (proj2 EH) ltac:(unfold c; lra) (PL 0%nat ltac:(lia)) (PL 1%nat ltac:(lia)) (PL 2%nat ltac:(lia))
    (PL' 0%nat ltac:(lia)) (PL' 1%nat ltac:(lia)) (PL' 2%nat ltac:(lia)) G1 G1' G2 G2' G3 G3').
  intros EQ. apply D. cbn [seq map Rsum] in EQ. change (INR 3) with (INR 2 + 1) in EQ. change (INR 2) with (1 + 1) in EQ. lra.
Qed.
