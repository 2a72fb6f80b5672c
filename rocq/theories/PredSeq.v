(** The likelihood as a sum of the densities given by one-step-ahead predictions. *)
From Verif Require Import Base Num UtilsSpec UtilsRProofs HypsModel CovModel KernelSpec CovSpec CovMx CovProofs GPModel GPSpec GPProofs LikModel LikSpec PredSpec PredProofs PredLik.
From Coq Require Import List ZArith Bool String Reals Lra Lia Arith Permutation.
Import ListNotations.
Open Scope R_scope.
Unset Asymmetric Patterns.
Set Bullet Behavior "Strict Subproofs".

Lemma elems_take_app (X : arr NumR) p q : elems (take_rows X (p ++ q)) = (elems (take_rows X p) ++ elems (take_rows X q))%list.
Proof. destruct X as [x|l s d]; cbn; now rewrite !map_app. Qed.
Lemma elems_take_one (X : arr NumR) k : elems (take_rows X [k]) = [elem_nth (take_rows X [k]) 0].
Proof. now destruct X. Qed.
Lemma out_take_seq Y n i : (i < n)%nat -> out (take_out Y (seq 0 n)) i = out Y i.
Proof. intros H. rewrite out_take by now rewrite seq_length. now rewrite seq_nth. Qed.
Lemma sum_last (f : nat -> R) k : (1 <= k)%nat -> Rsum (map f (seq 1 k)) = Rsum (map f (seq 1 (k - 1))) + f k.
Proof.
  intros H. replace k with (S (k - 1)) at 1 by lia. rewrite seq_S, map_app, Rsum_app. cbn [map Rsum].
  replace (1 + (k - 1))%nat with k by lia. lra.
Qed.

Section Seq.
Variables (name : string) (h : dict NumR) (d : nat) (ls : pyval NumR) (s nz : R) (K : elem -> elem -> R)
  (pm : prior NumR) (m : elem -> R) (inv : list (list R) -> res (list (list R))).
Hypotheses (RG : regression name h d ls s nz K pm m) (HI : inv_contract inv).
Variables (X : arr NumR) (Y : mat NumR).
Hypotheses (F : fits name X d) (HY : column (alen X) Y).
Notation first k := (take_rows X (seq 0 k)).
Notation firsty k := (take_out Y (seq 0 k)).
Lemma prequential th ard fx chol cho_solve slogdet ug (p : nat -> mat NumR) (v : nat -> R) g mu sd S :
  slogdet_contract slogdet -> @restore_hyps NumR name th true ard fx (GP_NOISE NumR) = Ok h ->
  (forall k, (1 <= k <= alen X)%nat -> @get_prior_mu NumR pm (first k) = Ok (p k)) ->
  (forall k, (1 <= k <= alen X)%nat ->
     @neg_log_ml NumR exp ln PI inv chol cho_solve slogdet (first k) (firsty k) th name (p k) ard fx false ug = Ok (v k, g k)) ->
  (forall k, (1 <= k < alen X)%nat -> @predict_with_hyps NumR exp inv (first k) (firsty k) (take_rows X [k]) h name pm = Ok (mu k, sd k, S k)) ->
  forall k, (1 <= k <= alen X)%nat ->
  INR k * v k = v 1%nat + Rsum (map (fun i => normal_nll (at_ (mu i) 0 0) (at_ (S i) 0 0 + nz * nz) (out Y i)) (seq 1 (k - 1))).
Proof.
  intros HD ER EP EV EM. induction k as [|k IH]; [lia|]. intros Hk. destruct (Nat.eq_dec k 0) as [->|Hk0].
  { cbn [seq map Rsum]. cbn. lra. }
  assert (IN : forall i, (i <= alen X)%nat -> forall q, In q (seq 0 i) -> (q < alen X)%nat) by (intros i Hi q Hq; apply in_seq in Hq; lia).
  assert (LEN : forall i, alen (first i) = i) by (intros i; rewrite alen_take; apply seq_length).
  assert (FF : forall i, (i <= alen X)%nat -> fits name (first i) d) by (intros i Hi; apply fits_take; [now apply IN|exact F]).
  assert (CC : forall i, (i <= alen X)%nat -> column (alen (first i)) (firsty i)).
  { intros i Hi. rewrite alen_take. apply (@column_take (alen X)); [now apply IN|exact HY]. }
  assert (F1 : fits name (take_rows X [k]) d) by (apply fits_take; [intros q [<-|[]]; lia|exact F]).
  assert (E : INR (alen (first (Datatypes.S k))) * v (Datatypes.S k)
     = INR (alen (first k)) * v k + normal_nll (at_ (mu k) 0 0) (at_ (S k) 0 0 + nz * nz) (out (firsty (Datatypes.S k)) (alen (first k)))).
  { refine (@gauss_chain name h d ls s nz K pm m inv RG HI (first k) (first (Datatypes.S k)) (take_rows X [k]) (firsty k) (firsty (Datatypes.S k)) (p k) (p (Datatypes.S k)) 0%nat
      (FF k ltac:(lia)) (FF (Datatypes.S k) ltac:(lia)) F1 (CC k ltac:(lia)) (CC (Datatypes.S k) ltac:(lia)) _ _ _ (EP k ltac:(lia)) (EP (Datatypes.S k) ltac:(lia)) th ard fx chol cho_solve slogdet ug ug (mu k) (sd k) (S k) (v k) (g k) (v (Datatypes.S k)) (g (Datatypes.S k))
      HD _ ER (EM k ltac:(lia)) (EV k ltac:(lia)) (EV (Datatypes.S k) ltac:(lia))).
    - rewrite alen_take. cbn. lia.
    - rewrite seq_S, elems_take_app. cbn [Nat.add]. now rewrite elems_take_one.
    - intros i Hi. rewrite LEN in Hi. rewrite !out_take_seq by lia. reflexivity.
    - rewrite LEN. apply (ssrbool.introT ssrnat.ltP). lia. }
  rewrite !LEN in E. rewrite out_take_seq in E by lia. rewrite E. rewrite IH by lia.
  replace (Datatypes.S k - 1)%nat with k by lia. rewrite (sum_last _ k) by lia. lra.
Qed.
End Seq.
