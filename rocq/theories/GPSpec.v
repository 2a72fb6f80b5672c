(** Vocabulary for the regression properties: outputs, prior mean functions, and selections of rows.
    Only the data types of the model and the kernels of [CovSpec] are used. *)
From Verif Require Import Base Num UtilsSpec HypsModel CovModel KernelSpec CovSpec GPModel.
From Coq Require Import List Reals String Permutation.
Import ListNotations.
Open Scope R_scope.
Set Implicit Arguments.

(** [n] outputs in one column *)
Definition column (n : nat) (Y : mat NumR) : Prop := mcols Y = 1%nat /\ is_mx n 1 (mrows Y).
Definition out (Y : mat NumR) (i : nat) : R := at_ (mrows Y) i 0.
(** the prior mean function computes [m] at every input *)
Definition prior_is (prior_mu : prior NumR) (m : elem -> R) : Prop :=
  match prior_mu with
  | None => forall e, m e = 0
  | Some f => forall a, exists p, f a = Ok p /\ column (alen a) p /\
      forall i, (i < alen a)%nat -> at_ (mrows p) i 0 = m (elem_nth a i)
  end.

(** a regression problem within the domain of the package *)
Record regression (name : string) (h : dict NumR) (d : nat) (ls : pyval NumR) (s nz : R) (K : elem -> elem -> R)
    (prior_mu : prior NumR) (m : elem -> R) : Prop := {
  reg_hyps : has_hyps h d ls s nz;
  reg_cov : cov_of name ls s d = Some K;
  reg_prior : prior_is prior_mu m
}.

(** the array of rows [p] of an array (points or sets), and of outputs *)
Definition take_rows (X : arr NumR) (p : list nat) : arr NumR :=
  match X with
  | A2 _ x => A2 NumR (mkmat (map (fun i => nth i (mrows x) []) p) (mcols x))
  | A3 _ l s d => A3 NumR (map (fun i => nth i l (mkmat [] d)) p) s d
  end.
Definition take_out (Y : mat NumR) (p : list nat) : mat NumR :=
  mkmat (map (fun i => nth i (mrows Y) []) p) (mcols Y).
(** the jitter the package adds to covariance matrices *)
Definition jitter_cov : R := / 100000.

(** (Y - m)^T B (Y - m) *)
Definition beta_of (m : elem -> R) (X : arr NumR) (Y : mat NumR) (B : list (list R)) : R :=
  Rsum (map (fun i => Rsum (map (fun j => (out Y i - m (elem_nth X i)) * at_ B i j * (out Y j - m (elem_nth X j)))
     (seq 0 (alen X)))) (seq 0 (alen X))).
(** the factor by which the covariance of the Student-t process differs *)
Definition t_factor (nu beta : R) (n : nat) : R := (nu + beta - 2) / (nu + INR n - 2).
