(** Derivatives of determinants, inverses and quadratic forms of matrices that depend on one parameter. *)
From Verif Require Import RStruct MatLib GPMx.
From Coq Require Import Reals Lra Lia ClassicalEpsilon.
From mathcomp Require Import all_ssreflect perm all_algebra.
Set Implicit Arguments.
Unset Strict Implicit.
Unset Printing Implicit Defensive.
Import GRing.Theory.
Delimit Scope R_scope with coqR.
Local Open Scope ring_scope.

Notation dl := derivable_pt_lim.
Lemma dl_ext f g x l : (forall t, f t = g t) -> dl f x l -> dl g x l.
Proof. move=> E H eps He. have [d Hd] := H eps He. exists d => k Hk Hl. rewrite -!E. exact: Hd. Qed.
Lemma dl_const (c x : R) : dl (fun _ => c) x 0. Proof. exact: derivable_pt_lim_const. Qed.
Lemma dl_add f g x a b : dl f x a -> dl g x b -> dl (fun t => f t + g t) x (a + b).
Proof. exact: derivable_pt_lim_plus. Qed.
Lemma dl_opp f x a : dl f x a -> dl (fun t => - f t) x (- a).
Proof. exact: derivable_pt_lim_opp. Qed.
Lemma dl_mul f g x a b : dl f x a -> dl g x b -> dl (fun t => f t * g t) x (a * g x + f x * b).
Proof. exact: derivable_pt_lim_mult. Qed.
Lemma dl_scal c f x a : dl f x a -> dl (fun t => c * f t) x (c * a).
Proof. exact: derivable_pt_lim_scal. Qed.
Lemma dl_sum (I : Type) (s : seq I) (P : pred I) (f : I -> R -> R) (d : I -> R) x : (forall i, P i -> dl (f i) x (d i)) ->
  dl (fun t => \sum_(i <- s | P i) f i t) x (\sum_(i <- s | P i) d i).
Proof.
move=> H. elim: s => [|i s IH].
- rewrite big_nil. apply: (@dl_ext (fun _ => 0)); last exact: dl_const. by move=> t; rewrite big_nil.
- rewrite big_cons. case Pi: (P i).
  + apply: (@dl_ext (fun t => f i t + \sum_(j <- s | P j) f j t)); last exact: dl_add (H i Pi) IH. by move=> t; rewrite big_cons Pi.
  + by apply: dl_ext IH => t; rewrite big_cons Pi.
Qed.
Lemma dl_prod (I : eqType) (s : seq I) (f : I -> R -> R) (d : I -> R) x : uniq s -> (forall i, i \in s -> dl (f i) x (d i)) ->
  dl (fun t => \prod_(i <- s) f i t) x (\sum_(k <- s) \prod_(i <- s) (if i == k then d i else f i x)).
Proof.
elim: s => [|i s IH] U H.
- rewrite big_nil. apply: (@dl_ext (fun _ => 1)); last exact: dl_const. by move=> t; rewrite big_nil.
- move: U => /= /andP [N U]. apply: (@dl_ext (fun t => f i t * \prod_(j <- s) f j t)); first by move=> t; rewrite big_cons.
  have := dl_mul (H i (mem_head _ _)) (IH U (fun j (Hj : j \in s) => H j (@mem_behead _ (i :: s) j Hj))).
  congr (dl _ _ _). rewrite big_cons big_cons eqxx. congr (_ + _).
  + congr (_ * _). apply: eq_big_seq => j Hj. case: eqP => // E. by move: N; rewrite -E Hj.
  + rewrite big_distrr /=. apply: eq_big_seq => k Hk. rewrite big_cons. congr (_ * _). case: eqP => // E. by move: N; rewrite E Hk.
Qed.

(** a matrix that depends on a parameter, and its derivative *)
Definition mdl n m (A : R -> 'M[R]_(n, m)) (x : R) (D : 'M[R]_(n, m)) : Prop := forall i j, dl (fun t => A t i j) x (D i j).

Lemma mdl_mul n m p (A : R -> 'M_(n, m)) (B : R -> 'M_(m, p)) x D E : mdl A x D -> mdl B x E ->
  mdl (fun t => A t *m B t) x (D *m B x + A x *m E).
Proof.
move=> HA HB i j. rewrite addmxE !mxE -big_split /=.
apply: (@dl_ext (fun t => \sum_k A t i k * B t k j)); first by move=> t; rewrite mxE.
apply: dl_sum => k _. exact: dl_mul.
Qed.
Lemma mdl_const n m (A : 'M_(n, m)) x : mdl (fun _ => A) x 0.
Proof. move=> i j. rewrite mxE. exact: dl_const. Qed.
Lemma dl_unique f x a b : dl f x a -> dl f x b -> a = b. Proof. exact: uniqueness_limite. Qed.

Definition rep_row n (A D : 'M[R]_n) (k : 'I_n) : 'M[R]_n := \matrix_(i, j) if i == k then D i j else A i j.
Lemma rep_row_cofactor n (A D : 'M[R]_n) k j : cofactor (rep_row A D k) k j = cofactor A k j.
Proof.
rewrite /cofactor. congr (_ * \det _). apply/matrixP=> a b. rewrite !mxE. case: eqP => // E. by move: (neq_lift k a); rewrite E eqxx.
Qed.
(** Jacobi's formula *)
Lemma dl_det n (A : R -> 'M[R]_n) x D : mdl A x D -> dl (fun t => \det (A t)) x (\tr (D *m \adj (A x))).
Proof.
move=> H. have -> : \tr (D *m \adj (A x)) = \sum_(s : 'S_n) (-1) ^+ s * \sum_k \prod_i (if i == k then D i (s i) else A x i (s i)).
  under [RHS]eq_bigr do rewrite big_distrr /=. rewrite exchange_big /=. apply: eq_bigr => k _.
  rewrite mxE. transitivity (\det (rep_row (A x) D k)).
    rewrite (expand_det_row _ k). apply: eq_bigr => j _. by rewrite rep_row_cofactor !mxE eqxx.
  rewrite /determinant. apply: eq_bigr => s _. congr (_ * _). apply: eq_bigr => i _. by rewrite mxE.
apply: (@dl_ext (fun t => \sum_(s : 'S_n) (-1) ^+ s * \prod_i A t i (s i))); first by [].
apply: dl_sum => s _. apply: dl_scal. apply: dl_prod; first exact: index_enum_uniq. by move=> i _; exact: H.
Qed.
Lemma mdl_minor n (A : R -> 'M[R]_n.+1) x D i j : mdl A x D -> mdl (fun t => row' i (col' j (A t))) x (row' i (col' j D)).
Proof. move=> H a b. rewrite !mxE. apply: (@dl_ext (fun t => A t (lift i a) (lift j b))) => [t|]; [by rewrite !mxE|exact: H]. Qed.
Lemma dl_cofactor n (A : R -> 'M[R]_n) x D i j : mdl A x D -> exists c, dl (fun t => cofactor (A t) i j) x c.
Proof.
case: n A D i j => [|n] A D i j H; first by case: i. eexists. rewrite /cofactor. apply: dl_scal. exact/dl_det/mdl_minor.
Qed.

Section Inverse.
Variables (n : nat) (A : R -> 'M[R]_n) (x : R) (D : 'M[R]_n).
Hypotheses (H : mdl A x D) (U : forall t, A t \in unitmx).
Lemma det_neq0 t : \det (A t) <> 0.
Proof. by move: (U t); rewrite unitmxE unitfE => /eqP. Qed.
Lemma inv_entry t i j : invmx (A t) i j = (\det (A t))^-1 * cofactor (A t) j i.
Proof. by rewrite /invmx U !mxE. Qed.
Lemma invE (y : R) : y <> 0 -> y^-1 = (/ y)%coqR.
Proof. move=> N. apply: (mulfI (x := y)); first exact/eqP. rewrite divff; last exact/eqP. rewrite mulE Rinv_r //. Qed.
Lemma mdl_inv_ex i j : exists c, dl (fun t => invmx (A t) i j) x c.
Proof.
have [c Hc] := dl_cofactor j i H. have Hd := dl_det H. eexists.
apply: (@dl_ext (fun t => (cofactor (A t) j i / \det (A t))%coqR)).
  move=> t. rewrite inv_entry (invE (@det_neq0 t)). move: (cofactor _ _ _) (\det _) => a b. exact: Rmult_comm.
exact: (derivable_pt_lim_div _ _ _ _ _ Hc Hd (@det_neq0 x)).
Qed.
(** the derivative of the inverse *)
Lemma mdl_inv : mdl (fun t => invmx (A t)) x (- (invmx (A x) *m D *m invmx (A x))).
Proof.
have [E HE] : exists E : 'M[R]_n, mdl (fun t => invmx (A t)) x E.
  pose e i j := epsilon (inhabits (0 : R)) (fun c => dl (fun t => invmx (A t) i j) x c).
  exists (\matrix_(i, j) e i j) => i j. rewrite mxE. exact: (epsilon_spec (inhabits (0 : R)) _ (mdl_inv_ex i j)).
suff -> : - (invmx (A x) *m D *m invmx (A x)) = E by [].
have P := mdl_mul H HE. have Q : D *m invmx (A x) + A x *m E = 0.
  apply/matrixP=> i j. rewrite [RHS]mxE. apply: (dl_unique (P i j)).
  apply: (@dl_ext (fun _ => (1%:M : 'M[R]_n) i j)); last exact: dl_const. by move=> t; rewrite mulmxV.
have := congr1 (mulmx (invmx (A x))) Q. rewrite mulmx0 mulmxDr !mulmxA mulVmx // mul1mx => /eqP. rewrite addrC addr_eq0 => /eqP ->. by [].
Qed.
Lemma dl_quad (r : 'cV[R]_n) : (A x)^T = A x ->
  dl (fun t => qf (invmx (A t)) r) x (- qf D (invmx (A x) *m r)).
Proof.
move=> S. have P := mdl_mul (mdl_mul (mdl_const r^T x) mdl_inv) (mdl_const r x). have := P 0 0. congr (dl _ _ _).
rewrite mul0mx add0r mulmx0 addr0 /qf trmx_mul inv_sym // mulmxN mulNmx mxE !mulmxA. by [].
Qed.
Lemma dl_lndet : 0 <R \det (A x) -> dl (fun t => ln (\det (A t))) x (\tr (invmx (A x) *m D)).
Proof.
move=> P. have Hd := dl_det H. have := derivable_pt_lim_comp _ _ _ _ _ Hd (derivable_pt_lim_ln _ P). congr (dl _ _ _).
have -> : \adj (A x) = \det (A x) *: invmx (A x).
  rewrite /invmx U scalerA mulfV ?scale1r //. by move: (U x); rewrite unitmxE unitfE.
rewrite -scalemxAr linearZ /= mxtrace_mulC. have N := @det_neq0 x. move: (\det (A x)) (\tr _) N => a b N.
change ((/ a * (a * b))%coqR = b). field. exact: N.
Qed.
End Inverse.
