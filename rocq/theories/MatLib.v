(** Linear algebra over the standard library reals, with the matrices of the mathematical components
    library: definite matrices, Cholesky factors, and the translation of arrays given as lists. *)
From Verif Require Import Base Num UtilsSpec HypsModel CovModel KernelSpec CovSpec RStruct.
From Coq Require Import Reals Lra Lia.
From mathcomp Require Import all_ssreflect all_algebra.
Set Implicit Arguments.
Unset Strict Implicit.
Unset Printing Implicit Defensive.
Import GRing.Theory.
Delimit Scope R_scope with coqR.
Local Open Scope ring_scope.

Notation "x <=R y" := (Rle x y) (at level 70).
Notation "x <R y" := (Rlt x y) (at level 70).

(** scalar operations *)
Lemma addE (x y : R) : x + y = Rplus x y. Proof. by []. Qed.
Lemma mulE (x y : R) : x * y = Rmult x y. Proof. by []. Qed.
Lemma oppE (x : R) : - x = Ropp x. Proof. by []. Qed.
Lemma zeroE : (0 : R) = R0. Proof. by []. Qed.
Lemma oneE : (1 : R) = R1. Proof. by []. Qed.
Ltac toR := rewrite ?(addE, mulE, oppE, zeroE, oneE).
Ltac toRs := toR; repeat match goal with
  | H : context [@GRing.zero ?T] |- _ => change (@GRing.zero T) with R0 in H
  | H : context [@GRing.one ?T] |- _ => change (@GRing.one T) with R1 in H
  | H : context [@GRing.add ?T ?x ?y] |- _ => change (@GRing.add T x y) with (Rplus x y) in H
  | H : context [@GRing.mul ?T ?x ?y] |- _ => change (@GRing.mul T x y) with (Rmult x y) in H
  | H : context [@GRing.opp ?T ?x] |- _ => change (@GRing.opp T x) with (Ropp x) in H
  end.
Ltac lraR := toRs; lra.
Ltac ringR := toR; match goal with |- @eq _ ?x ?y => change (@eq R x y) end; ring.

(** ** sums *)
Lemma Rsum_big (f : nat -> R) n : Rsum (List.map f (List.seq 0 n)) = \sum_(i < n) f i.
Proof.
rewrite -(big_mkord xpredT f) /index_iota subn0.
have G : forall m k, Rsum (List.map f (List.seq k m)) = \sum_(i <- iota k m) f i.
  elim=> [|m IH] k /=; first by rewrite big_nil.
  by rewrite big_cons IH.
exact: G.
Qed.
Lemma sum_nonneg (T : Type) (s : seq T) (F : T -> R) : (forall i, 0 <=R F i) -> 0 <=R \sum_(i <- s) F i.
Proof.
move=> H; apply: (big_ind (fun x => 0 <=R x)) => [|x y A B|i _]; [exact: Rle_refl| |exact: H].
by lraR.
Qed.
Lemma sum_pos (n : nat) (F : 'I_n -> R) i0 : (forall i, 0 <=R F i) -> 0 <R F i0 -> 0 <R \sum_i F i.
Proof.
move=> H H0. rewrite (bigD1 i0) //=.
have P : 0 <=R \sum_(i < n | i != i0) F i.
  apply: (big_ind (fun x => 0 <=R x)) => [|x y A B|i _]; [exact: Rle_refl| |exact: H].
  by lraR.
move: P; move: (\sum_(i < n | i != i0) F i) => S P. lraR.
Qed.

(** ** arrays as matrices *)
Definition mxof (n m : nat) (a : list (list R)) : 'M[R]_(n, m) := \matrix_(i, j) at_ a i j.
Definition ofmx (n m : nat) (A : 'M[R]_(n, m)) : list (list R) :=
  [seq [seq A i j | j <- enum 'I_m] | i <- enum 'I_n].
Definition colof (n : nat) (w : nat -> R) : 'cV[R]_n := \col_i w i.

Lemma at_ofmx n m (A : 'M_(n, m)) (i : 'I_n) (j : 'I_m) : at_ (ofmx A) i j = A i j.
Proof.
have NTH : forall (T : Type) (x0 : T) s k, List.nth k s x0 = nth x0 s k.
  by move=> T x0; elim=> [|a s IH] [|k] //=.
rewrite /at_ /ofmx !NTH (nth_map i) ?size_enum_ord // (nth_map j) ?size_enum_ord //.
by rewrite !nth_ord_enum.
Qed.
Lemma ofmxK n m (A : 'M_(n, m)) : mxof n m (ofmx A) = A.
Proof. by apply/matrixP=> i j; rewrite mxE at_ofmx. Qed.
Lemma ofmx_is_mx n m (A : 'M_(n, m)) : is_mx n m (ofmx A).
Proof.
have SZ : forall (T : Type) (s : list T), List.length s = size s by move=> T; elim=> //= a s ->.
split; first by rewrite SZ size_map size_enum_ord.
move=> r /List.in_map_iff [i [<- _]]. by rewrite SZ size_map size_enum_ord.
Qed.
Lemma mxofE n m a (i : 'I_n) (j : 'I_m) : mxof n m a i j = at_ a i j.
Proof. by rewrite mxE. Qed.
Lemma mxof_eq n m a b : (forall i j, lt i n -> lt j m -> at_ a i j = at_ b i j) -> mxof n m a = mxof n m b.
Proof. by move=> H; apply/matrixP=> i j; rewrite !mxE; apply: H; apply/ltP. Qed.
Lemma mxof_inj n m a b i j : lt i n -> lt j m -> mxof n m a = mxof n m b -> at_ a i j = at_ b i j.
Proof.
move=> /ltP Hi /ltP Hj /matrixP /(_ (Ordinal Hi) (Ordinal Hj)). by rewrite !mxE.
Qed.
Lemma is_mx_eq n m (a b : list (list R)) : is_mx n m a -> is_mx n m b ->
  (forall i j, lt i n -> lt j m -> at_ a i j = at_ b i j) -> a = b.
Proof.
move=> [La Ra] [Lb Rb] H. apply: (List.nth_ext a b [::] [::]); first by rewrite La Lb.
move=> i Hi. have Hi' : lt i n by rewrite -La.
have Ia : List.length (List.nth i a [::]) = m by apply: Ra; apply: List.nth_In.
have Ib : List.length (List.nth i b [::]) = m by apply: Rb; apply: List.nth_In; rewrite Lb.
apply: (List.nth_ext _ _ 0 0); first by rewrite Ia Ib.
move=> j Hj. apply: H => //. by rewrite -Ia.
Qed.
Lemma prod_at_mx n m p a b (i : 'I_n) (j : 'I_p) : prod_at m a b i j = (mxof n m a *m mxof m p b) i j.
Proof. by rewrite /prod_at Rsum_big mxE; apply: eq_bigr => k _; rewrite !mxE. Qed.

Lemma symmetricP n a : CovSpec.symmetric n a <-> (mxof n n a)^T = mxof n n a.
Proof.
split.
- move=> H. apply/matrixP=> i j. by rewrite !mxE; apply: H; apply/ltP.
- move=> /matrixP H i j /ltP Hi /ltP Hj. move: (H (Ordinal Hj) (Ordinal Hi)). by rewrite !mxE.
Qed.
Lemma is_inverseP n a b : is_mx n n b ->
  (is_inverse n a b <-> mxof n n a *m mxof n n b = 1%:M /\ mxof n n b *m mxof n n a = 1%:M).
Proof.
move=> HB. split.
- move=> [_ [H1 H2]]. split; apply/matrixP=> i j; rewrite -prod_at_mx ?H1 ?H2; try exact/ltP;
    rewrite mxE; case: (PeanoNat.Nat.eqb_spec i j) => E.
  + by rewrite (_ : i == j = true) //; apply/eqP/val_inj.
  + by rewrite (_ : i == j = false) //; apply/eqP => F; apply: E; rewrite F.
  + by rewrite (_ : i == j = true) //; apply/eqP/val_inj.
  + by rewrite (_ : i == j = false) //; apply/eqP => F; apply: E; rewrite F.
- move=> [H1 H2]. split=> //.
  have G : forall (c d : list (list R)) i j, mxof n n c *m mxof n n d = 1%:M -> lt i n -> lt j n ->
      prod_at n c d i j = if PeanoNat.Nat.eqb i j then 1 else 0.
    move=> c d i j E /ltP Hi /ltP Hj.
    rewrite (prod_at_mx n c d (Ordinal Hi) (Ordinal Hj)) E mxE.
    case: (PeanoNat.Nat.eqb_spec i j) => F.
    + by rewrite (_ : _ == _ = true) //; apply/eqP/val_inj.
    + by rewrite (_ : _ == _ = false) //; apply/eqP => /(congr1 val).
  split=> i j Hi Hj; exact: G.
Qed.

(** ** quadratic forms *)
Section Quad.
Variable n : nat.
Implicit Types (A : 'M[R]_n) (v : 'cV[R]_n).
Definition qf A v : R := (v^T *m A *m v) 0 0.
Definition pd A : Prop := forall v, v != 0 -> 0 <R qf A v.
Definition psdm A : Prop := forall v, 0 <=R qf A v.
Definition dot (u v : 'cV[R]_n) : R := (u^T *m v) 0 0.

Lemma qf0 A : qf A 0 = 0. Proof. by rewrite /qf mulmx0 mxE. Qed.
Lemma pd_psdm A : pd A -> psdm A.
Proof. by move=> H v; case: (eqVneq v 0) => [->|N]; [rewrite qf0; exact: Rle_refl|left; exact: H]. Qed.
Lemma qfE A v : qf A v = \sum_i \sum_j v i 0 * v j 0 * A i j.
Proof.
rewrite /qf mxE exchange_big /=. apply: eq_bigr => j _. rewrite mxE big_distrl /=. apply: eq_bigr => i _.
rewrite !mxE. ringR.
Qed.
Lemma quad_qf a w : quad n a w = qf (mxof n n a) (colof n w).
Proof.
rewrite qfE /quad Rsum_big. apply: eq_bigr => i _. rewrite Rsum_big. apply: eq_bigr => j _. by rewrite !mxE.
Qed.
Lemma dotE (u v : 'cV_n) : dot u v = \sum_i u i 0 * v i 0.
Proof. by rewrite /dot mxE; apply: eq_bigr => i _; rewrite mxE. Qed.
Lemma dotC (u v : 'cV_n) : dot u v = dot v u.
Proof. by rewrite !dotE; apply: eq_bigr => i _; rewrite mulrC. Qed.
Lemma dot_self_ge0 (v : 'cV_n) : 0 <=R dot v v.
Proof. by rewrite dotE; apply: sum_nonneg => i; apply: Rle_0_sqr. Qed.
Lemma dot_self_gt0 (v : 'cV_n) : v != 0 -> 0 <R dot v v.
Proof.
move=> N. have [i Hi] : exists i, v i 0 != 0.
  apply/existsP; rewrite -negb_forall; apply: contra N => /forallP H; apply/eqP/matrixP=> i j.
  by rewrite ord1 mxE; apply/eqP; exact: H.
rewrite dotE. apply: (@sum_pos _ _ i) => [k|]; first exact: Rle_0_sqr.
apply: Rlt_0_sqr. exact/eqP.
Qed.
Lemma scal11 (x : R) (B : 'M[R]_1) : (x *: B) 0 0 = x * B 0 0. Proof. by rewrite mxE. Qed.

(** definite matrices are invertible *)
Lemma pd_unit A : pd A -> A \in unitmx.
Proof.
move=> H. rewrite -row_free_unit -kermx_eq0. apply: contraT => /rowV0Pn [u /sub_kermxP E N].
have N' : u^T != 0 by apply: contra N => /eqP E'; rewrite -[u]trmxK E' trmx0.
move: (H _ N'). rewrite /qf trmxK E mul0mx mxE => F. by exfalso; move: F; lraR.
Qed.
End Quad.

Lemma semidefiniteP n a : semidefinite n a <-> psdm (mxof n n a).
Proof.
split.
- move=> H v. have -> : v = colof n (fun i => if insub i is Some k then v k 0 else 0).
    apply/matrixP=> i j. rewrite mxE ord1. by rewrite valK.
  rewrite -quad_qf. exact: H.
- move=> H w. rewrite quad_qf. exact: H.
Qed.
Lemma definiteP n a : definite n a <-> pd (mxof n n a).
Proof.
split.
- move=> H v N. have E : v = colof n (fun i => if insub i is Some k then v k 0 else 0).
    apply/matrixP=> i j. rewrite mxE ord1. by rewrite valK.
  rewrite E -quad_qf. apply: H.
  have [i Hi] : exists i, v i 0 != 0.
    apply/existsP; rewrite -negb_forall; apply: contra N => /forallP H; apply/eqP/matrixP=> i j.
    by rewrite ord1 mxE; apply/eqP; exact: H.
  exists i. split; first exact/ltP. rewrite valK. exact/eqP.
- move=> H w [i [/ltP Hi Wi]]. rewrite quad_qf. apply: H. apply/eqP => /matrixP /(_ (Ordinal Hi) 0).
  by rewrite !mxE.
Qed.

(** ** Cholesky factors exist *)
Lemma qf_block n (a : R) (b : 'cV[R]_n) (D : 'M[R]_n) (x : R) (v : 'cV[R]_n) :
  qf (block_mx (a%:M : 'M_1) b^T b D) (col_mx (x%:M : 'M_1) v) = a * (x * x) + (x * dot b v) *+ 2 + qf D v.
Proof.
rewrite /qf tr_col_mx mul_row_block mul_row_col !mulmxDl.
rewrite mxE [X in X + _]mxE [X in _ + X]mxE.
have -> : ((x%:M : 'M_1)^T *m a%:M *m x%:M) 0 0 = a * (x * x).
  by rewrite tr_scalar_mx -!scalar_mxM mxE eqxx mulr1n; ringR.
have -> : (v^T *m b *m x%:M) 0 0 = x * dot b v.
  by rewrite mul_mx_scalar scal11 -/(dot v b) dotC.
have -> : ((x%:M : 'M_1)^T *m b^T *m v) 0 0 = x * dot b v.
  by rewrite tr_scalar_mx -mulmxA mul_scalar_mx scal11.
rewrite -/(qf D v) mulr2n. ringR.
Qed.

Lemma pd_schur n (a : R) (b : 'cV[R]_n) (D : 'M[R]_n) : pd (block_mx (a%:M : 'M_1) b^T b D) ->
  0 <R a /\ pd (D - (Rinv a) *: (b *m b^T)).
Proof.
move=> H. have Pa : 0 <R a.
  have N : col_mx (1%:M : 'M[R]_1) (0 : 'cV[R]_n) != 0.
    apply/eqP => /matrixP /(_ (lshift n 0) 0). rewrite col_mxEu !mxE eqxx => E. exact: R1_neq_R0 E.
  move: (H _ N). rewrite qf_block qf0 dotE big1 ?mulr0 ?mul0rn ?addr0 ?mulr1 //.
  by move=> i _; rewrite !mxE mulr0.
split=> // v N.
set t := dot b v.
have N' : col_mx ((- (t * Rinv a))%:M : 'M[R]_1) v != 0.
  apply: contra N => /eqP /(congr1 (@dsubmx _ 1 n 1)). rewrite col_mxKd linear0 => E. exact/eqP.
move: (H _ N'). rewrite qf_block -/t.
have -> : qf (D - (Rinv a) *: (b *m b^T)) v = qf D v - Rinv a * (t * t).
  rewrite /qf mulmxBr mulmxBl mxE [X in _ + X]mxE. congr (_ - _).
  rewrite -scalemxAr -scalemxAl scal11. congr (_ * _).
  have -> : v^T *m (b *m b^T) *m v = (v^T *m b) *m (b^T *m v) by rewrite !mulmxA.
  rewrite mxE big_ord1. by rewrite -/(dot v b) -/(dot b v) (dotC v).
rewrite mulr2n. toR. have := Rinv_r a ltac:(lra). move: (Rinv a) => q E.
have -> : (a * (- (t * q) * - (t * q)) + (- (t * q) * t + - (t * q) * t) + qf D v = (a * q) * (t * t * q) - (t * t * q) - (t * t * q) + qf D v)%coqR by ring.
rewrite E. lra.
Qed.

Lemma cholesky_exists n (A : 'M[R]_n) : A^T = A -> pd A ->
  exists L : 'M[R]_n, [/\ forall i j : 'I_n, (i < j)%N -> L i j = 0, forall i, 0 <R L i i & L *m L^T = A].
Proof.
elim: n A => [|n IH] A SA PA.
  exists 0. split; [by case|by case|by apply/matrixP; case].
rewrite -[n.+1]/(1 + n)%N in A SA PA *.
pose a := A (lshift n 0) (lshift n 0). pose b : 'cV[R]_n := dlsubmx A. pose D := drsubmx A.
have EA : A = block_mx (a%:M : 'M_1) b^T b D.
  rewrite -[LHS]submxK. congr block_mx.
  - by apply/matrixP=> i j; rewrite (ord1 i) (ord1 j) !mxE eqxx mulr1n.
  - by apply/matrixP=> i j; rewrite !mxE -{1}SA mxE.
have SD : D^T = D by rewrite /D; apply/matrixP=> i j; rewrite !mxE -{1}SA mxE.
have [Pa PS] := pd_schur (eq_ind A (fun M => pd M) PA _ EA).
have SS : (D - (Rinv a) *: (b *m b^T))^T = D - (Rinv a) *: (b *m b^T).
  by rewrite linearB linearZ /= SD trmx_mul trmxK.
have [L [T P E]] := IH _ SS PS.
pose s := sqrt a. have Ps : 0 <R s by apply: sqrt_lt_R0.
have Ess : s * s = a by apply: sqrt_sqrt; left.
exists (block_mx (s%:M : 'M_1) 0 ((Rinv s) *: b) L). split.
- move=> i j. case: (split_ordP i) => i' -> ; case: (split_ordP j) => j' ->; rewrite ?block_mxEul ?block_mxEur ?block_mxEdl ?block_mxEdr.
  + by rewrite !ord1 ltnn.
  + by rewrite mxE.
  + by rewrite ord1 /=.
  + rewrite /= ltn_add2l. exact: T.
- move=> i. case: (split_ordP i) => i' ->; rewrite ?block_mxEul ?block_mxEdr.
  + by rewrite ord1 mxE eqxx mulr1n.
  + exact: P.
- rewrite EA tr_block_mx mulmx_block !trmx0 !mulmx0 !mul0mx !addr0 tr_scalar_mx. congr block_mx.
  + by rewrite -scalar_mxM Ess.
  + rewrite linearZ /= mul_scalar_mx scalerA. by rewrite mulE Rinv_r ?scale1r //; lra.
  + rewrite mul_mx_scalar scalerA. by rewrite mulE Rinv_r ?scale1r //; lra.
  + rewrite linearZ /= -scalemxAr -scalemxAl scalerA E.
    have -> : Rinv s * Rinv s = Rinv a by rewrite mulE -Rinv_mult -mulE Ess.
    by rewrite addrC subrK.
Qed.

(** ** consequences for arrays *)
Lemma eqb_ord n (i j : 'I_n) : (i == j) = PeanoNat.Nat.eqb i j.
Proof.
case: (PeanoNat.Nat.eqb_spec i j) => E; first by apply/eqP/val_inj.
by apply/eqP => F; apply: E; rewrite F.
Qed.
Lemma unit_inverse n (a : list (list R)) : mxof n n a \in unitmx -> is_inverse n a (ofmx (invmx (mxof n n a))).
Proof.
move=> U. apply/is_inverseP; first exact: ofmx_is_mx.
by rewrite ofmxK mulmxV // mulVmx.
Qed.
Lemma definite_inverse n (a : list (list R)) : definite n a -> exists b, is_inverse n a b.
Proof. by move=> /definiteP P; exists (ofmx (invmx (mxof n n a))); apply: unit_inverse; exact: pd_unit. Qed.
Lemma inverse_unit n a b : is_inverse n a b -> mxof n n a \in unitmx /\ mxof n n b = invmx (mxof n n a).
Proof.
move=> H. have HB : is_mx n n b by case: H. move/(is_inverseP a HB): H => [H1 H2].
have [U _] := mulmx1_unit H1. split=> //.
by rewrite -[RHS]mulmx1 -H1 mulKmx.
Qed.
Lemma inverse_unique n a b b' : is_inverse n a b -> is_inverse n a b' -> b = b'.
Proof.
move=> H H'. have [_ E] := inverse_unit H. have [_ E'] := inverse_unit H'.
apply: (@is_mx_eq n n); [by case: H|by case: H'|]. move=> i j Hi Hj. by apply: (@mxof_inj n n) => //; rewrite E E'.
Qed.
Lemma is_choleskyP n a l : is_mx n n l ->
  (is_cholesky n a l <-> [/\ forall i j : 'I_n, (i < j)%N -> mxof n n l i j = 0, forall i : 'I_n, 0 <R mxof n n l i i
     & mxof n n l *m (mxof n n l)^T = mxof n n a]).
Proof.
move=> HL. split.
- move=> [_ [T [P E]]]. split.
  + move=> i j Hij. rewrite mxE. apply: T; exact/ltP.
  + move=> i. rewrite mxE. apply: P. exact/ltP.
  + apply/matrixP=> i j. rewrite !mxE E; try exact/ltP. rewrite Rsum_big. by apply: eq_bigr => k _; rewrite !mxE.
- move=> [T P E]. split=> //. split; [|split].
  + move=> i j /ltP Hi /ltP Hj /ltP Hij. move: (T (Ordinal Hi) (Ordinal Hj) Hij). by rewrite mxE.
  + move=> i /ltP Hi. move: (P (Ordinal Hi)). by rewrite mxE.
  + move=> i j /ltP Hi /ltP Hj. move/matrixP: E => /(_ (Ordinal Hi) (Ordinal Hj)). rewrite !mxE /= => <-.
    rewrite Rsum_big. by apply: eq_bigr => k _; rewrite !mxE.
Qed.
Lemma definite_cholesky n a : CovSpec.symmetric n a -> definite n a -> exists l, is_cholesky n a l.
Proof.
move=> /symmetricP S /definiteP P. have [L [T D E]] := cholesky_exists S P.
exists (ofmx L). apply/is_choleskyP; first exact: ofmx_is_mx. by rewrite ofmxK.
Qed.
Lemma trig_det n (L : 'M[R]_n) : (forall i j : 'I_n, (i < j)%N -> L i j = 0) -> \det L = \prod_i L i i.
Proof. by move=> H; apply: det_trig; apply/is_trig_mxP. Qed.
Lemma prod_pos n (F : 'I_n -> R) : (forall i, 0 <R F i) -> 0 <R \prod_i F i.
Proof.
move=> H. apply: (big_ind (fun x => 0 <R x)) => [|x y A B|i _]; [exact: Rlt_0_1| |exact: H]. by apply: Rmult_lt_0_compat.
Qed.
Lemma chol_pd n (L : 'M[R]_n) : (forall i j : 'I_n, (i < j)%N -> L i j = 0) -> (forall i, 0 <R L i i) -> pd (L *m L^T).
Proof.
move=> T P v N. have -> : qf (L *m L^T) v = dot (L^T *m v) (L^T *m v).
  by rewrite /qf /dot trmx_mul trmxK !mulmxA.
apply: dot_self_gt0. have U : L^T \in unitmx.
  rewrite unitmx_tr unitmxE trig_det // unitfE. apply/eqP => E. have := prod_pos P. rewrite E. by lraR.
apply: contra N => /eqP E. apply/eqP. by rewrite -[v](mulKmx U) E mulmx0.
Qed.
Lemma cholesky_definite n a l : is_cholesky n a l -> definite n a.
Proof.
move=> H. have HL : is_mx n n l by case: H. move/(is_choleskyP a HL): H => [T P E].
apply/definiteP. rewrite -E. exact: chol_pd.
Qed.
