(** Gaussian process regression with a positive semi-definite kernel, in matrix form. *)
From Verif Require Import Base Num UtilsSpec HypsModel CovModel KernelSpec CovSpec RStruct MatLib.
From Coq Require Import Reals Lra Lia.
From mathcomp Require Import all_ssreflect perm all_algebra.
Set Implicit Arguments.
Unset Strict Implicit.
Unset Printing Implicit Defensive.
Import GRing.Theory.
Delimit Scope R_scope with coqR.
Local Open Scope ring_scope.

Lemma addmxE n m (A B : 'M[R]_(n, m)) i j : (A + B) i j = A i j + B i j. Proof. by rewrite mxE. Qed.
Lemma oppmxE n m (A : 'M[R]_(n, m)) i j : (- A) i j = - A i j. Proof. by rewrite mxE. Qed.
Lemma trB n m (A B : 'M[R]_(n, m)) : (A - B)^T = A^T - B^T. Proof. by apply/matrixP=> i j; rewrite !mxE. Qed.
Lemma trN n m (A : 'M[R]_(n, m)) : (- A)^T = - A^T. Proof. by apply/matrixP=> i j; rewrite !mxE. Qed.
Lemma trZ n m (t : R) (A : 'M[R]_(n, m)) : (t *: A)^T = t *: A^T. Proof. by apply/matrixP=> i j; rewrite !mxE. Qed.
Lemma trD n m (A B : 'M[R]_(n, m)) : (A + B)^T = A^T + B^T. Proof. by apply/matrixP=> i j; rewrite !mxE. Qed.

Lemma alg1 (p q s v : R) : - v + p = - (s * q) -> p = v - q * s. Proof. move=> E. lraR. Qed.
Lemma alg2 (p k t s : R) : (k + t) * -1 + p = - s -> k - p + t = s. Proof. move=> E. lraR. Qed.
Lemma delta_form n (M : 'M[R]_n) (i : 'I_n) : ((delta_mx i 0 : 'cV[R]_n)^T *m M *m (delta_mx i 0 : 'cV[R]_n)) 0 0 = M i i.
Proof. by rewrite -colE trmx_delta -rowE !mxE. Qed.

(** ** facts about definite matrices *)
Section Definite.
Variable n : nat.
Implicit Types (A : 'M[R]_n) (u v k : 'cV[R]_n).

Lemma bil A u v : (u^T *m A *m v) 0 0 = \sum_i \sum_j u i 0 * A i j * v j 0.
Proof.
rewrite mxE exchange_big /=. apply: eq_bigr => j _. rewrite mxE big_distrl /=. by apply: eq_bigr => i _; rewrite !mxE.
Qed.
Lemma bil_tr A u v : (u^T *m A *m v) 0 0 = (v^T *m A^T *m u) 0 0.
Proof. by rewrite -[in RHS](trmxK u) -!trmx_mul [in RHS]mxE mulmxA. Qed.
Lemma bil_sym A u v : A^T = A -> (u^T *m A *m v) 0 0 = (v^T *m A *m u) 0 0.
Proof. by move=> S; rewrite bil_tr S. Qed.
Lemma inv_sym A : A^T = A -> (invmx A)^T = invmx A.
Proof. by move=> S; rewrite trmx_inv S. Qed.
Lemma qfB A u v : A^T = A -> qf A (u - v) = qf A u - (u^T *m A *m v) 0 0 *+ 2 + qf A v.
Proof.
move=> S. rewrite /qf trB mulmxBl !mulmxBr !mulmxBl !(addmxE, oppmxE). rewrite (bil_sym v u S) mulr2n.
move: ((u^T *m A *m u) 0 0) ((u^T *m A *m v) 0 0) ((v^T *m A *m v) 0 0) => p q r. ringR.
Qed.
Lemma qf_inv A k : A^T = A -> A \in unitmx -> qf A (invmx A *m k) = (k^T *m invmx A *m k) 0 0.
Proof. by move=> S U; rewrite /qf trmx_mul inv_sym // mulmxA -!mulmxA mulKmx // !mulmxA. Qed.
Lemma qf_inv_ge0 A k : A^T = A -> pd A -> 0 <=R (k^T *m invmx A *m k) 0 0.
Proof. by move=> S P; rewrite -qf_inv //; [exact: pd_psdm|exact: pd_unit]. Qed.
(** [k^T A^-1 k] is the maximum of [2 a^T k - a^T A a] *)
Lemma var_opt A k a : A^T = A -> pd A -> (dot a k *+ 2 - qf A a) <=R (k^T *m invmx A *m k) 0 0.
Proof.
move=> S P. have U := pd_unit P. have := pd_psdm P (a - invmx A *m k). rewrite qfB // qf_inv //.
have -> : (a^T *m A *m (invmx A *m k)) 0 0 = dot a k by rewrite -mulmxA mulKVmx.
move: (dot a k) (qf A a) ((k^T *m invmx A *m k) 0 0) => x y z. rewrite !mulr2n. lraR.
Qed.
Lemma var_opt_eq A k : A^T = A -> pd A -> dot (invmx A *m k) k *+ 2 - qf A (invmx A *m k) = (k^T *m invmx A *m k) 0 0.
Proof.
move=> S P. rewrite qf_inv ?pd_unit // /dot trmx_mul inv_sym // mulr2n. by rewrite addrK.
Qed.
Lemma qf_scalar (t : R) v : qf (t%:M) v = t * dot v v.
Proof. by rewrite /qf /dot mul_mx_scalar -scalemxAl mxE. Qed.
Lemma qfD A A' v : qf (A + A') v = qf A v + qf A' v.
Proof. by rewrite /qf mulmxDr mulmxDl mxE. Qed.
Lemma pd_shift A (t : R) : psdm A -> 0 <R t -> pd (A + t%:M).
Proof.
move=> P T v N. rewrite qfD qf_scalar. have := P v. have := dot_self_gt0 N. move: (dot v v) (qf A v) => x y Hx Hy.
have := Rmult_lt_0_compat _ _ T Hx. lraR.
Qed.
Lemma sym_shift A (t : R) : A^T = A -> (A + t%:M)^T = A + t%:M.
Proof. by move=> S; rewrite trD S tr_scalar_mx. Qed.
End Definite.

(** ** posterior covariances *)
Lemma qf_block_mx n l (A : 'M[R]_n) (C : 'M[R]_(n, l)) (S : 'M[R]_l) a b :
  qf (block_mx A C C^T S) (col_mx a b) = qf A a + (a^T *m C *m b) 0 0 *+ 2 + qf S b.
Proof.
rewrite /qf tr_col_mx mul_row_block mul_row_col !mulmxDl !addmxE.
have -> : (b^T *m C^T *m a) 0 0 = (a^T *m C *m b) 0 0.
  by rewrite -[in RHS](trmxK (_ *m b)) [in RHS]mxE !trmx_mul trmxK mulmxA.
rewrite mulr2n. move: ((a^T *m A *m a) 0 0) ((a^T *m C *m b) 0 0) ((b^T *m S *m b) 0 0) => p q r. ringR.
Qed.
Lemma psd_schur n l (A : 'M[R]_n) (C : 'M[R]_(n, l)) (S : 'M[R]_l) (t : R) : A^T = A -> psdm (block_mx A C C^T S) -> 0 <R t ->
  psdm A /\ psdm (S - C^T *m invmx (A + t%:M) *m C).
Proof.
move=> SA P T.
have PA : psdm A.
  move=> a. have := P (col_mx a 0). rewrite qf_block_mx qf0 mulmx0 mxE mul0rn. by rewrite !addr0.
split=> // v. have PB := pd_shift PA T. have SB := sym_shift t SA. have U := pd_unit PB.
set B := A + t%:M in PB SB U *. set k := C *m v. pose a := invmx B *m k.
have -> : qf (S - C^T *m invmx B *m C) v = qf S v - (k^T *m invmx B *m k) 0 0.
  rewrite /qf mulmxBr mulmxBl addmxE oppmxE. congr (_ - _). by rewrite /k trmx_mul !mulmxA.
have := P (col_mx (- a) v). rewrite qf_block_mx.
have -> : ((- a)^T *m C *m v) 0 0 = - (k^T *m invmx B *m k) 0 0.
  rewrite trN !mulNmx oppmxE. congr (- _). by rewrite -mulmxA -/k /a trmx_mul inv_sym.
have -> : qf A (- a) = (k^T *m invmx B *m k) 0 0 - t * dot a a.
  have -> : qf A (- a) = qf A a by rewrite /qf trN !mulNmx mulmxN opprK.
  rewrite -(qf_inv k SB U) -/a /B qfD qf_scalar. by rewrite addrK.
have := dot_self_ge0 a. move: (dot a a) (qf S v) ((k^T *m invmx B *m k) 0 0) => p q r Hp.
have := Rmult_le_pos _ _ (Rlt_le _ _ T) Hp. rewrite mulr2n. lraR.
Qed.

Section GP.
Variables (T : Type) (K : T -> T -> R).
Hypotheses (Ksym : forall a b, K a b = K b a) (Kpsd : psd K).

Definition kmx n (x : nat -> T) : 'M[R]_n := \matrix_(i, j) K (x i) (x j).
Definition cross n l (x z : nat -> T) : 'M[R]_(n, l) := \matrix_(i, j) K (x i) (z j).
Definition gram n (x : nat -> T) (t : R) : 'M[R]_n := kmx n x + t%:M.
Definition kvec n (x : nat -> T) (z : T) : 'cV[R]_n := \col_i K (x i) z.

Lemma kmx_sym n x : (kmx n x)^T = kmx n x.
Proof. by apply/matrixP=> i j; rewrite !mxE. Qed.
Lemma kmx_psd n x : psdm (kmx n x).
Proof.
move=> v. have := Kpsd (List.map (fun i => (if insub i is Some k then v k 0 else 0, x i)) (List.seq 0 n)).
rewrite /qform List.map_map Rsum_big qfE. congr (_ <=R _). apply: eq_bigr => i _. rewrite List.map_map Rsum_big.
apply: eq_bigr => j _. by rewrite /= !valK mxE.
Qed.
Lemma gram_sym n x t : (gram n x t)^T = gram n x t. Proof. exact/sym_shift/kmx_sym. Qed.
Lemma gram_pd n x t : 0 <R t -> pd (gram n x t). Proof. exact/pd_shift/kmx_psd. Qed.
Lemma gram_unit n x t : 0 <R t -> gram n x t \in unitmx. Proof. by move=> H; exact/pd_unit/gram_pd. Qed.
Lemma gramE n x t i j : gram n x t i j = K (x i) (x j) + (if i == j then t else 0).
Proof. by rewrite !mxE; case: (i == j). Qed.

(** prediction weights, posterior mean of centred outputs, posterior covariance *)
Definition weights n (x : nat -> T) (t : R) (z : T) : 'cV[R]_n := invmx (gram n x t) *m kvec n x z.
Definition pmean0 n (x : nat -> T) (t : R) (r : nat -> R) (z : T) : R := dot (weights n x t z) (colof n r).
Definition pcov n (x : nat -> T) (t : R) (z z' : T) : R := K z z' - dot (weights n x t z) (kvec n x z').

Lemma weights_eq n x t z : 0 <R t -> gram n x t *m weights n x t z = kvec n x z.
Proof. by move=> H; rewrite /weights mulKVmx // gram_unit. Qed.
Lemma weights_unique n x t z (u : 'cV_n) : 0 <R t -> gram n x t *m u = kvec n x z -> u = weights n x t z.
Proof. by move=> H E; rewrite /weights -E mulKmx // gram_unit. Qed.
Lemma weights_dot n x t z (v : 'cV_n) : dot (weights n x t z) v = ((kvec n x z)^T *m invmx (gram n x t) *m v) 0 0.
Proof. by rewrite /dot /weights trmx_mul inv_sym // gram_sym. Qed.

Lemma pcov_sym n x t z z' : pcov n x t z z' = pcov n x t z' z.
Proof. by rewrite /pcov !weights_dot Ksym; congr (_ - _); apply: bil_sym; rewrite inv_sym // gram_sym. Qed.
Definition pcovmx n x t l (z : nat -> T) : 'M[R]_l := \matrix_(j, k) pcov n x t (z j) (z k).
Lemma joint n l (x z : nat -> T) : psdm (block_mx (kmx n x) (cross n l x z) (cross n l x z)^T (kmx l z)).
Proof.
pose e i := if (i < n)%N then x i else z (i - n)%N.
suff -> : block_mx (kmx n x) (cross n l x z) (cross n l x z)^T (kmx l z) = kmx (n + l) e by exact: kmx_psd.
apply/matrixP=> i j. case: (split_ordP i) => i' ->; case: (split_ordP j) => j' ->;
  rewrite ?block_mxEul ?block_mxEur ?block_mxEdl ?block_mxEdr !mxE /e /= ?ltn_ord ?ltnNge ?leq_addr //= ?addKn -?ltnNge ?ltn_ord //.
Qed.
Lemma pcovmxE n x t l z : pcovmx n x t l z = kmx l z - (cross n l x z)^T *m invmx (gram n x t) *m cross n l x z.
Proof.
apply/matrixP=> j k. rewrite [LHS]mxE addmxE oppmxE [kmx l z j k]mxE /pcov weights_dot. congr (_ - _).
rewrite [LHS]mxE [RHS]mxE. apply: eq_bigr => a _. congr (_ * _); last by rewrite !mxE.
rewrite [LHS]mxE [RHS]mxE. by apply: eq_bigr => b _; rewrite !mxE.
Qed.
Lemma pcovmx_psd n x t l z : 0 <R t -> psdm (pcovmx n x t l z).
Proof. by move=> H; rewrite pcovmxE; case: (psd_schur (kmx_sym n x) (@joint n l x z) H). Qed.
Lemma pcov_ge0 n x t z : 0 <R t -> 0 <=R pcov n x t z z.
Proof.
move=> H. have := @pcovmx_psd n x t 1 (fun _ => z) H (const_mx 1). rewrite qfE !big_ord1 !mxE !mul1r. by [].
Qed.
Lemma pcov_le n x t z : 0 <R t -> pcov n x t z z <=R K z z.
Proof.
move=> H. rewrite /pcov weights_dot. have := qf_inv_ge0 (kvec n x z) (gram_sym n x t) (@gram_pd n x t H).
move: (_ 0 0) => q Hq. lraR.
Qed.
(** any linear predictor gives an upper bound *)
Lemma pcov_opt n x t z (a : 'cV_n) : 0 <R t -> pcov n x t z z <=R K z z - dot a (kvec n x z) *+ 2 + qf (gram n x t) a.
Proof.
move=> H. rewrite /pcov weights_dot. have := var_opt (kvec n x z) a (gram_sym n x t) (@gram_pd n x t H).
move: (dot a _) (qf _ a) (_ 0 0) => p q r. rewrite mulr2n. lraR.
Qed.
Lemma pcov_opt_eq n x t z : 0 <R t ->
  pcov n x t z z = K z z - dot (weights n x t z) (kvec n x z) *+ 2 + qf (gram n x t) (weights n x t z).
Proof.
move=> H. rewrite /pcov. have := var_opt_eq (kvec n x z) (gram_sym n x t) (@gram_pd n x t H). rewrite -/(weights n x t z) -weights_dot.
move: (dot _ _) (qf _ _) (K z z) => p q k. rewrite !mulr2n => E. lraR.
Qed.
(** more data *)
Lemma pcov_more n p x t z : 0 <R t -> pcov (n + p) x t z z <=R pcov n x t z z.
Proof.
move=> H. rewrite (@pcov_opt_eq n) //. pose a := col_mx (weights n x t z) (0 : 'cV_p).
have := @pcov_opt (n + p) x t z a H. rewrite /a.
have -> : dot (col_mx (weights n x t z) (0 : 'cV_p)) (kvec (n + p) x z) = dot (weights n x t z) (kvec n x z).
  rewrite !dotE big_split_ord /= [X in _ + X]big1 ?addr0.
  - by apply: eq_bigr => i _; rewrite col_mxEu !mxE.
  - by move=> i _; rewrite col_mxEd !mxE mul0r.
have -> : qf (gram (n + p) x t) (col_mx (weights n x t z) 0) = qf (gram n x t) (weights n x t z).
  rewrite !qfE big_split_ord /= [X in _ + X]big1 ?addr0.
  - apply: eq_bigr => i _. rewrite big_split_ord /= [X in _ + X]big1 ?addr0.
    + apply: eq_bigr => j _. rewrite !col_mxEu !gramE. congr (_ * (_ + _)).
    + by move=> j _; rewrite col_mxEd [X in _ * X * _]mxE mulr0 mul0r.
  - by move=> i _; apply: big1 => j _; rewrite col_mxEd mxE !mul0r.
by [].
Qed.

(** the data only matter through their values *)
Lemma gram_ext n (x x' : nat -> T) t : (forall i : 'I_n, x i = x' i) -> gram n x t = gram n x' t.
Proof. by move=> E; apply/matrixP=> i j; rewrite !gramE !E. Qed.
Lemma kvec_ext n (x x' : nat -> T) z : (forall i : 'I_n, x i = x' i) -> kvec n x z = kvec n x' z.
Proof. by move=> E; apply/matrixP=> i j; rewrite !mxE !E. Qed.
Lemma weights_ext n (x x' : nat -> T) t z : (forall i : 'I_n, x i = x' i) -> weights n x t z = weights n x' t z.
Proof. by move=> E; rewrite /weights (gram_ext t E) (kvec_ext z E). Qed.
Lemma pcov_ext n (x x' : nat -> T) t z z' : (forall i : 'I_n, x i = x' i) -> pcov n x t z z' = pcov n x' t z z'.
Proof. by move=> E; rewrite /pcov (weights_ext t z E) (kvec_ext z' E). Qed.
Lemma pmean_ext n (x x' : nat -> T) t (r r' : nat -> R) z : (forall i : 'I_n, x i = x' i) -> (forall i : 'I_n, r i = r' i) ->
  pmean0 n x t r z = pmean0 n x' t r' z.
Proof.
move=> E F; rewrite /pmean0 (weights_ext t z E). congr dot. by apply/matrixP=> i j; rewrite !mxE F.
Qed.

(** permuted data *)
Lemma weights_perm n (x x' : nat -> T) t z (s : 'S_n) : 0 <R t -> (forall i : 'I_n, x' i = x (s i)) ->
  weights n x' t z = \col_i weights n x t z (s i) 0.
Proof.
move=> H E. symmetry. apply: weights_unique => //. apply/matrixP=> i j. rewrite !mxE ord1 E.
have := weights_eq n x z H => /matrixP /(_ (s i) 0). rewrite !mxE => <-.
rewrite [RHS](reindex_inj (@perm_inj _ s)) /=. apply: eq_bigr => k _. rewrite !gramE !mxE !E. congr ((_ + _) * _).
by rewrite (inj_eq (@perm_inj _ s)).
Qed.
Lemma pmean_perm n (x x' : nat -> T) t (r r' : nat -> R) z (s : 'S_n) : 0 <R t -> (forall i : 'I_n, x' i = x (s i)) -> (forall i : 'I_n, r' i = r (s i)) ->
  pmean0 n x' t r' z = pmean0 n x t r z.
Proof.
move=> H E F. rewrite /pmean0 (weights_perm z H E) !dotE. rewrite [RHS](reindex_inj (@perm_inj _ s)) /=.
by apply: eq_bigr => i _; rewrite !mxE F.
Qed.
Lemma pcov_perm n (x x' : nat -> T) t z z' (s : 'S_n) : 0 <R t -> (forall i : 'I_n, x' i = x (s i)) -> pcov n x' t z z' = pcov n x t z z'.
Proof.
move=> H E. rewrite /pcov (weights_perm z H E) !dotE. congr (_ - _). rewrite [RHS](reindex_inj (@perm_inj _ s)) /=.
by apply: eq_bigr => i _; rewrite !mxE E.
Qed.

(** affine in the outputs *)
Lemma pmean_lin n x t (a b : R) (r r' : nat -> R) z :
  pmean0 n x t (fun i => a * r i + b * r' i) z = a * pmean0 n x t r z + b * pmean0 n x t r' z.
Proof.
rewrite /pmean0 !dotE !big_distrr /= -big_split /=. apply: eq_bigr => i _. rewrite !mxE. ringR.
Qed.
Lemma pmean_zero n x t (r : nat -> R) z : (forall i : 'I_n, r i = 0) -> pmean0 n x t r z = 0.
Proof. by move=> E; rewrite /pmean0 dotE; apply: big1 => i _; rewrite [X in _ * X]mxE E mulr0. Qed.

(** residuals at the training inputs: r - mean = t A^-1 r *)
Lemma pmean_train n x t (r : nat -> R) (i : 'I_n) : 0 <R t ->
  r i - pmean0 n x t r (x i) = t * (invmx (gram n x t) *m colof n r) i 0.
Proof.
move=> H. have U := gram_unit n x H. set A := gram n x t in U *. set u := invmx A *m colof n r.
have E : A *m u = colof n r by rewrite /u mulKVmx.
have Er : r i = (A *m u) i 0 by rewrite E mxE.
have Em : pmean0 n x t r (x i) = (kmx n x *m u) i 0.
  rewrite /pmean0 weights_dot -/A -mulmxA -/u. rewrite !mxE. by apply: eq_bigr => k _; rewrite !mxE Ksym.
rewrite Er Em /A /gram mulmxDl mxE addrAC subrr add0r. by rewrite mul_scalar_mx mxE.
Qed.
Lemma resid_norm n x t r : 0 <R t ->
  dot (t *: (invmx (gram n x t) *m colof n r)) (t *: (invmx (gram n x t) *m colof n r)) <=R dot (colof n r) (colof n r).
Proof.
move=> H. have U := gram_unit n x H. set A := gram n x t in U *. set u := invmx A *m colof n r.
have E : colof n r = A *m u by rewrite /u mulKVmx.
rewrite E /A /gram mulmxDl mul_scalar_mx.
have -> : dot (kmx n x *m u + t *: u) (kmx n x *m u + t *: u) = dot (kmx n x *m u) (kmx n x *m u) + (t * qf (kmx n x) u) *+ 2 + dot (t *: u) (t *: u).
  rewrite /dot trD mulmxDl !mulmxDr !addmxE. rewrite -!addrA. congr (_ + _).
  have e1 : ((kmx n x *m u)^T *m (t *: u)) 0 0 = t * qf (kmx n x) u.
    by rewrite -scalemxAr mxE /qf trmx_mul kmx_sym.
  have e2 : ((t *: u)^T *m (kmx n x *m u)) 0 0 = t * qf (kmx n x) u.
    by rewrite trZ -scalemxAl mxE /qf mulmxA.
  by rewrite e1 e2.
have P1 := dot_self_ge0 (kmx n x *m u). have P2 := Rmult_le_pos _ _ (Rlt_le _ _ H) (kmx_psd x u).
move: P1 P2. rewrite -mulE. move: (dot (kmx n x *m u) (kmx n x *m u)) (t * qf (kmx n x) u) (dot (t *: u) (t *: u)) => p q w.
rewrite mulr2n => *. lraR.
Qed.

(** scaling factor of the Student-t process *)
Lemma beta_ge0 n x t r : 0 <R t -> 0 <=R ((colof n r)^T *m invmx (gram n x t) *m colof n r) 0 0.
Proof. by move=> H; apply: qf_inv_ge0; [exact: gram_sym|exact: gram_pd]. Qed.

(** leave one out: with B = A^-1, the prediction at x_i from the others *)
Lemma loo n x t (r : nat -> R) (i : 'I_n.+1) : 0 <R t ->
  let B := invmx (gram n.+1 x t) in let x' k := x (bump i k) in let r' k := r (bump i k) in
  [/\ B i i <> 0, pmean0 n x' t r' (x i) = r i - (B *m colof n.+1 r) i 0 * Rinv (B i i)
    & pcov n x' t (x i) (x i) + t = Rinv (B i i)].
Proof.
move=> H B x' r'. have U := gram_unit n.+1 x H. set A := gram n.+1 x t in B U *.
have Bii : 0 <R B i i.
  have N : invmx A *m delta_mx i 0 != 0 :> 'cV[R]_n.+1.
    apply/eqP => E. have : A *m (invmx A *m (delta_mx i 0 : 'cV[R]_n.+1)) = 0 by rewrite E mulmx0.
    rewrite mulKVmx // => /matrixP /(_ i 0). rewrite !mxE !eqxx. exact: R1_neq_R0.
  have := @gram_pd n.+1 x t H _ N. rewrite -/A qf_inv ?gram_sym //.
  have -> : ((delta_mx i 0 : 'cV[R]_n.+1)^T *m invmx A *m (delta_mx i 0 : 'cV[R]_n.+1)) 0 0 = B i i.
    exact: delta_form.
  by [].
have NB : B i i <> 0 by move=> E; move: Bii; rewrite E; lraR.
have Bn := Rinv_r _ NB.
have SB : forall j, B i j = B j i by move=> j; move/matrixP: (inv_sym (gram_sym n.+1 x t)) => /(_ i j); rewrite mxE.
(* the weights: - B_ki / B_ii for k <> i *)
pose c : 'cV[R]_n.+1 := \col_k (- (Rinv (B i i) * B k i)).
have AC : forall k, \sum_j A k j * c j 0 = - (Rinv (B i i) * (k == i)%:R).
  move=> k. have : (A *m B) k i = (k == i)%:R by rewrite mulmxV // mxE.
  rewrite mxE => <-. rewrite big_distrr -sumrN /=. apply: eq_bigr => j _. by rewrite [c j 0]mxE mulrN mulrCA.
have ci : c i 0 = -1 by rewrite mxE mulrC mulE Bn.
pose w : 'cV[R]_n := \col_k c (lift i k) 0.
have W : w = weights n x' t (x i).
  apply: weights_unique => //. apply/matrixP=> k j. rewrite mxE [RHS]mxE ord1.
  have := AC (lift i k). rewrite (bigD1_ord i) //= ci eq_sym (negbTE (neq_lift _ _)) mulr0 oppr0 /A gramE eq_sym (negbTE (neq_lift _ _)) addr0 mulrN1 => E.
  have -> : K (x' k) (x i) = K (x (lift i k)) (x i) by [].
  have E' : \sum_(q < n) A (lift i k) (lift i q) * c (lift i q) 0 = K (x (lift i k)) (x i).
    by apply/eqP; rewrite -subr_eq0 addrC E.
  rewrite -E'. apply: eq_bigr => q _. by rewrite [w q 0]mxE /A !gramE (inj_eq (@lift_inj _ i)).
split=> //.
- rewrite /pmean0 -W dotE.
  have -> : \sum_k w k 0 * colof n r' k 0 = \sum_k c (lift i k) 0 * r (lift i k).
    by apply: eq_bigr => k _; rewrite !mxE.
  have : \sum_j c j 0 * r j = - (Rinv (B i i) * (B *m colof n.+1 r) i 0).
    rewrite [(B *m _) i 0]mxE big_distrr -sumrN /=. apply: eq_bigr => j _. by rewrite [c j 0]mxE [colof _ _ _ _]mxE (SB j) mulNr mulrA.
  rewrite (bigD1_ord i) //= ci mulN1r. exact: alg1.
- rewrite /pcov -W dotE.
  have := AC i. rewrite (bigD1_ord i) //= ci eqxx mulr1 /A gramE eqxx.
  have -> : \sum_k w k 0 * kvec n x' (x i) k 0 = \sum_(k < n) gram n.+1 x t i (lift i k) * c (lift i k) 0.
    apply: eq_bigr => k _. rewrite [w k 0]mxE [kvec _ _ _ _ _]mxE gramE (negbTE (neq_lift _ _)) addr0 Ksym. exact: mulrC.
  exact: alg2.
Qed.
End GP.
