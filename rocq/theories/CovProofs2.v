(** Consequences for kernel values, training covariances and the Cholesky ladder. *)
From Verif Require Import Base Lists Num UtilsModel UtilsSpec UtilsRProofs HypsModel CovModel CovMx KernelSpec CovSpec PSD CovProofs.
From Coq Require Import List ZArith Bool String Ascii Reals Lra Lia Permutation Arith.
Import ListNotations.
Open Scope R_scope.
Local Open Scope string_scope.
Set Implicit Arguments.
Unset Strict Implicit.
Unset Asymmetric Patterns.
Set Bullet Behavior "Strict Subproofs".

(** ** the profiles *)
Lemma exp_strict (x : R) : 0 < x -> 1 + x < exp x.
Proof. intros H. apply exp_ineq1. lra. Qed.
Lemma exp_ge1 (x : R) : 0 <= x -> 1 + x <= exp x.
Proof. intros H. apply exp_ineq1_le. Qed.
Lemma exp_le_compat (x y : R) : x <= y -> exp x <= exp y.
Proof. intros [H| ->]; [left; now apply exp_increasing|right; reflexivity]. Qed.

Lemma dec32 (a b : R) : 0 <= a -> a < b -> (1 + b) * exp (- b) < (1 + a) * exp (- a).
Proof.
  intros Ha Hab. replace (- a) with (- b + (b - a)) by ring. rewrite exp_plus.
  pose proof (exp_pos (- b)). pose proof (@exp_strict (b - a) ltac:(lra)).
  assert (1 + b < (1 + a) * exp (b - a)).
  { apply Rle_lt_trans with ((1 + a) * (1 + (b - a))); [nra|]. apply Rmult_lt_compat_l; lra. }
  nra.
Qed.
Lemma exp_cube (x : R) : 0 <= x -> (1 + x / 3) * (1 + x / 3) * (1 + x / 3) <= exp x.
Proof.
  intros H. replace x with (x / 3 + x / 3 + x / 3) at 4 by field. rewrite !exp_plus.
  pose proof (@exp_ge1 (x / 3) ltac:(lra)). assert (0 <= 1 + x / 3) by lra.
  apply Rmult_le_compat; try nra.
Qed.
Lemma dec52 (a b : R) : 0 <= a -> a < b -> (1 + b + b * b / 3) * exp (- b) < (1 + a + a * a / 3) * exp (- a).
Proof.
  intros Ha Hab. replace (- a) with (- b + (b - a)) by ring. rewrite exp_plus.
  set (x := b - a). assert (Hx : 0 < x) by (unfold x; lra). replace b with (a + x) by (unfold x; ring).
  pose proof (exp_pos (- (a + x))) as P. pose proof (@exp_cube x ltac:(lra)) as Q.
  assert (L : 1 + (a + x) + (a + x) * (a + x) / 3 < (1 + a + a * a / 3) * exp x).
  { apply Rlt_le_trans with ((1 + a + a * a / 3) * ((1 + x / 3) * (1 + x / 3) * (1 + x / 3))).
    - replace ((1 + x / 3) * (1 + x / 3) * (1 + x / 3)) with (1 + x + x * x / 3 + x * x * x / 27) by field.
      assert (0 <= a * x) by nra. assert (0 < x * x * x) by (repeat apply Rmult_lt_0_compat; lra).
      assert (0 <= a * a * x) by nra. assert (0 <= a * (x * x)) by (apply Rmult_le_pos; nra).
      assert (0 <= a * (x * x * x)) by (apply Rmult_le_pos; lra).
      assert (0 <= a * a * (x * x)) by (apply Rmult_le_pos; nra).
      assert (0 <= a * a * (x * x * x)) by (apply Rmult_le_pos; nra).
      nra.
    - apply Rmult_le_compat_l; [nra|exact Q]. }
  nra.
Qed.

(** a profile: positive, at most one, one at zero, strictly decreasing *)
Definition good_profile (p : R -> R) : Prop :=
  p 0 = 1 /\ (forall r, 0 <= r -> 0 < p r) /\ (forall r r', 0 <= r -> r < r' -> p r' < p r).
Lemma se_good : good_profile se_profile.
Proof.
  unfold se_profile. split; [|split].
  - replace (- (0 * 0) / 2) with 0 by field. apply exp_0.
  - intros. apply exp_pos.
  - intros r r' H1 H2. apply exp_increasing. nra.
Qed.
Lemma sqrt3_pos : 0 < sqrt 3. Proof. apply sqrt_lt_R0; lra. Qed.
Lemma sqrt5_pos : 0 < sqrt 5. Proof. apply sqrt_lt_R0; lra. Qed.
Lemma m32_good : good_profile matern32_profile.
Proof.
  pose proof sqrt3_pos as S3. unfold matern32_profile. split; [|split].
  - replace (sqrt 3 * 0) with 0 by ring. rewrite Ropp_0, exp_0. ring.
  - intros r Hr. apply Rmult_lt_0_compat; [nra|apply exp_pos].
  - intros r r' H1 H2. apply dec32; nra.
Qed.
Lemma m52_form r : matern52_profile r = (1 + sqrt 5 * r + (sqrt 5 * r) * (sqrt 5 * r) / 3) * exp (- (sqrt 5 * r)).
Proof.
  unfold matern52_profile. f_equal. f_equal.
  replace (sqrt 5 * r * (sqrt 5 * r)) with (sqrt 5 * sqrt 5 * (r * r)) by ring. rewrite sqrt_sqrt by lra. field.
Qed.
Lemma m52_good : good_profile matern52_profile.
Proof.
  pose proof sqrt5_pos as S5. split; [|split].
  - unfold matern52_profile. replace (sqrt 5 * 0) with 0 by ring. rewrite Ropp_0, exp_0. field.
  - intros r Hr. unfold matern52_profile. apply Rmult_lt_0_compat; [nra|apply exp_pos].
  - intros r r' H1 H2. rewrite !m52_form. apply dec52; nra.
Qed.
Lemma profile_good name p : profile_of name = Some p -> good_profile p.
Proof.
  unfold profile_of. destruct ((name =? "eq") || (name =? "se"))%bool; [intros H; injection H as <-; apply se_good|].
  destruct (name =? "matern32"); [intros H; injection H as <-; apply m32_good|].
  destruct (name =? "matern52"); [intros H; injection H as <-; apply m52_good|discriminate].
Qed.
Lemma good_le1 p r : good_profile p -> 0 <= r -> p r <= 1.
Proof.
  intros (P0 & _ & D) [H|<-]; [|lra]. rewrite <- P0. left. apply D; lra.
Qed.

(** ** base kernel values *)
Lemma scaled_dist_nonneg ls d x y : 0 <= scaled_dist ls d x y.
Proof. apply sqrt_pos. Qed.
Lemma scaled_dist_self ls d x : scaled_dist ls d x x = 0.
Proof.
  unfold scaled_dist, scaled_sq. rewrite (Rsum_map_ext _ (fun _ => 0)).
  - rewrite Rsum_const, Rmult_0_r. apply sqrt_0.
  - intros i _. cbv zeta. unfold Rdiv. ring.
Qed.
Lemma base_kernel_bounds name p ls s d x y : profile_of name = Some p -> s <> 0 ->
  0 < base_kernel p ls s d x y <= s * s.
Proof.
  intros P Hs. pose proof (profile_good P) as G. pose proof (scaled_dist_nonneg (ls_at ls) d x y) as D.
  assert (0 < s * s) by nra. pose proof (good_le1 G D). destruct G as (_ & Pos & _). specialize (Pos _ D).
  unfold base_kernel. nra.
Qed.
Lemma base_kernel_bounds0 name p ls s d x y : profile_of name = Some p -> 0 <= base_kernel p ls s d x y <= s * s.
Proof.
  intros P. destruct (Req_dec s 0) as [->|Hs].
  - unfold base_kernel. rewrite !Rmult_0_l. lra.
  - pose proof (base_kernel_bounds ls d x y P Hs). lra.
Qed.
Lemma base_kernel_self name p ls s d x : profile_of name = Some p -> base_kernel p ls s d x x = s * s.
Proof.
  intros P. pose proof (profile_good P) as (G & _). unfold base_kernel. rewrite scaled_dist_self, G. ring.
Qed.
Lemma base_kernel_decreasing name p ls s d x y x' y' : profile_of name = Some p -> s <> 0 ->
  scaled_dist (ls_at ls) d x y < scaled_dist (ls_at ls) d x' y' ->
  base_kernel p ls s d x' y' < base_kernel p ls s d x y.
Proof.
  intros P Hs H. destruct (profile_good P) as (_ & _ & D). unfold base_kernel.
  apply Rmult_lt_compat_l; [nra|]. apply D; [apply scaled_dist_nonneg|exact H].
Qed.
Lemma moved_nth sg tr x i : (i < List.length x)%nat -> nth i (moved sg tr x) 0 = sg i * nth i x 0 + tr i.
Proof.
  intros H. unfold moved. rewrite (@nth_map_in _ _ _ _ 0%nat) by now rewrite seq_length. now rewrite seq_nth.
Qed.
Lemma scaled_dist_moved ls d sg tr x y : (forall i, sg i = 1 \/ sg i = -1) -> List.length x = d -> List.length y = d ->
  scaled_dist ls d (moved sg tr x) (moved sg tr y) = scaled_dist ls d x y.
Proof.
  intros Hsg Lx Ly. unfold scaled_dist, scaled_sq. f_equal. apply Rsum_map_ext. intros i Hi.
  apply in_seq in Hi. cbv zeta. rewrite !moved_nth by lia. destruct (Hsg i) as [-> | ->]; unfold Rdiv; ring.
Qed.

Lemma kernel_value_eq name p h d ls s nz x y : profile_of name = Some p -> has_hyps h d ls s nz ->
  List.length x = d -> List.length y = d -> kernel_value name h x y (base_kernel p ls s d x y).
Proof.
  intros P H Lx Ly jit.
  assert (F : forall z, List.length z = d -> fits name (A2 NumR (mkmat [z] (List.length z))) d).
  { intros z Lz. split; [|split; [congruence|exact Lz]]. intros r [<-|[]]. reflexivity. }
  assert (HK : cov_of name ls s d = Some (fun e e' => base_kernel p ls s d (point e) (point e'))).
  { unfold cov_of. now rewrite P. }
  destruct (@cov_main_ok name _ _ h d ls s nz _ false jit (F x Lx) (F y Ly) H HK) as (C & E & [L1 L2] & HC); [discriminate|].
  etransitivity; [exact E|]. f_equal. cbn [alen nrows mrows List.length] in *.
  specialize (HC 0%nat 0%nat ltac:(lia) ltac:(lia)). unfold lower_set in HC. rewrite andb_false_r in HC.
  cbn [andb] in HC. rewrite Rplus_0_r in HC. unfold elem_nth in HC. cbn in HC. unfold at_ in HC.
  destruct C as [|r [|? ?]]; cbn in L1; try lia. specialize (L2 r (or_introl eq_refl)).
  destruct r as [|v [|? ?]]; cbn in L2; try lia. cbn in HC. now rewrite HC.
Qed.
Lemma kernel_value_fun name h x y v v' : kernel_value name h x y v -> kernel_value name h x y v' -> v = v'.
Proof. intros A B. specialize (A 0). specialize (B 0). rewrite A in B. now injection B. Qed.

(** ** set averages *)
Lemma Rsum_perm l l' : Permutation l l' -> Rsum l = Rsum l'.
Proof. induction 1; cbn; lra. Qed.
Lemma set_average_perm {T} (k : T -> T -> R) xs xs' ys ys' : Permutation xs xs' -> Permutation ys ys' ->
  set_average k xs ys = set_average k xs' ys'.
Proof.
  intros P Q. unfold set_average. rewrite (Permutation_length P), (Permutation_length Q). f_equal.
  rewrite (Rsum_perm (Permutation_map (fun x => Rsum (map (fun y => k x y) ys)) P)).
  apply Rsum_map_ext. intros x _. apply Rsum_perm. now apply Permutation_map.
Qed.
Lemma Rsum_le_bound {T} (f : T -> R) l lo hi : (forall x, In x l -> lo <= f x <= hi) ->
  INR (List.length l) * lo <= Rsum (map f l) <= INR (List.length l) * hi.
Proof.
  induction l as [|x l IH]; intros H; cbn [map Rsum List.length]; [cbn; lra|].
  rewrite S_INR. pose proof (H x (or_introl eq_refl)). specialize (IH (fun y Hy => H y (or_intror Hy))). lra.
Qed.
Lemma set_average_bounds {T} (k : T -> T -> R) xs ys lo hi : xs <> [] -> ys <> [] ->
  (forall x y, lo <= k x y <= hi) -> lo <= set_average k xs ys <= hi.
Proof.
  intros Hx Hy H. unfold set_average.
  assert (Px : 0 < INR (List.length xs)) by (apply lt_0_INR; destruct xs; [congruence|cbn; lia]).
  assert (Py : 0 < INR (List.length ys)) by (apply lt_0_INR; destruct ys; [congruence|cbn; lia]).
  pose proof (@Rsum_le_bound T (fun x => Rsum (map (fun y => k x y) ys)) xs
    (INR (List.length ys) * lo) (INR (List.length ys) * hi)
    (fun x _ => @Rsum_le_bound T (fun y => k x y) ys lo hi (fun y _ => H x y))) as B.
  set (t := Rsum _) in *. assert (P : 0 < INR (List.length xs) * INR (List.length ys)) by nra.
  split.
  - apply Rmult_le_reg_r with (INR (List.length xs) * INR (List.length ys)); [exact P|].
    unfold Rdiv. rewrite Rmult_assoc, Rinv_l by lra. lra.
  - apply Rmult_le_reg_r with (INR (List.length xs) * INR (List.length ys)); [exact P|].
    unfold Rdiv. rewrite Rmult_assoc, Rinv_l by lra. lra.
Qed.
Lemma set_average_singleton {T} (k : T -> T -> R) x y : set_average k [x] [y] = k x y.
Proof. unfold set_average. cbn. field. Qed.

Lemma set_value_eq b p d ls s xs ys : profile_of b = Some p -> ls_ok ls d -> all_dim d xs -> all_dim d ys ->
  set_value b d ls s xs ys (set_average (base_kernel p ls s d) xs ys).
Proof. intros P E X Y. now apply (@cov_set_ok b p ls d s (mkmat xs d) (mkmat ys d)). Qed.

(** ** quadratic forms of matrices *)
Lemma quad_qform {T} (K : T -> T -> R) n (c : list (list R)) (e : nat -> T) w :
  (forall i j, (i < n)%nat -> (j < n)%nat -> at_ c i j = K (e i) (e j)) ->
  quad n c w = qform K (map (fun i => (w i, e i)) (seq 0 n)).
Proof.
  intros H. unfold quad, qform. rewrite map_map. apply Rsum_map_ext. intros i Hi. apply in_seq in Hi.
  rewrite map_map. apply Rsum_map_ext. intros j Hj. apply in_seq in Hj. cbn [fst snd]. rewrite H by lia. reflexivity.
Qed.
Lemma Rsum_single n (f : nat -> R) i : (i < n)%nat ->
  Rsum (map (fun j => if Nat.eqb i j then f j else 0) (seq 0 n)) = f i.
Proof.
  intros Hi. assert (G : forall l, NoDup l -> Rsum (map (fun j => if Nat.eqb i j then f j else 0) l)
                                    = if existsb (Nat.eqb i) l then f i else 0).
  { clear. induction l as [|a l IH]; intros ND; [reflexivity|]. inversion ND; subst.
    cbn [map Rsum existsb]. rewrite IH by assumption. destruct (Nat.eqb_spec i a) as [->|]; cbn [orb].
    - destruct (existsb (Nat.eqb a) l) eqn:E; [|ring]. apply existsb_exists in E as [b [Hb E]].
      apply Nat.eqb_eq in E. subst. contradiction.
    - ring. }
  rewrite G by apply seq_NoDup.
  destruct (existsb (Nat.eqb i) (seq 0 n)) eqn:E; [reflexivity|].
  assert (existsb (Nat.eqb i) (seq 0 n) = true); [|congruence].
  apply existsb_exists. exists i. split; [apply in_seq; lia|apply Nat.eqb_refl].
Qed.
Lemma quad_diag n (c : list (list R)) (k : nat -> nat -> R) (t : R) w :
  (forall i j, (i < n)%nat -> (j < n)%nat -> at_ c i j = k i j + (if Nat.eqb i j then t else 0)) ->
  quad n c w = qform k (map (fun i => (w i, i)) (seq 0 n)) + t * Rsum (map (fun i => w i * w i) (seq 0 n)).
Proof.
  intros H. unfold quad, qform. rewrite map_map. rewrite <- Rsum_map_scal, <- Rsum_map_plus.
  apply Rsum_map_ext. intros i Hi. apply in_seq in Hi. rewrite map_map. cbn [fst snd].
  rewrite <- (@Rsum_single n (fun j => t * (w i * w j)) i) by lia. rewrite <- Rsum_map_plus.
  apply Rsum_map_ext. intros j Hj. apply in_seq in Hj. rewrite H by lia. destruct (Nat.eqb i j); ring.
Qed.

(** the training covariance *)
Lemma train_cov_ok name X h d ls s nz K :
  fits name X d -> has_hyps h d ls s nz -> cov_of name ls s d = Some K ->
  exists C, @train_cov NumR exp X h name = Ok C /\ is_mx (alen X) (alen X) C /\
    forall i j, (i < alen X)%nat -> (j < alen X)%nat ->
      at_ C i j = K (elem_nth X i) (elem_nth X j) + (if Nat.eqb i j then / 100000 + nz * nz else 0).
Proof.
  intros F H HK. set (n := alen X).
  destruct (@cov_main_ok name X X h d ls s nz K true (JITTER_COV NumR) F F H HK (fun _ => eq_refl)) as (C & E & SC & HC).
  fold n in SC, HC. unfold train_cov. rewrite E. cbn [rbind].
  pose proof H as (Hn & _). unfold dfloat. rewrite Hn. cbn [rbind]. fold n.
  set (D := madd NumR C (mmap NumR (fun e => nmul NumR (nsq NumR nz) e) (eye NumR n n))).
  assert (SE : @shp NumR n n (mmap NumR (fun e => nmul NumR (nsq NumR nz) e) (eye NumR n n))) by apply shp_mmap, shp_eye.
  assert (SD : @shp NumR n n D) by (apply shp_madd; [exact SC|exact SE]).
  assert (Kij : forall i j, (i < n)%nat -> (j < n)%nat ->
     at_ C i j = K (elem_nth X i) (elem_nth X j) + (if Nat.eqb i j then / 100000 else 0)).
  { intros i j Hi Hj. rewrite HC by assumption. cbn [andb]. unfold JITTER_COV, nlit. cbn [ndiv nofZ NumR].
    destruct (lower_set name true i j) eqn:LS.
    - unfold lower_set in LS. apply andb_true_iff in LS as [_ LS]. apply Nat.ltb_lt in LS.
      replace (Nat.eqb i j) with false by (symmetry; apply Nat.eqb_neq; lia).
      rewrite (cov_of_sym _ _ HK). ring.
    - unfold Rdiv. rewrite Rmult_1_l. reflexivity. }
  assert (Dij : forall i j, (i < n)%nat -> (j < n)%nat ->
     mget NumR D i j = K (elem_nth X i) (elem_nth X j) + (if Nat.eqb i j then / 100000 + nz * nz else 0)).
  { intros i j Hi Hj. unfold D. rewrite (@mget_madd NumR n n) by assumption.
    rewrite (@mget_mmap NumR n n) by (try assumption; apply shp_eye). unfold eye. rewrite mget_mgen by assumption.
    rewrite <- at_mget, Kij by assumption. destruct (Nat.eqb i j); cbn; ring. }
  assert (ST : @shp NumR n n (mtr NumR n n D)) by apply shp_mtr.
  eexists. split; [reflexivity|]. split.
  - apply is_mx_shp. apply shp_mmap. apply shp_madd; [exact SD|exact ST].
  - intros i j Hi Hj. rewrite at_mget. rewrite (@mget_mmap NumR n n) by (try assumption; now apply shp_madd).
    rewrite (@mget_madd NumR n n) by assumption. rewrite mget_mtr by assumption. rewrite !Dij by assumption.
    rewrite (Nat.eqb_sym j i), (cov_of_sym (elem_nth X j) (elem_nth X i) HK). cbn. field.
Qed.
Lemma train_cov_symmetric name X h d ls s nz K C :
  fits name X d -> has_hyps h d ls s nz -> cov_of name ls s d = Some K -> @train_cov NumR exp X h name = Ok C ->
  symmetric (alen X) C.
Proof.
  intros F H HK E. destruct (train_cov_ok F H HK) as (C' & E' & _ & HC). rewrite E in E'. apply Ok_inj in E'. subst C'.
  intros i j Hi Hj. rewrite !HC by assumption. rewrite (cov_of_sym _ _ HK), (Nat.eqb_sym i j). reflexivity.
Qed.
Lemma train_cov_definite name X h d ls s nz K C :
  fits name X d -> has_hyps h d ls s nz -> cov_of name ls s d = Some K -> @train_cov NumR exp X h name = Ok C ->
  definite (alen X) C.
Proof.
  intros F H HK E. destruct (train_cov_ok F H HK) as (C' & E' & _ & HC). rewrite E in E'. apply Ok_inj in E'. subst C'.
  intros w [i [Hi Wi]].
  rewrite (@quad_diag _ _ (fun i j => K (elem_nth X i) (elem_nth X j)) (/ 100000 + nz * nz) w HC).
  assert (P : 0 <= qform (fun i j => K (elem_nth X i) (elem_nth X j)) (map (fun i => (w i, i)) (seq 0 (alen X)))).
  { apply (@psd_comp _ _ (elem_nth X) K). now apply (@cov_of_psd name ls s d). }
  assert (Q : 0 < Rsum (map (fun i => w i * w i) (seq 0 (alen X)))).
  { assert (N0 : 0 <= Rsum (map (fun i => w i * w i) (seq 0 (alen X)))).
    { apply Rsum_map_nonneg. intros x _. nra. }
    destruct N0 as [|Z]; [assumption|]. exfalso. apply Wi.
    assert (w i * w i = 0).
    { apply (@Rsum_zero_all _ (fun i => w i * w i) (seq 0 (alen X))); [intros; nra|now symmetry|apply in_seq; lia]. }
    nra. }
  assert (0 < / 100000) by lra. assert (0 <= nz * nz) by nra.
  apply Rplus_le_lt_0_compat; [exact P|]. apply Rmult_lt_0_compat; lra.
Qed.

(** ** the Cholesky ladder (any arithmetic, any behaviour of the factorisation) *)
Section Ladder.
Context (N : Num) (chol : list (list N) -> res (list (list N))).
Definition jittered (n : nat) (c : list (list N)) (j : N) : list (list N) :=
  madd N c (mmap N (fun e => nmul N j e) (eye N n n)).
Lemma chol_loop_spec n c js :
  match @chol_loop N chol n c js with
  | Ok (Some (c', l)) => exists k j, nth_error js k = Some j /\ c' = jittered n c j /\ chol c' = Ok l /\
      (forall k' j', (k' < k)%nat -> nth_error js k' = Some j' -> chol (jittered n c j') = Raise LinAlgError)
  | Ok None => forall j, In j js -> chol (jittered n c j) = Raise LinAlgError
  | Raise e => exists k j, nth_error js k = Some j /\ chol (jittered n c j) = Raise e /\ e <> LinAlgError /\
      (forall k' j', (k' < k)%nat -> nth_error js k' = Some j' -> chol (jittered n c j') = Raise LinAlgError)
  end.
Proof.
  induction js as [|j js IH]; cbn [chol_loop]; [intros ? []|].
  fold (jittered n c j). destruct (chol (jittered n c j)) as [l|e] eqn:E.
  - exists 0%nat, j. repeat split; auto. intros; lia.
  - assert (D : e = LinAlgError \/ e <> LinAlgError) by (destruct e; (now left) || (right; discriminate)).
    destruct D as [->|Ne].
    + destruct (chol_loop chol n c js) as [[[c' l]|]|e'].
      * destruct IH as (k & j' & Hk & Hc & Hl & Hp). exists (Datatypes.S k), j'. repeat split; auto.
        intros [|k'] j'' Hk' Hj; cbn in Hj; [congruence|]. apply (Hp k'); [lia|exact Hj].
      * intros j' [<-|Hj]; auto.
      * destruct IH as (k & j' & Hk & Hc & Hl & Hp). exists (Datatypes.S k), j'. repeat split; auto.
        intros [|k'] j'' Hk' Hj; cbn in Hj; [congruence|]. apply (Hp k'); [lia|exact Hj].
    + assert (X : match e with LinAlgError => chol_loop chol n c js | _ => Raise e end = Raise e) by (destruct e; congruence).
      rewrite X. exists 0%nat, j. repeat split; auto. intros; lia.
Qed.
End Ladder.
