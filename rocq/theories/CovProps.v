(** Properties C22-C25, C27, C28 (covariance functions, covariance matrices, their Cholesky loop and
    gradients).  Exact reals, except C27 which holds for any arithmetic. *)
From Verif Require Import Base Lists Num UtilsModel UtilsSpec UtilsRProofs HypsModel CovModel CovMx KernelSpec CovSpec PSD CovProofs CovProofs2 CovGrad.
From Coq Require Import List ZArith Bool String Ascii Reals Lra Lia Arith Permutation.
From Coquelicot Require Import Coquelicot.
Import ListNotations.
Open Scope R_scope.
Local Open Scope string_scope.
Unset Asymmetric Patterns.
Set Bullet Behavior "Strict Subproofs".

(** a dictionary used in the examples *)
Definition ex_hyps : dict NumR :=
  [("signal", PFloat NumR 2); ("noise", PFloat NumR (1 / 10)); ("lengthscales", PArr NumR [1; 3])].
Lemma ex_hyps_ok : has_hyps ex_hyps 2 (PArr NumR [1; 3]) 2 (1 / 10).
Proof. repeat split. Qed.
Definition ex_X : arr NumR := A2 NumR (mkmat ([[0; 1]; [2; 5]; [0; 1]] : list (list NumR)) 2).
Lemma ex_fits : fits "matern52" ex_X 2.
Proof. split; [|split; [discriminate|reflexivity]]. intros r [<-|[<-|[<-|[]]]]; reflexivity. Qed.

(** ** C22 *)
Theorem C22_value_exists : forall name p h d ls s nz x y, profile_of name = Some p -> has_hyps h d ls s nz ->
  List.length x = d -> List.length y = d -> exists v, kernel_value name h x y v.
Proof. intros name p h d ls s nz x y P H Lx Ly. eexists. exact (kernel_value_eq P H Lx Ly). Qed.
Theorem C22_bounds : forall name p h d ls s nz x y v, profile_of name = Some p -> has_hyps h d ls s nz ->
  List.length x = d -> List.length y = d -> s <> 0 -> kernel_value name h x y v -> 0 < v <= s * s.
Proof.
  intros name p h d ls s nz x y v P H Lx Ly Hs V.
  rewrite (kernel_value_fun V (kernel_value_eq P H Lx Ly)). exact (base_kernel_bounds ls d x y P Hs).
Qed.
Print Assumptions C22_bounds.
Theorem C22_coincide : forall name p h d ls s nz x v, profile_of name = Some p -> has_hyps h d ls s nz ->
  List.length x = d -> kernel_value name h x x v -> v = s * s.
Proof.
  intros name p h d ls s nz x v P H Lx V.
  rewrite (kernel_value_fun V (kernel_value_eq P H Lx Lx)). exact (base_kernel_self ls s d x P).
Qed.
Theorem C22_symmetric : forall name p h d ls s nz x y v, profile_of name = Some p -> has_hyps h d ls s nz ->
  List.length x = d -> List.length y = d -> kernel_value name h x y v -> kernel_value name h y x v.
Proof.
  intros name p h d ls s nz x y v P H Lx Ly V.
  rewrite (kernel_value_fun V (kernel_value_eq P H Lx Ly)), base_kernel_sym. exact (kernel_value_eq P H Ly Lx).
Qed.
Print Assumptions C22_symmetric.
(** [sg i = -1] reflects coordinate [i]; [tr] translates *)
Theorem C22_invariant : forall name p h d ls s nz sg tr x y v, profile_of name = Some p -> has_hyps h d ls s nz ->
  List.length x = d -> List.length y = d -> (forall i, sg i = 1 \/ sg i = -1) ->
  kernel_value name h x y v -> kernel_value name h (moved sg tr x) (moved sg tr y) v.
Proof.
  intros name p h d ls s nz sg tr x y v P H Lx Ly Hsg V.
  rewrite (kernel_value_fun V (kernel_value_eq P H Lx Ly)). unfold base_kernel.
  rewrite <- (scaled_dist_moved (ls_at ls) tr Hsg Lx Ly).
  apply (kernel_value_eq P H); unfold moved; now rewrite map_length, seq_length.
Qed.
Print Assumptions C22_invariant.
Theorem C22_decreasing : forall name p h d ls s nz x y v x' y' v', profile_of name = Some p -> has_hyps h d ls s nz ->
  List.length x = d -> List.length y = d -> List.length x' = d -> List.length y' = d -> s <> 0 ->
  kernel_value name h x y v -> kernel_value name h x' y' v' ->
  scaled_dist (ls_at ls) d x y < scaled_dist (ls_at ls) d x' y' -> v' < v.
Proof.
  intros name p h d ls s nz x y v x' y' v' P H Lx Ly Lx' Ly' Hs V V' D.
  rewrite (kernel_value_fun V (kernel_value_eq P H Lx Ly)), (kernel_value_fun V' (kernel_value_eq P H Lx' Ly')).
  exact (base_kernel_decreasing P Hs D).
Qed.
Print Assumptions C22_decreasing.
Example C22_example : profile_of "matern52" = Some matern52_profile /\ has_hyps ex_hyps 2 (PArr NumR [1; 3]) 2 (1 / 10) /\
  ls_nonzero (PArr NumR [1; 3]) 2 /\
  moved (fun i => match i with O => 1 | _ => -1 end) (fun _ => 5) [0; 1] = [1 * 0 + 5; -1 * 1 + 5] /\
  scaled_dist (ls_at (PArr NumR [1; 3])) 2 [0; 1] [0; 4] < scaled_dist (ls_at (PArr NumR [1; 3])) 2 [0; 1] [2; 1].
Proof.
  split; [reflexivity|]. split; [apply ex_hyps_ok|]. split.
  { intros [|[|i]] Hi; cbn; try lra. lia. }
  split; [reflexivity|]. unfold scaled_dist, scaled_sq; cbn. apply sqrt_lt_1_alt. lra.
Qed.

(** ** C23 *)
Theorem C23_base_psd : forall name p ls s d, profile_of name = Some p -> psd (base_kernel p ls s d).
Proof. intros name p ls s d. apply profile_psd. Qed.
Print Assumptions C23_base_psd.
(** the matrices returned by cov_main without jitter are positive semi-definite, for points and for sets *)
Theorem C23_matrix : forall name X h d ls s nz K C, fits name X d -> has_hyps h d ls s nz -> cov_of name ls s d = Some K ->
  @cov_main NumR exp name X X h false 0 = Ok C -> semidefinite (alen X) C.
Proof.
  intros name X h d ls s nz K C F H HK E w.
  destruct (@cov_main_ok name X X h d ls s nz K false 0 F F H HK (fun e => match Bool.diff_false_true e with end)) as (C' & E' & _ & HC).
  rewrite E in E'. apply Ok_inj in E'. subst C'.
  rewrite (@quad_qform _ K (alen X) C (elem_nth X) w).
  - apply (cov_of_psd HK).
  - intros i j Hi Hj. rewrite HC by assumption. unfold lower_set. destruct (set_profile_of name); cbn [andb]; ring.
Qed.
Print Assumptions C23_matrix.
Example C23_example : exists C, @cov_main NumR exp "matern52" ex_X ex_X ex_hyps false 0 = Ok C /\ is_mx 3 3 C.
Proof.
  destruct (@cov_main_ok "matern52" ex_X ex_X ex_hyps 2 (PArr NumR [1; 3]) 2 (1 / 10) _ false 0 ex_fits ex_fits ex_hyps_ok eq_refl ltac:(discriminate)) as (C & E & S & _).
  now exists C.
Qed.

(** ** C24 *)
Theorem C24_value : forall b p d ls s xs ys, profile_of b = Some p -> ls_ok ls d -> all_dim d xs -> all_dim d ys ->
  set_value b d ls s xs ys (set_average (base_kernel p ls s d) xs ys).
Proof. exact set_value_eq. Qed.
Theorem C24_symmetric : forall b p d ls s xs ys v, profile_of b = Some p -> ls_ok ls d -> all_dim d xs -> all_dim d ys ->
  set_value b d ls s xs ys v -> set_value b d ls s ys xs v.
Proof.
  intros b p d ls s xs ys v P L Dx Dy V. pose proof (@set_value_eq b p d ls s xs ys P L Dx Dy) as E. unfold set_value in V, E.
  rewrite E in V. apply Ok_inj in V. subst v. rewrite set_average_sym by (intros; apply base_kernel_sym). now apply set_value_eq.
Qed.
Print Assumptions C24_symmetric.
Theorem C24_order : forall b p d ls s xs ys xs' ys' v, profile_of b = Some p -> ls_ok ls d -> all_dim d xs -> all_dim d ys ->
  Permutation xs xs' -> Permutation ys ys' -> set_value b d ls s xs ys v -> set_value b d ls s xs' ys' v.
Proof.
  intros b p d ls s xs ys xs' ys' v P L Dx Dy Px Py V. pose proof (@set_value_eq b p d ls s xs ys P L Dx Dy) as E.
  unfold set_value in V, E. rewrite E in V. apply Ok_inj in V. subst v. rewrite (set_average_perm _ Px Py). apply set_value_eq; try assumption.
  - intros x Hx. apply Dx. exact (Permutation_in _ (Permutation_sym Px) Hx).
  - intros x Hx. apply Dy. exact (Permutation_in _ (Permutation_sym Py) Hx).
Qed.
Print Assumptions C24_order.
Theorem C24_bounds : forall b p d ls s xs ys v, profile_of b = Some p -> ls_ok ls d -> all_dim d xs -> all_dim d ys ->
  xs <> [] -> ys <> [] -> set_value b d ls s xs ys v -> 0 <= v <= s * s.
Proof.
  intros b p d ls s xs ys v P L Dx Dy Nx Ny V. pose proof (@set_value_eq b p d ls s xs ys P L Dx Dy) as E.
  unfold set_value in V, E. rewrite E in V. apply Ok_inj in V. subst v. apply set_average_bounds; try assumption.
  intros x y. exact (base_kernel_bounds0 ls s d x y P).
Qed.
Print Assumptions C24_bounds.
Theorem C24_singleton : forall b p h d ls s nz x y v, profile_of b = Some p -> has_hyps h d ls s nz ->
  List.length x = d -> List.length y = d -> kernel_value b h x y v -> set_value b d ls s (x :: nil) (y :: nil) v.
Proof.
  intros b p h d ls s nz x y v P H Lx Ly V. rewrite (kernel_value_fun V (kernel_value_eq P H Lx Ly)).
  rewrite <- (set_average_singleton (base_kernel p ls s d)). destruct H as (_ & _ & _ & L). apply set_value_eq; try assumption.
  - intros z [<-|[]]; assumption.
  - intros z [<-|[]]; assumption.
Qed.
Print Assumptions C24_singleton.
Theorem C24_psd : forall name p ls s d, profile_of name = Some p -> psd (set_average (base_kernel p ls s d)).
Proof. intros name p ls s d P. apply set_average_psd. exact (C23_base_psd name p ls s d P). Qed.
Print Assumptions C24_psd.
Example C24_example : all_dim 2 [[0; 1]; [2; 5]] /\ all_dim 2 ([7; 1] :: nil) /\ ls_ok (PArr NumR [1; 3]) 2 /\
  Permutation [[0; 1]; [2; 5]] [[2; 5]; [0; 1]].
Proof.
  split; [intros x [<-|[<-|[]]]; reflexivity|]. split; [intros x [<-|[]]; reflexivity|]. split; [reflexivity|]. constructor.
Qed.

(** ** C25 *)
(** jitter is added exactly on the diagonal and exactly when the caller says both inputs are the same *)
Theorem C25_entries : forall name X Xp h d ls s nz K same (jit : R),
  fits name X d -> fits name Xp d -> has_hyps h d ls s nz -> cov_of name ls s d = Some K -> (same = true -> Xp = X) ->
  exists C, @cov_main NumR exp name X Xp h same jit = Ok C /\ is_mx (alen X) (alen Xp) C /\
    forall i j, (i < alen X)%nat -> (j < alen Xp)%nat ->
      at_ C i j = K (elem_nth X i) (elem_nth Xp j) + (if (same && Nat.eqb i j)%bool then jit else 0).
Proof.
  intros name X Xp h d ls s nz K same jit F F' H HK HS.
  destruct (@cov_main_ok name X Xp h d ls s nz K same jit F F' H HK) as (C & E & S & HC).
  { intros E. now rewrite (HS E). }
  exists C. split; [exact E|]. split; [exact S|]. intros i j Hi Hj. rewrite HC by assumption.
  destruct (lower_set name same i j) eqn:L; [|reflexivity].
  unfold lower_set in L. destruct (set_profile_of name); [|discriminate].
  cbn [andb] in L. apply andb_true_iff in L as [L1 L2]. subst same. rewrite (HS eq_refl). cbn [andb].
  replace (Nat.eqb i j) with false; [|symmetry; apply Nat.eqb_neq; apply Nat.ltb_lt in L2; lia].
  rewrite Rplus_0_r. exact (cov_of_sym _ _ HK).
Qed.
Print Assumptions C25_entries.
Theorem C25_symmetric : forall name X h d ls s nz K (jit : R) C,
  fits name X d -> has_hyps h d ls s nz -> cov_of name ls s d = Some K ->
  @cov_main NumR exp name X X h true jit = Ok C -> symmetric (alen X) C.
Proof.
  intros name X h d ls s nz K jit C F H HK E.
  destruct (C25_entries name X X h d ls s nz K true jit F F H HK (fun _ => eq_refl)) as (C' & E' & _ & HC).
  rewrite E in E'. apply Ok_inj in E'. subst C'. intros i j Hi Hj. rewrite !HC by assumption.
  rewrite (cov_of_sym _ _ HK), (Nat.eqb_sym i j). reflexivity.
Qed.
Print Assumptions C25_symmetric.
(** every covariance name the package accepts is covered *)
Theorem C25_names : forall name ls s d, In name ALLOWED_COV <-> exists K, cov_of name ls s d = Some K.
Proof.
  intros name ls s d. unfold cov_of, profile_of, set_profile_of. split.
  - intros H. cbn in H. repeat (destruct H as [<-|H]; [eexists; reflexivity|]). destruct H.
  - intros [K HK].
    destruct (name =? "eq") eqn:E1; [apply String.eqb_eq in E1; subst; cbn; tauto|].
    destruct (name =? "se") eqn:E2; [apply String.eqb_eq in E2; subst; cbn; tauto|].
    destruct (name =? "matern32") eqn:E3; [apply String.eqb_eq in E3; subst; cbn; tauto|].
    destruct (name =? "matern52") eqn:E4; [apply String.eqb_eq in E4; subst; cbn; tauto|].
    destruct (name =? "set_eq") eqn:E5; [apply String.eqb_eq in E5; subst; cbn; tauto|].
    destruct (name =? "set_se") eqn:E6; [apply String.eqb_eq in E6; subst; cbn; tauto|].
    destruct (name =? "set_matern32") eqn:E7; [apply String.eqb_eq in E7; subst; cbn; tauto|].
    destruct (name =? "set_matern52") eqn:E8; [apply String.eqb_eq in E8; subst; cbn; tauto|]. discriminate.
Qed.
Definition ex_sets : arr NumR :=
  A3 NumR [mkmat ([[0; 1]; [2; 5]] : list (list NumR)) 2; mkmat ([[7; 1]; [7; 1]] : list (list NumR)) 2] 2 2.
Example C25_example : fits "set_se" ex_sets 2 /\ fits "matern52" ex_X 2 /\ has_hyps ex_hyps 2 (PArr NumR [1; 3]) 2 (1 / 10).
Proof.
  split; [|split; [exact ex_fits|exact ex_hyps_ok]]. split; [|split; [discriminate|split; [reflexivity|lia]]].
  intros m [<-|[<-|[]]]; (split; [|split; reflexivity]); intros r [<-|[<-|[]]]; reflexivity.
Qed.

(** ** C27, any arithmetic and any factorisation routine *)
Theorem C27_ladder : forall (N : Num) (nexp : N -> N) (chol : list (list N) -> res (list (list N))) X h name fx c,
  check_str_cov name (shape X) None = Ok tt -> @train_cov N nexp X h name = Ok c ->
  let jit j := jittered (alen X) c j in
  let run := @get_kernel_cholesky N nexp chol X h name fx false in
  (forall c' l g, run = Ok (c', l, g) <-> g = None /\
     exists k j, nth_error (jitters N) k = Some j /\ c' = jit j /\ chol c' = Ok l /\
       (forall k' j', (k' < k)%nat -> nth_error (jitters N) k' = Some j' -> chol (jit j') = Raise LinAlgError)) /\
  ((forall j, In j (jitters N) -> chol (jit j) = Raise LinAlgError) -> run = Raise ValueError) /\
  (run = Raise ValueError -> (forall j, chol (jit j) <> Raise ValueError) ->
     forall j, In j (jitters N) -> chol (jit j) = Raise LinAlgError).
Proof.
  intros N nexp chol X h name fx c HC HT jit run.
  pose proof (@chol_loop_spec N chol (alen X) c (jitters N)) as S.
  assert (R : run = (do o <- @chol_loop N chol (alen X) c (jitters N);
     match o with None => Raise ValueError | Some (c, lower) => Ok (c, lower, None) end)).
  { unfold run, get_kernel_cholesky. rewrite HC. cbn [rbind]. rewrite HT. cbn [rbind].
    destruct (chol_loop _ _ _ _) as [[[a b]|]|e]; reflexivity. }
  assert (UNIQ : forall k j k' j', nth_error (jitters N) k = Some j -> nth_error (jitters N) k' = Some j' ->
     (forall q i, (q < k)%nat -> nth_error (jitters N) q = Some i -> chol (jit i) = Raise LinAlgError) ->
     (forall q i, (q < k')%nat -> nth_error (jitters N) q = Some i -> chol (jit i) = Raise LinAlgError) ->
     chol (jit j) <> Raise LinAlgError -> chol (jit j') <> Raise LinAlgError -> j = j').
  { intros k j k' j' A B PA PB NA NB. destruct (Nat.lt_trichotomy k k') as [Q|[Q|Q]].
    - exfalso. apply NA. exact (PB k j Q A).
    - congruence.
    - exfalso. apply NB. exact (PA k' j' Q B). }
  rewrite R. destruct (chol_loop _ _ _ _) as [[[c1 l1]|]|e]; cbn [rbind].
  - destruct S as (k & j & K1 & K2 & K3 & K4). split; [|split].
    + intros c' l g. split.
      * intros E. injection E as <- <- <-. split; [reflexivity|]. now exists k, j.
      * intros (-> & k' & j' & A1 & A2 & A3 & A4). subst c' c1.
        assert (j = j') as <-.
        { apply (UNIQ k j k' j'); try assumption; unfold jit; [now rewrite K3|now fold (jit j'); rewrite A3]. }
        unfold jit in *. assert (l1 = l) by congruence. now subst.
    + intros F. exfalso. assert (I0 : In j (jitters N)) by exact (nth_error_In _ _ K1). specialize (F _ I0). unfold jit in F. congruence.
    + discriminate.
  - split; [|split].
    + intros c' l g. split; [discriminate|]. intros (_ & k' & j' & A1 & A2 & A3 & A4). subst c'.
      specialize (S j' (nth_error_In _ _ A1)). unfold jit in A3. congruence.
    + reflexivity.
    + intros _ _. exact S.
  - destruct S as (k & j & K1 & K2 & K3 & K4). split; [|split].
    + intros c' l g. split; [discriminate|]. intros (_ & k' & j' & A1 & A2 & A3 & A4). subst c'. exfalso.
      assert (j = j') as <-.
      { apply (UNIQ k j k' j'); try assumption; unfold jit; [rewrite K2; congruence|fold (jit j'); rewrite A3; congruence]. }
      unfold jit in A3. congruence.
    + intros F. exfalso. specialize (F j (nth_error_In _ _ K1)). unfold jit in F. congruence.
    + intros E NV. exfalso. apply (NV j). injection E as ->. exact K2.
Qed.
Print Assumptions C27_ladder.
(** jitters, in order, and what is added: j on the diagonal of the original matrix *)
Theorem C27_jitters : jitters NumR = [0; 1 / 10000; 1 / 100; 1 / 10; 1; 10; 100].
Proof. reflexivity. Qed.
Theorem C27_added : forall n c (j : R) i k, is_mx n n c -> (i < n)%nat -> (k < n)%nat ->
  at_ (@jittered NumR n c j) i k = at_ c i k + (if Nat.eqb i k then j else 0).
Proof.
  intros n c j i k S Hi Hk. change (at_ (@jittered NumR n c j) i k) with (mget NumR (@jittered NumR n c j) i k).
  unfold jittered. rewrite (@mget_madd NumR n n).
  - rewrite (@mget_mmap NumR n n) by (try assumption; apply shp_eye). unfold eye. rewrite mget_mgen by assumption.
    change (mget NumR c i k) with (at_ c i k). destruct (Nat.eqb i k); cbn; ring.
  - exact S.
  - apply shp_mmap, shp_eye.
  - exact Hi.
  - exact Hk.
Qed.
Print Assumptions C27_added.
(** a routine that fails on the first attempts *)
Example C27_example : exists chol c',
  @get_kernel_cholesky NumR exp chol ex_X ex_hyps "matern52" true false = Ok (c', (1 :: nil) :: nil, None) /\
  chol (@jittered NumR 3 c' 0) = Ok ((1 :: nil) :: nil) /\ check_str_cov "matern52" (shape ex_X) None = Ok tt.
Proof.
  exists (fun _ => Ok ((1 :: nil) :: nil)).
  destruct (train_cov_ok ex_fits ex_hyps_ok eq_refl) as (c & E & _).
  exists (jittered 3 c 0). unfold get_kernel_cholesky. rewrite E. cbn. now repeat split.
Qed.

(** ** C28 *)
(** All entries are the partial derivatives, except the diagonal of the slice of the signal, which is
    larger by 2 * jitter / signal. *)
Theorem C28_gradient_partial : forall name pr (m : mat NumR) d h ls s nz fx, profile_of name = Some pr ->
  fits name (A2 NumR m) d -> has_hyps h d ls s nz -> s <> 0 -> ls_nonzero ls d ->
  let X := A2 NumR m in let n := nrows m in
  exists th g, @convert_hyps NumR name h true fx = Ok th /\
  @grad_cov_main NumR exp name X X h fx true (JITTER_COV NumR) = Ok g /\ List.length g = List.length th /\
  (forall p, (p < List.length th)%nat -> is_mx n n (nth p g nil)) /\
  forall p i j, (p < List.length th)%nat -> (i < n)%nat -> (j < n)%nat ->
    (forall u, exists c, (do h' <- @restore_hyps NumR name (lset th p u) true (is_arr ls) fx nz; @train_cov NumR exp X h' name) = Ok c) /\
    exists D, is_derive (cov_at name X fx (is_arr ls) nz th p i j) (nth p th 0) D /\
      at_ (nth p g nil) i j
      = D + (if (Nat.eqb p (if fx then 0 else 1) && Nat.eqb i j)%bool then 2 * / 100000 / s else 0).
Proof.
  intros name pr m d h ls s nz fx P F H Hs Hl X n.
  exists (theta fx nz s ls). destruct (@grad_correct name pr m d h ls s nz fx P F H Hs Hl) as (g & G).
  exists g. split; [exact (convert_theta fx P H)|]. exact G.
Qed.
Print Assumptions C28_gradient_partial.
(** the offset is always there: the diagonal of the signal slice is never the partial derivative *)
Theorem C28_signal_diagonal : forall name pr (m : mat NumR) d h ls s nz (fx : bool) i, profile_of name = Some pr ->
  fits name (A2 NumR m) d -> has_hyps h d ls s nz -> s <> 0 -> ls_nonzero ls d -> (i < nrows m)%nat ->
  exists (th : list R) (g : list (list (list R))) (D : R), let p := if fx then 0%nat else 1%nat in
  @convert_hyps NumR name h true fx = Ok th /\
  @grad_cov_main NumR exp name (A2 NumR m) (A2 NumR m) h fx true (JITTER_COV NumR) = Ok g /\
  is_derive (cov_at name (A2 NumR m) fx (is_arr ls) nz th p i i) (nth p th 0) D /\ at_ (nth p g nil) i i <> D.
Proof.
  intros name pr m d h ls s nz fx i P F H Hs Hl Hi.
  destruct (@grad_correct name pr m d h ls s nz fx P F H Hs Hl) as (g & E & L & S & G).
  exists (theta fx nz s ls), g. set (p := if fx then 0%nat else 1%nat).
  assert (Hp : (p < List.length (theta fx nz s ls))%nat).
  { unfold p, theta. rewrite !app_length. destruct fx; cbn; lia. }
  destruct (G p i i Hp Hi Hi) as (_ & D & HD & EQ). exists D. cbv zeta.
  split; [exact (convert_theta fx P H)|]. split; [exact E|]. split; [exact HD|].
  change (if fx then 0%nat else 1%nat) with p in EQ. rewrite !Nat.eqb_refl in EQ. cbn [andb] in EQ. cbv beta iota in EQ.
  intros X. apply Hs.
  pose proof (eq_trans (eq_sym EQ) X) as Y. assert (Q : 2 * / 100000 / s = 0) by lra. unfold Rdiv in Q. apply Rmult_integral in Q as [Q|Q]; [lra|].
  exfalso. exact (Rinv_neq_0_compat _ Hs Q).
Qed.
Print Assumptions C28_signal_diagonal.
Theorem C28_gradient_refuted : exists name m h ls s nz (fx : bool) p i (th : list R) (g : list (list (list R))) (D : R),
  has_hyps h 2 ls s nz /\ fits name (A2 NumR m) 2 /\ @convert_hyps NumR name h true fx = Ok th /\
  @grad_cov_main NumR exp name (A2 NumR m) (A2 NumR m) h fx true (JITTER_COV NumR) = Ok g /\
  is_derive (cov_at name (A2 NumR m) fx (is_arr ls) nz th p i i) (nth p th 0) D /\ at_ (nth p g nil) i i <> D.
Proof.
  exists "matern52", (mkmat ([[0; 1]; [2; 5]; [0; 1]] : list (list NumR)) 2), ex_hyps, (PArr NumR [1; 3]), 2, (1 / 10), true, 0%nat, 0%nat.
  destruct (C28_signal_diagonal "matern52" matern52_profile (mkmat ([[0; 1]; [2; 5]; [0; 1]] : list (list NumR)) 2) 2 ex_hyps (PArr NumR [1; 3]) 2 (1 / 10) true 0 eq_refl ex_fits ex_hyps_ok)
    as (th & g & D & Q1 & Q2 & Q3 & Q4).
  - lra.
  - intros [|[|i]] Hi; cbn; try lra. lia.
  - cbn. lia.
  - exists th, g, D. split; [exact ex_hyps_ok|]. split; [exact ex_fits|]. split; [exact Q1|]. split; [exact Q2|]. split; [exact Q3|exact Q4].
Qed.
Print Assumptions C28_gradient_refuted.
Example C28_example : profile_of "matern52" = Some matern52_profile /\ fits "matern52" ex_X 2 /\
  has_hyps ex_hyps 2 (PArr NumR [1; 3]) 2 (1 / 10) /\ ls_nonzero (PArr NumR [1; 3]) 2 /\ (1 < 3)%nat.
Proof.
  split; [reflexivity|]. split; [exact ex_fits|]. split; [exact ex_hyps_ok|]. split; [|lia].
  intros [|[|i]] Hi; cbn; try lra. lia.
Qed.
