(** Gradients of the training covariance with respect to the hyperparameters. *)
From Verif Require Import Base Lists Num UtilsModel UtilsSpec UtilsRProofs HypsModel CovModel CovMx KernelSpec CovSpec PSD CovProofs CovProofs2.
From Coq Require Import List ZArith Bool String Ascii Reals Lra Lia Arith.
From Coquelicot Require Import Coquelicot.
Import ListNotations.
Open Scope R_scope.
Local Open Scope string_scope.
Set Implicit Arguments.
Unset Strict Implicit.
Unset Asymmetric Patterns.
Set Bullet Behavior "Strict Subproofs".

(** ** slices *)
Section Slices.
Context (N : Num) (n m : nat).
Notation mx := (list (list N)).
Lemma gadd_all nh (L : list (nat * mx)) : forall g : list mx, List.length g = nh ->
  (forall k, (k < nh)%nat -> @shp N n m (nth k g (zeros N n m))) ->
  NoDup (map fst L) -> (forall p, In p L -> (fst p < nh)%nat /\ @shp N n m (snd p)) ->
  exists g', foldM (fun g p => gadd N g (fst p) (snd p)) L g = Ok g' /\ List.length g' = nh /\
    (forall k, (k < nh)%nat -> @shp N n m (nth k g' (zeros N n m))) /\
    (forall k a, (k < nh)%nat -> In (k, a) L ->
       nth k g' (zeros N n m) = madd N (nth k g (zeros N n m)) a) /\
    (forall k, ~ In k (map fst L) -> nth k g' (zeros N n m) = nth k g (zeros N n m)).
Proof.
  induction L as [|[k0 a0] L IH]; intros g LG S ND B.
  { exists g. split; [reflexivity|]. split; [exact LG|]. split; [exact S|]. split; [intros k a _ []|reflexivity]. }
  cbn [map fst] in ND. inversion ND as [|? ? NI ND']; subst.
  destruct (B (k0, a0)) as [B0 S0]; [now left|]. cbn [fst snd] in *.
  cbn [foldM fst snd]. unfold gadd at 1. erewrite nth_error_nth'; [|exact B0]. cbn [rbind].
  set (g1 := lset g k0 (madd N (nth k0 g (zeros N n m)) a0)).
  assert (L1 : List.length g1 = List.length g) by apply lset_length.
  assert (N1 : forall k, nth k g1 (zeros N n m) = if Nat.eqb k0 k then madd N (nth k0 g (zeros N n m)) a0 else nth k g (zeros N n m)).
  { intros k. unfold g1. now apply lset_nth. }
  destruct (IH g1) as (g' & E & L' & S' & H1 & H2).
  - exact L1.
  - intros k Hk. rewrite N1. destruct (Nat.eqb k0 k); [apply shp_madd; auto|auto].
  - exact ND'.
  - intros p Hp. apply B. now right.
  - exists g'. split; [exact E|]. split; [exact L'|]. split; [exact S'|]. split.
    + intros k a Hk [Ek|Hin].
      * injection Ek as -> ->. rewrite H2 by exact NI. rewrite N1, Nat.eqb_refl. reflexivity.
      * rewrite (H1 k a Hk Hin), N1. destruct (Nat.eqb_spec k0 k) as [->|]; [|reflexivity].
        exfalso. apply NI. apply in_map_iff. exists (k, a). auto.
    + intros k Hk. cbn [map fst] in Hk. rewrite H2 by (intros X; apply Hk; now right).
      rewrite N1. destruct (Nat.eqb_spec k0 k) as [->|]; [|reflexivity]. exfalso. apply Hk. now left.
Qed.
End Slices.

(** ** derivatives of the profiles *)
Definition prof (t : kind) : R -> R := match t with KSe => se_profile | KM32 => matern32_profile | KM52 => matern52_profile end.
(** derivative of the profile with respect to the squared distance *)
Definition dprof (t : kind) (r : R) : R :=
  match t with
  | KSe => - (exp (- (r * r) / 2) / 2)
  | KM32 => - (3 / 2 * exp (- (sqrt 3 * r)))
  | KM52 => - (5 / 6 * (1 + sqrt 5 * r) * exp (- (sqrt 5 * r)))
  end.
Lemma prof_derive t (r : R) : 0 < r -> is_derive (prof t) r (2 * r * dprof t r).
Proof.
  intros Hr. destruct t; cbn [prof dprof].
  - unfold se_profile. auto_derive; [trivial|]. unfold Rdiv. field.
  - unfold matern32_profile. auto_derive; [trivial|].
    replace (- (3 / 2 * exp (- (sqrt 3 * r)))) with (- (sqrt 3 * sqrt 3 / 2 * exp (- (sqrt 3 * r)))) by (rewrite sqrt_sqrt by lra; reflexivity).
    unfold Rdiv. field.
  - apply (is_derive_ext (fun r => (1 + sqrt 5 * r + (sqrt 5 * r) * (sqrt 5 * r) / 3) * exp (- (sqrt 5 * r)))).
    { intros x. symmetry. apply m52_form. }
    auto_derive; [trivial|].
    replace (- (5 / 6 * (1 + sqrt 5 * r) * exp (- (sqrt 5 * r)))) with (- (sqrt 5 * sqrt 5 / 6 * (1 + sqrt 5 * r) * exp (- (sqrt 5 * r)))) by (rewrite sqrt_sqrt by lra; reflexivity).
    unfold Rdiv. field.
Qed.
Lemma prof_ls_derive t (A B l : R) : 0 <= A -> 0 <= B -> l <> 0 ->
  is_derive (fun u => prof t (sqrt (A + B / (u * u)))) l (- 2 * B / (l * l * l) * dprof t (sqrt (A + B / (l * l)))).
Proof.
  intros HA HB Hl. assert (Q : 0 <= A + B / (l * l)).
  { assert (0 < l * l) by nra. assert (0 <= B / (l * l)) by (apply Rmult_le_pos; [lra|left; now apply Rinv_0_lt_compat]). lra. }
  destruct Q as [Q|Q].
  - set (q := A + B / (l * l)) in *.
    assert (D1 : is_derive (fun u => A + B / (u * u)) l (- 2 * B / (l * l * l))).
    { auto_derive; [intros X; apply Hl; nra|]. field. exact Hl. }
    assert (D2 : is_derive sqrt q (/ (2 * sqrt q))).
    { apply is_derive_Reals. apply derivable_pt_lim_sqrt. exact Q. }
    assert (Sq : 0 < sqrt q) by now apply sqrt_lt_R0.
    pose proof (is_derive_comp sqrt (fun u => A + B / (u * u)) l (/ (2 * sqrt q)) (- 2 * B / (l * l * l)) D2 D1) as D3.
    pose proof (is_derive_comp (prof t) (fun u => sqrt (A + B / (u * u))) l (2 * sqrt q * dprof t (sqrt q)) _ (prof_derive t Sq) D3) as D4.
    match type of D4 with is_derive _ _ ?e => replace (- 2 * B / (l * l * l) * dprof t (sqrt q)) with e end.
    + exact D4.
    + unfold scal; cbn. unfold mult; cbn. field. split; [exact Hl|lra] || (split; [lra|exact Hl]).
  - assert (P : 0 < l * l) by nra. assert (0 <= B / (l * l)) by (apply Rmult_le_pos; [lra|left; now apply Rinv_0_lt_compat]).
    assert (A = 0) by lra. assert (B = 0).
    { assert (Z : B / (l * l) = 0) by lra. unfold Rdiv in Z. apply Rmult_integral in Z as [Z|Z]; [exact Z|].
      exfalso. pose proof (Rinv_0_lt_compat _ P). lra. }
    subst A B. replace (- 2 * 0 / (l * l * l) * dprof t (sqrt (0 + 0 / (l * l)))) with 0 by (unfold Rdiv; ring).
    apply (is_derive_ext (fun _ : R => prof t (sqrt 0))).
    { intros u. f_equal. f_equal. unfold Rdiv. ring. }
    apply (is_derive_const (K := R_AbsRing) (V := R_NormedModule)).
Qed.

(** ** shape of the hyperparameter vector *)
Definition theta (fix_noise : bool) (nz s : R) (ls : pyval NumR) : list R :=
  (if fix_noise then nil else nz :: nil) ++ (s :: nil) ++ (match ls with PArr _ l => l | PFloat _ l => l :: nil | POther _ _ => nil end).


Lemma list_first_base name p : profile_of name = Some p -> str_in name list_first = true.
Proof.
  unfold profile_of. destruct (name =? "eq") eqn:A; [intros _; apply String.eqb_eq in A; now subst|].
  destruct (name =? "se") eqn:A'; [intros _; apply String.eqb_eq in A'; now subst|]. cbn [orb].
  destruct (name =? "matern32") eqn:B; [intros _; apply String.eqb_eq in B; now subst|].
  destruct (name =? "matern52") eqn:C; [intros _; apply String.eqb_eq in C; now subst|discriminate].
Qed.
Lemma convert_theta name p h d ls s nz fx : profile_of name = Some p -> has_hyps h d ls s nz ->
  @convert_hyps NumR name h true fx = Ok (theta fx nz s ls).
Proof.
  intros P (Hn & Hs & Hl & E). destruct (choose_profile P) as (_ & _ & _ & A & _).
  unfold convert_hyps. rewrite A. cbn [assert_ rbind]. unfold dfloat. rewrite Hn, Hs, Hl.
  rewrite (list_first_base P). unfold theta.
  destruct fx; cbn [rbind]; destruct ls as [l|l|t]; try contradiction; reflexivity.
Qed.
Lemma restore_theta name p d ls s nz n0 fx : profile_of name = Some p -> ls_ok ls d ->
  exists h', @restore_hyps NumR name (theta fx nz s ls) true (is_arr ls) fx n0 = Ok h' /\
    has_hyps h' d ls s (if fx then n0 else nz).
Proof.
  intros P E. destruct (choose_profile P) as (_ & _ & _ & A & _).
  unfold restore_hyps. rewrite A. cbn [assert_ rbind]. rewrite (list_first_base P). unfold theta.
  destruct fx, ls as [l|l|t]; try contradiction; cbn; (eexists; split; [reflexivity|]); repeat split; exact E.
Qed.

(** changing one component *)
Lemma lset_theta fx nz s ls p t : (p < List.length (theta fx nz s ls))%nat ->
  exists nz' s' ls', lset (theta fx nz s ls) p t = theta fx nz' s' ls' /\ is_arr ls' = is_arr ls /\
    (forall d, ls_ok ls d -> ls_ok ls' d) /\
    ((fx = false /\ p = 0%nat /\ nz' = t /\ s' = s /\ ls' = ls /\ nth p (theta fx nz s ls) 0 = nz) \/
     (p = (if fx then 0 else 1)%nat /\ nz' = nz /\ s' = t /\ ls' = ls /\ nth p (theta fx nz s ls) 0 = s) \/
     (exists k, p = ((if fx then 0 else 1) + k + 1)%nat /\ nz' = nz /\ s' = s /\
        match ls with
        | PArr _ l => (k < List.length l)%nat /\ ls' = PArr NumR (lset l k t) /\ nth p (theta fx nz s ls) 0 = nth k l 0
        | PFloat _ l => k = 0%nat /\ ls' = PFloat NumR t /\ nth p (theta fx nz s ls) 0 = l
        | POther _ _ => False
        end)).
Proof.
  intros Hp.
  assert (Z : (fx = false /\ p = 0%nat) \/ p = (if fx then 0 else 1)%nat \/ (exists k, p = ((if fx then 0 else 1) + k + 1)%nat)).
  { destruct fx.
    - destruct p as [|p]; [right; left; reflexivity|]. right. right. exists p. lia.
    - destruct p as [|[|p]]; [left; now split|right; left; reflexivity|]. right. right. exists p. lia. }
  destruct Z as [[-> ->]|[->|[k ->]]].
  - exists t, s, ls. split; [reflexivity|]. repeat split; auto. left. repeat split; reflexivity.
  - exists nz, t, ls. destruct fx; (split; [reflexivity|]); repeat split; auto; right; left; repeat split; reflexivity.
  - destruct ls as [l|l|u].
    + assert (k = 0%nat). { destruct fx; cbn in Hp; lia. } subst k.
      exists nz, s, (PFloat NumR t). destruct fx; (split; [reflexivity|]); repeat split; auto;
        right; right; exists 0%nat; repeat split; reflexivity.
    + assert (Hk : (k < List.length l)%nat). { destruct fx; cbn in Hp |- *; lia. }
      exists nz, s, (PArr NumR (lset l k t)). split.
      { destruct fx; cbn [theta app Nat.add lset]; unfold theta; cbn [app]; rewrite Nat.add_comm; reflexivity. }
      repeat split; [intros d Hd; cbn in *; now rewrite lset_length|].
      right. right. exists k. repeat split; auto.
      destruct fx; unfold theta; cbn [app Nat.add]; rewrite Nat.add_comm; reflexivity.
    + exfalso. destruct fx; cbn in Hp; lia.
Qed.

Lemma grad_kind name p : profile_of name = Some p ->
  exists t, choose_fun_grad_cov name = Ok t /\ p = prof t /\ str_in name ALLOWED_COV = true.
Proof.
  intros P. destruct (choose_profile P) as (_ & _ & _ & A & _). revert P. unfold profile_of, choose_fun_grad_cov.
  destruct ((name =? "eq") || (name =? "se"))%bool; [intros H; injection H as <-; now exists KSe|].
  destruct (name =? "matern32"); [intros H; injection H as <-; now exists KM32|].
  destruct (name =? "matern52"); [intros H; injection H as <-; now exists KM52|discriminate].
Qed.

Lemma cov_at_eq name pr (m : mat NumR) d fx ls s nz n0 p i j t : profile_of name = Some pr -> fits name (A2 NumR m) d ->
  ls_ok ls d -> (p < List.length (theta fx nz s ls))%nat -> (i < nrows m)%nat -> (j < nrows m)%nat ->
  exists nz' s' ls', lset (theta fx nz s ls) p t = theta fx nz' s' ls' /\ is_arr ls' = is_arr ls /\
  (exists c, (do h' <- @restore_hyps NumR name (lset (theta fx nz s ls) p t) true (is_arr ls) fx n0; @train_cov NumR exp (A2 NumR m) h' name) = Ok c) /\
  cov_at name (A2 NumR m) fx (is_arr ls) n0 (theta fx nz s ls) p i j t
  = base_kernel pr ls' s' d (nth i (mrows m) []) (nth j (mrows m) [])
    + (if Nat.eqb i j then / 100000 + (if fx then n0 else nz') * (if fx then n0 else nz') else 0).
Proof.
  intros P F E Hp Hi Hj.
  destruct (lset_theta t Hp) as (nz' & s' & ls' & L1 & L2 & L3 & _).
  exists nz', s', ls'. split; [exact L1|]. split; [exact L2|].
  destruct (@restore_theta name pr d ls' s' nz' n0 fx P (L3 d E)) as (h' & R1 & R2).
  assert (HK : cov_of name ls' s' d = Some (fun e e' => base_kernel pr ls' s' d (point e) (point e'))).
  { unfold cov_of. now rewrite P. }
  destruct (train_cov_ok F R2 HK) as (c & T1 & _ & T2).
  unfold cov_at. rewrite L1, <- L2, R1. cbn [rbind]. rewrite T1. split; [now exists c|].
  rewrite T2 by assumption. cbn [alen] in *. rewrite !elem_nth_point by assumption. reflexivity.
Qed.

(** the sum of squares when one lengthscale changes *)
Lemma scaled_sq_ard d (l : list R) k x y : (k < d)%nat -> List.length l = d ->
  exists A, 0 <= A /\ (forall u : R,
    scaled_sq (ls_at (PArr NumR (lset l k u))) d x y
    = A + ((nth k x 0 - nth k y 0) * (nth k x 0 - nth k y 0)) / (u * u)).
Proof.
  intros Hk L.
  exists (Rsum (map (fun i => if Nat.eqb k i then 0 else ((nth i x 0 - nth i y 0) / nth i l 0) * ((nth i x 0 - nth i y 0) / nth i l 0)) (seq 0 d))).
  split; [apply Rsum_map_nonneg; intros i _; destruct (Nat.eqb k i); [lra|apply Rle_0_sqr]|].
  intros u. unfold scaled_sq.
  rewrite <- (@Rsum_single d (fun i => (nth i x 0 - nth i y 0) * (nth i x 0 - nth i y 0) / (u * u)) k Hk), <- Rsum_map_plus.
  apply Rsum_map_ext. intros i Hi. apply in_seq in Hi. cbv zeta. cbn [ls_at].
  assert (LL : (k < List.length l)%nat) by lia.
  pose proof (@lset_nth R l k i u 0 LL) as LN. cbn in LN |- *. rewrite LN.
  unfold Rdiv. destruct (Nat.eqb_spec k i) as [->|]; [rewrite Rinv_mult; ring|ring].
Qed.
Lemma scaled_sq_scalar d x y (u : R) :
  scaled_sq (ls_at (PFloat NumR u)) d x y = 0 + scaled_sq (fun _ => 1) d x y / (u * u).
Proof.
  unfold scaled_sq, Rdiv. rewrite Rplus_0_l, Rmult_comm, <- Rsum_map_scal. apply Rsum_map_ext. intros i _.
  cbv zeta. cbn [ls_at]. rewrite Rinv_mult, Rinv_1. ring.
Qed.

Lemma foldM_map {A B S} (f : S -> B -> res S) (g : A -> B) l s :
  foldM f (map g l) s = foldM (fun s a => f s (g a)) l s.
Proof. revert s; induction l as [|a l IH]; intros s; cbn; [reflexivity|]. destruct (f s (g a)); cbn; auto. Qed.

(** what multiplies the squared differences, in the code and in the derivative *)
Lemma term_pre_R t s c r : t <> KSe -> term_pre NumR exp t s c r = - 2 * (s * s * dprof t r).
Proof.
  intros Ht. destruct t; [congruence| |]; unfold term_pre, dprof, nsq, nlit; cbn.
  - replace (- sqrt 3 * r) with (- (sqrt 3 * r)) by ring. field.
  - replace (- sqrt 5 * r) with (- (sqrt 5 * r)) by ring. field.
Qed.
Lemma term_pre_R0 t s c r D : (D <> 0 -> c = s * s * prof t r) ->
  term_pre NumR exp t s c r * D = - 2 * (s * s * dprof t r) * D.
Proof.
  intros H. destruct (Req_dec D 0) as [->|HD]; [ring|]. destruct t; [|now rewrite term_pre_R by discriminate..].
  unfold term_pre, dprof. rewrite (H HD). cbn [prof]. unfold se_profile. field.
Qed.

Section Main.
Variables (name : string) (pr : R -> R) (m : mat NumR) (d : nat) (h : dict NumR) (ls : pyval NumR) (s nz : R) (fx : bool).
Hypotheses (P : profile_of name = Some pr) (F : fits name (A2 NumR m) d) (H : has_hyps h d ls s nz)
  (Hs : s <> 0) (Hl : ls_nonzero ls d).
Let n := nrows m.
Let th := theta fx nz s ls.
Let X := A2 NumR m.
Let row i : list R := nth i (mrows m) nil.
Let ind : nat := if fx then 0%nat else 1%nat.
Let jit : R := / 100000.

Lemma ls_is_ok : ls_ok ls d. Proof. destruct H as (_ & _ & _ & E). exact E. Qed.
Lemma row_len i : (i < n)%nat -> List.length (row i) = d.
Proof. intros Hi. destruct F as [W [_ D]]. rewrite <- D. apply W. apply nth_In. exact Hi. Qed.

Lemma theta_len : List.length th = (ind + 1 + match ls with PArr _ l => List.length l | PFloat _ _ => 1 | POther _ _ => 0 end)%nat.
Proof. unfold th, theta, ind. destruct fx, ls; cbn; lia. Qed.

(** value of the slices *)
Definition slice_at (C : list (list R)) (t : kind) (p i j : nat) : R :=
  if (negb fx && Nat.eqb p 0)%bool then (if Nat.eqb i j then 2 * nz else 0)
  else if Nat.eqb p ind then 2 * at_ C i j / s
  else match ls with
       | PArr _ l => let k := (p - ind - 1)%nat in
           term_pre NumR exp t s (at_ C i j) (scaled_dist (ls_at ls) d (row i) (row j))
           * ((nth k (row i) 0 - nth k (row j) 0) * (nth k (row i) 0 - nth k (row j) 0)) / (nth k l 0 * nth k l 0 * nth k l 0)
       | _ => term_pre NumR exp t s (at_ C i j) (scaled_dist (ls_at ls) d (row i) (row j))
              * scaled_sq (ls_at ls) d (row i) (row j) / ls_at ls 0
       end.

Lemma cdist1_one (a b : R) : nsq NumR (cdist1 NumR (a :: nil) (b :: nil)) = (a - b) * (a - b).
Proof.
  unfold nsq, cdist1. cbn [vsub combine map fst snd]. unfold vsub. cbn [combine map fst snd]. rewrite nnorm_R. cbn.
  rewrite sqrt_sqrt; [ring|]. assert (0 <= (a - b) * (a - b)) by apply Rle_0_sqr. lra.
Qed.

Lemma grad_slices : exists t C g, choose_fun_grad_cov name = Ok t /\ pr = prof t /\
  @cov_main NumR exp name X X h true (JITTER_COV NumR) = Ok C /\
  (forall i j, (i < n)%nat -> (j < n)%nat ->
      at_ C i j = base_kernel pr ls s d (row i) (row j) + (if Nat.eqb i j then jit else 0)) /\
  @grad_cov_main NumR exp name X X h fx true (JITTER_COV NumR) = Ok g /\ List.length g = List.length th /\
  (forall p, (p < List.length th)%nat -> is_mx n n (nth p g nil)) /\
  (forall p i j, (p < List.length th)%nat -> (i < n)%nat -> (j < n)%nat -> at_ (nth p g nil) i j = slice_at C t p i j).
Proof.
  destruct (grad_kind P) as (t & Et & Ept & A).
  assert (HK : cov_of name ls s d = Some (fun e e' => base_kernel pr ls s d (point e) (point e'))).
  { unfold cov_of. now rewrite P. }
  destruct (@cov_main_ok name X X h d ls s nz _ true (JITTER_COV NumR) F F H HK (fun _ => eq_refl)) as (C & EC & SC & HC).
  cbn [alen X] in SC, HC. fold n in SC, HC.
  assert (HC' : forall i j, (i < n)%nat -> (j < n)%nat ->
      at_ C i j = base_kernel pr ls s d (row i) (row j) + (if Nat.eqb i j then jit else 0)).
  { intros i j Hi Hj. rewrite HC by assumption. unfold lower_set.
    assert (SP : set_profile_of name = None).
    { destruct (set_profile_of name) as [q|] eqn:Q; [|reflexivity]. destruct (set_profile Q) as (Q' & _). congruence. }
    rewrite SP. cbn [andb]. unfold X. rewrite !elem_nth_point by assumption. cbn [point].
    unfold JITTER_COV, nlit, jit. cbn [ndiv nofZ NumR]. unfold Rdiv, row. rewrite Rmult_1_l. reflexivity. }
  pose proof H as (Gn & Gs & Gl & Gok). pose proof ls_is_ok as LOK.
  assert (DX : mcols m = d) by (destruct F as [_ [_ D]]; exact D).
  set (U := ((if fx then nil else (0%nat, mmap NumR (fun e => nmul NumR (nmul NumR (nofZ NumR 2) nz) e) (eye NumR n n)) :: nil)
      ++ (ind, mmap NumR (fun c => ndiv NumR (nmul NumR (nofZ NumR 2) c) s) C) ::
      match ls with
      | PArr _ l => map (fun k => ((ind + k + 1)%nat, mgen NumR n n (fun i j =>
                    nmul NumR (nmul NumR (term_pre NumR exp t s (mget NumR C i j) (cdist1 NumR (vscale NumR ls (row i)) (vscale NumR ls (row j))))
                       (nsq NumR (cdist1 NumR (coord NumR (row i) k :: nil) (coord NumR (row j) k :: nil))))
                           (inv3 NumR (nth k l (nofZ NumR 0)))))) (seq 0 (List.length l))
      | PFloat _ l => ((ind + 1)%nat, mgen NumR n n (fun i j =>
           match t with
           | KM52 => nmul NumR (nmul NumR (term_pre NumR exp t s (mget NumR C i j) (cdist1 NumR (vscale NumR ls (row i)) (vscale NumR ls (row j)))) (inv1 NumR l)) (nsq NumR (cdist1 NumR (vscale NumR ls (row i)) (vscale NumR ls (row j))))
           | _ => nmul NumR (nmul NumR (term_pre NumR exp t s (mget NumR C i j) (cdist1 NumR (vscale NumR ls (row i)) (vscale NumR ls (row j)))) (nsq NumR (cdist1 NumR (vscale NumR ls (row i)) (vscale NumR ls (row j))))) (inv1 NumR l)
           end)) :: nil
      | POther _ _ => nil
      end)%list).
  set (nh := List.length th).
  set (g0 := repeat (zeros NumR n n) nh).
  assert (EG : @grad_cov_main NumR exp name X X h fx true (JITTER_COV NumR)
               = foldM (fun g p => gadd NumR g (fst p) (snd p)) U g0).
  { unfold grad_cov_main. rewrite A. cbn [assert_ rbind]. unfold getls. rewrite Gl. cbn [rbind]. rewrite EC. cbn [rbind].
    rewrite Et. cbn [rbind X shape nth]. unfold grad_cov. fold n. unfold getls. rewrite Gl. cbn [rbind].
    assert (NH : (if fx then match ls with PArr _ _ => (mcols m + 1)%nat | _ => 2%nat end
                  else (match ls with PArr _ _ => (mcols m + 1)%nat | _ => 2%nat end + 1)%nat) = nh).
    { unfold nh. rewrite theta_len. unfold ind. rewrite DX. destruct fx, ls; cbn in LOK |- *; try contradiction; lia. }
    rewrite NH. fold g0. unfold U. rewrite foldM_app.
    unfold dfloat. rewrite Gn, Gs. unfold ind.
    destruct fx; cbn [foldM rbind fst snd].
    - destruct (gadd NumR g0 0 _) as [g1|e]; cbn [rbind]; [|reflexivity].
      destruct ls as [l|l|u]; [| |contradiction].
      + cbn [foldM fst snd]. fold row. destruct (gadd NumR g1 _ _); reflexivity.
      + rewrite foldM_map. reflexivity.
    - destruct (gadd NumR g0 0 _) as [g1|e]; cbn [rbind]; [|reflexivity].
      destruct (gadd NumR g1 1 _) as [g2|e]; cbn [rbind]; [|reflexivity].
      destruct ls as [l|l|u]; [| |contradiction].
      + cbn [foldM fst snd]. fold row. destruct (gadd NumR g2 _ _); reflexivity.
      + rewrite foldM_map. reflexivity. }
  assert (LG0 : List.length g0 = nh) by apply repeat_length.
  assert (Z0 : forall k, nth k g0 (zeros NumR n n) = zeros NumR n n).
  { intros k. unfold g0. destruct (Nat.lt_ge_cases k nh).
    - apply nth_repeat.
    - rewrite nth_overflow; [reflexivity|]. rewrite repeat_length. lia. }
  assert (IDX : map fst U = seq 0 nh).
  { unfold U, nh. rewrite theta_len. unfold ind. rewrite map_app.
    destruct fx, ls as [l|l|u]; cbn [map fst app]; try contradiction; try reflexivity.
    - rewrite map_map. cbn [fst]. cbn [Nat.add seq]. f_equal. rewrite <- seq_shift. apply map_ext. intros; lia.
    - rewrite map_map. cbn [fst]. cbn [Nat.add seq]. f_equal. f_equal. rewrite <- !seq_shift, map_map. apply map_ext. intros; lia. }
  destruct (@gadd_all NumR n n nh U g0) as (g & Eg & Lg & Sg & G1 & _).
  - exact LG0.
  - intros k _. rewrite Z0. apply shp_zeros.
  - pose proof (seq_NoDup nh 0) as ND. rewrite <- IDX in ND. exact ND.
  - intros p Hp. split.
    + assert (I : In (fst p) (seq 0 nh)) by (rewrite <- IDX; exact (in_map fst U p Hp)). apply in_seq in I. lia.
    + unfold U in Hp. apply in_app_iff in Hp as [Hp|[<-|Hp]].
      * destruct fx; [destruct Hp|]. destruct Hp as [<-|[]]. apply shp_mmap, shp_eye.
      * apply shp_mmap. exact SC.
      * destruct ls as [l|l|u]; [| |destruct Hp].
        -- destruct Hp as [<-|[]]. apply shp_mgen.
        -- apply in_map_iff in Hp as [k [<- _]]. apply shp_mgen.
  - exists t, C, g. fold nh.
    split; [exact Et|]. split; [exact Ept|]. split; [exact EC|]. split; [exact HC'|].
    split; [now rewrite EG|]. split; [exact Lg|].
    assert (DEF : forall p, (p < nh)%nat -> nth p g nil = nth p g (zeros NumR n n)).
    { intros p Hp. apply nth_indep. cbn in Lg |- *. lia. }
    split; [intros p Hp; rewrite DEF by exact Hp; now apply Sg|].
    intros p i j Hp Hi Hj. rewrite DEF by exact Hp. rewrite at_mget.
    assert (ENT : forall a, In (p, a) U -> @shp NumR n n a -> mget NumR (nth p g (zeros NumR n n)) i j = mget NumR a i j).
    { intros a Ha Sa. rewrite (G1 p a Hp Ha), Z0, (@mget_madd NumR n n) by (try assumption; apply shp_zeros).
      unfold zeros. rewrite mget_mgen by assumption. cbn. apply Rplus_0_l. }
    assert (CD : cdist1 NumR (vscale NumR ls (row i)) (vscale NumR ls (row j)) = scaled_dist (ls_at ls) d (row i) (row j)).
    { apply cdist_scaled; [now apply row_len|now apply row_len|exact LOK]. }
    unfold slice_at. destruct (negb fx && Nat.eqb p 0)%bool eqn:B0.
    + apply andb_true_iff in B0 as [B1 B2]. apply Nat.eqb_eq in B2. subst p.
      rewrite (ENT (mmap NumR (fun e => nmul NumR (nmul NumR (nofZ NumR 2) nz) e) (eye NumR n n))).
      * rewrite (@mget_mmap NumR n n) by (try assumption; apply shp_eye). unfold eye. rewrite mget_mgen by assumption.
        destruct (Nat.eqb i j); cbn; ring.
      * unfold U. destruct fx; [discriminate|]. left. reflexivity.
      * apply shp_mmap, shp_eye.
    + destruct (Nat.eqb_spec p ind) as [->|NE].
      * rewrite (ENT (mmap NumR (fun c => ndiv NumR (nmul NumR (nofZ NumR 2) c) s) C)).
        -- rewrite (@mget_mmap NumR n n) by assumption. reflexivity.
        -- unfold U. apply in_app_iff. right. now left.
        -- apply shp_mmap. exact SC.
      * assert (GT : (ind < p)%nat).
        { unfold ind in *. destruct fx; cbn [negb andb] in B0; [lia|]. apply Nat.eqb_neq in B0. lia. }
        unfold nh in Hp. rewrite theta_len in Hp.
        destruct ls as [l|l|u] eqn:EL; [| |contradiction].
        -- assert (p = ind + 1)%nat by lia. subst p.
           erewrite ENT; [|unfold U; apply in_app_iff; right; right; left; reflexivity|apply shp_mgen].
           rewrite mget_mgen by assumption. rewrite CD. cbn [ls_at]. rewrite <- (scaled_dist_sq (ls_at (PFloat NumR l))).
           unfold inv1, nsq. change (at_ C i j) with (mget NumR C i j). destruct t; cbn [nmul ndiv nofZ NumR]; unfold Rdiv; ring.
        -- set (k := (p - ind - 1)%nat).
           erewrite ENT; [|unfold U; apply in_app_iff; right; right; apply in_map_iff; exists k; split;
               [reflexivity || (f_equal; unfold k; lia)|apply in_seq; unfold k; lia]|apply shp_mgen].
           rewrite mget_mgen by assumption. rewrite CD, cdist1_one. unfold inv3, coord. cbn [nmul ndiv nofZ NumR].
           unfold Rdiv. change (at_ C i j) with (mget NumR C i j). etransitivity; [apply (f_equal (fun z : R => _ * z)); apply Rmult_1_l|]. reflexivity.
Qed.

Lemma cov_at_form n0 p i j u nz' s' ls' : (i < n)%nat -> (j < n)%nat ->
  lset th p u = theta fx nz' s' ls' -> is_arr ls' = is_arr ls -> ls_ok ls' d ->
  (exists c, (do h' <- @restore_hyps NumR name (lset th p u) true (is_arr ls) fx n0; @train_cov NumR exp X h' name) = Ok c) /\
  cov_at name X fx (is_arr ls) n0 th p i j u
  = base_kernel pr ls' s' d (row i) (row j)
    + (if Nat.eqb i j then jit + (if fx then n0 else nz') * (if fx then n0 else nz') else 0).
Proof.
  intros Hi Hj L1 L2 L3.
  destruct (@restore_theta name pr d ls' s' nz' n0 fx P L3) as (h' & R1 & R2).
  assert (HK : cov_of name ls' s' d = Some (fun e e' => base_kernel pr ls' s' d (point e) (point e'))).
  { unfold cov_of. now rewrite P. }
  destruct (train_cov_ok F R2 HK) as (c & T1 & _ & T2).
  unfold cov_at. rewrite L1, <- L2, R1. cbn [rbind]. unfold X. rewrite T1. split; [now exists c|].
  rewrite T2 by assumption. rewrite !elem_nth_point by assumption. reflexivity.
Qed.

Theorem grad_correct : exists g,
  @grad_cov_main NumR exp name X X h fx true (JITTER_COV NumR) = Ok g /\ List.length g = List.length th /\
  (forall p, (p < List.length th)%nat -> is_mx n n (nth p g nil)) /\
  forall p i j, (p < List.length th)%nat -> (i < n)%nat -> (j < n)%nat ->
    (forall u, exists c, (do h' <- @restore_hyps NumR name (lset th p u) true (is_arr ls) fx nz; @train_cov NumR exp X h' name) = Ok c) /\
    exists D, is_derive (cov_at name X fx (is_arr ls) nz th p i j) (nth p th 0) D /\
      at_ (nth p g nil) i j = D + (if (Nat.eqb p ind && Nat.eqb i j)%bool then 2 * jit / s else 0).
Proof.
  destruct grad_slices as (t & C & g & _ & Ept & _ & HC & Eg & Lg & Sg & Hg).
  exists g. split; [exact Eg|]. split; [exact Lg|]. split; [exact Sg|].
  intros p i j Hp Hi Hj. rewrite Hg by assumption. clear Hg Sg Eg.
  pose proof ls_is_ok as LOK. assert (FIX : (if fx then nz else nz) = nz) by (now destruct fx).
  assert (Z : (fx = false /\ p = 0%nat) \/ p = ind \/ (exists k, p = (ind + k + 1)%nat)).
  { unfold ind. destruct fx.
    - destruct p as [|p]; [right; left; reflexivity|]. right. right. exists p. lia.
    - destruct p as [|[|p]]; [left; now split|right; left; reflexivity|]. right. right. exists p. lia. }
  destruct Z as [[Ef ->]|[->|[k ->]]].
  - (* noise *)
    assert (LT : forall u, lset th 0 u = theta fx u s ls) by (intros u; unfold th; rewrite Ef; reflexivity).
    assert (FM := fun u => @cov_at_form nz 0%nat i j u u s ls Hi Hj (LT u) eq_refl LOK).
    split; [intros u; apply (FM u)|].
    exists (if Nat.eqb i j then 2 * nz else 0).
    assert (N0 : nth 0 th 0 = nz) by (unfold th; rewrite Ef; reflexivity). rewrite N0. split.
    + apply (is_derive_ext (fun u => base_kernel pr ls s d (row i) (row j) + (if Nat.eqb i j then jit + u * u else 0))).
      { intros u. destruct (FM u) as [_ ->]. rewrite Ef. reflexivity. }
      destruct (Nat.eqb i j); auto_derive; trivial; ring.
    + unfold slice_at, ind. rewrite Ef. cbn [negb andb Nat.eqb]. ring.
  - (* signal *)
    assert (LT : forall u, lset th ind u = theta fx nz u ls) by (intros u; unfold th, ind; destruct fx; reflexivity).
    assert (FM := fun u => @cov_at_form nz ind i j u nz u ls Hi Hj (LT u) eq_refl LOK).
    split; [intros u; apply (FM u)|].
    exists (2 * s * pr (scaled_dist (ls_at ls) d (row i) (row j))).
    assert (N0 : nth ind th 0 = s) by (unfold th, ind; destruct fx; reflexivity). rewrite N0. split.
    + apply (is_derive_ext (fun u => u * u * pr (scaled_dist (ls_at ls) d (row i) (row j)) + (if Nat.eqb i j then jit + nz * nz else 0))).
      { intros u. destruct (FM u) as [_ ->]. unfold base_kernel. rewrite FIX. reflexivity. }
      auto_derive; trivial. ring.
    + unfold slice_at. rewrite Nat.eqb_refl. cbn [andb].
      assert (NZ : (negb fx && Nat.eqb ind 0)%bool = false) by (unfold ind; destruct fx; reflexivity). rewrite NZ.
      rewrite HC by assumption. unfold base_kernel. destruct (Nat.eqb i j); field; exact Hs.
  - (* lengthscales *)
    assert (NZ : (negb fx && Nat.eqb (ind + k + 1) 0)%bool = false) by (unfold ind; destruct fx; reflexivity).
    assert (NI : Nat.eqb (ind + k + 1) ind = false) by (apply Nat.eqb_neq; lia).
    assert (SL : forall D, (i = j -> D = 0) ->
       term_pre NumR exp t s (at_ C i j) (scaled_dist (ls_at ls) d (row i) (row j)) * D
       = - 2 * (s * s * dprof t (scaled_dist (ls_at ls) d (row i) (row j))) * D).
    { intros D HD. apply term_pre_R0. intros NZD. rewrite HC by assumption.
      destruct (Nat.eqb_spec i j) as [E|]; [exfalso; apply NZD; now apply HD|]. rewrite Rplus_0_r. unfold base_kernel. now rewrite Ept. }
    assert (LS : (exists l, ls = PFloat NumR l) \/ (exists l, ls = PArr NumR l /\ List.length l = d)).
    { clear - LOK. destruct ls as [l|l|u0]; [left; now exists l|right; exists l; now split|contradiction]. }
    destruct LS as [[l EL]|[l [EL Ll]]].
    + (* scalar *)
      assert (K0 : k = 0%nat). { rewrite theta_len, EL in Hp. lia. } rewrite K0 in *. clear k K0.
      assert (LT : forall u, lset th (ind + 0 + 1) u = theta fx nz s (PFloat NumR u)) by (intros u; unfold th, ind; rewrite EL; destruct fx; reflexivity).
      assert (FM := fun u => @cov_at_form nz (ind + 0 + 1)%nat i j u nz s (PFloat NumR u) Hi Hj (LT u) (f_equal is_arr (eq_sym EL)) Logic.I).
      split; [intros u; apply (FM u)|].
      assert (N0 : nth (ind + 0 + 1) th 0 = l) by (unfold th, ind; rewrite EL; destruct fx; reflexivity). rewrite N0.
      set (B := scaled_sq (fun _ => 1) d (row i) (row j)).
      assert (HB : 0 <= B) by apply scaled_sq_nonneg.
      assert (SD : scaled_sq (ls_at ls) d (row i) (row j) = B / (l * l)).
      { rewrite EL, scaled_sq_scalar. fold B. ring. }
      assert (SR : scaled_dist (ls_at ls) d (row i) (row j) = sqrt (0 + B / (l * l))).
      { unfold scaled_dist. rewrite SD. f_equal. ring. }
      assert (VAL : slice_at C t (ind + 0 + 1) i j = s * s * (- 2 * B / (l * l * l) * dprof t (sqrt (0 + B / (l * l))))).
      { unfold slice_at. rewrite NZ, NI, EL. cbn [andb]. rewrite <- EL. rewrite SL, SD, SR.
        - rewrite EL. cbn [ls_at]. unfold Rdiv. rewrite !Rinv_mult. ring.
        - intros ->. unfold scaled_sq. rewrite <- (Rmult_0_l (Rsum (map (fun _ : nat => 0) (seq 0 d)))), <- Rsum_map_scal.
          apply Rsum_map_ext. intros q _. cbv zeta. unfold Rdiv. ring. }
      rewrite VAL, NI. cbn [andb].
      exists (s * s * (- 2 * B / (l * l * l) * dprof t (sqrt (0 + B / (l * l))))). split; [|ring].
      apply (is_derive_ext (fun u => s * s * prof t (sqrt (0 + B / (u * u))) + (if Nat.eqb i j then jit + nz * nz else 0))).
      { intros u. destruct (FM u) as [_ ->]. unfold base_kernel, scaled_dist. rewrite scaled_sq_scalar, Ept, FIX. reflexivity. }
      rewrite <- (Rplus_0_r (s * s * _)). apply (is_derive_plus (K := R_AbsRing) (V := R_NormedModule)); [|apply (is_derive_const (K := R_AbsRing) (V := R_NormedModule))].
      apply is_derive_scal. destruct (Nat.eq_dec d 0) as [D0|D0].
      * assert (B = 0) as -> by (unfold B, scaled_sq; rewrite D0; reflexivity).
        replace (- 2 * 0 / (l * l * l) * dprof t (sqrt (0 + 0 / (l * l)))) with 0 by (unfold Rdiv; ring).
        apply (is_derive_ext (fun _ : R => prof t (sqrt 0))).
        { intros u. f_equal. f_equal. unfold Rdiv. ring. }
        apply (is_derive_const (K := R_AbsRing) (V := R_NormedModule)).
      * apply prof_ls_derive; [lra|exact HB|]. generalize (Hl (i := 0%nat)). rewrite EL. cbn [ls_at]. intros Q. apply Q. lia.
    + (* one lengthscale per coordinate *)
      assert (Hk : (k < d)%nat). { rewrite theta_len, EL in Hp. cbn in Hp, Ll |- *. lia. }
      assert (LT : forall u, lset th (ind + k + 1) u = theta fx nz s (PArr NumR (lset l k u))).
      { intros u. unfold th, ind. rewrite EL. destruct fx; unfold theta; cbn [app Nat.add lset]; rewrite Nat.add_comm; reflexivity. }
      assert (FM := fun u => @cov_at_form nz (ind + k + 1)%nat i j u nz s (PArr NumR (lset l k u)) Hi Hj (LT u) (f_equal is_arr (eq_sym EL)) (eq_trans (lset_length l k u) Ll)).
      split; [intros u; apply (FM u)|].
      assert (N0 : nth (ind + k + 1) th 0 = nth k l 0).
      { unfold th, ind. rewrite EL. destruct fx; unfold theta; cbn [app Nat.add]; rewrite Nat.add_comm; reflexivity. }
      rewrite N0. set (lk := nth k l 0).
      destruct (@scaled_sq_ard d l k (row i) (row j) Hk Ll) as (A & HA & SA).
      set (B := (nth k (row i) 0 - nth k (row j) 0) * (nth k (row i) 0 - nth k (row j) 0)) in *.
      assert (HB : 0 <= B) by apply Rle_0_sqr.
      assert (SELF : lset l k lk = l).
      { clear - Hk Ll. unfold lk. apply (nth_ext _ _ 0 0); [apply lset_length|]. intros q _.
        assert (LL : (k < List.length l)%nat) by (cbn in *; lia).
        pose proof (@lset_nth R l k q (nth k l 0) 0 LL) as LN. cbn in LN |- *. rewrite LN.
        destruct (Nat.eqb_spec k q) as [->|]; reflexivity. }
      assert (SR : scaled_dist (ls_at ls) d (row i) (row j) = sqrt (A + B / (lk * lk))).
      { unfold scaled_dist. f_equal. rewrite EL. etransitivity; [|exact (SA lk)]. exact (f_equal (fun z : list R => scaled_sq (ls_at (PArr NumR z)) d (row i) (row j)) (eq_sym SELF)). }
      assert (VAL : slice_at C t (ind + k + 1) i j = s * s * (- 2 * B / (lk * lk * lk) * dprof t (sqrt (A + B / (lk * lk))))).
      { unfold slice_at. rewrite NZ, NI, EL. cbn [andb]. cbv zeta. replace (ind + k + 1 - ind - 1)%nat with k by lia. rewrite <- EL.
        fold B. rewrite SL, SR.
        - fold lk. unfold Rdiv. ring.
        - intros ->. unfold B. ring. }
      rewrite VAL, NI. cbn [andb].
      exists (s * s * (- 2 * B / (lk * lk * lk) * dprof t (sqrt (A + B / (lk * lk))))). split; [|ring].
      apply (is_derive_ext (fun u => s * s * prof t (sqrt (A + B / (u * u))) + (if Nat.eqb i j then jit + nz * nz else 0))).
      { intros u. destruct (FM u) as [_ ->]. unfold base_kernel, scaled_dist. rewrite SA, Ept, FIX. reflexivity. }
      rewrite <- (Rplus_0_r (s * s * _)). apply (is_derive_plus (K := R_AbsRing) (V := R_NormedModule)); [|apply (is_derive_const (K := R_AbsRing) (V := R_NormedModule))].
      apply is_derive_scal. apply prof_ls_derive; [exact HA|exact HB|].
      generalize (Hl (i := k)). rewrite EL. cbn [ls_at]. intros Q. apply Q. exact Hk.
Qed.
End Main.
