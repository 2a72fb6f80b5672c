(** Entries of kernel matrices in exact arithmetic. *)
From Verif Require Import Base Lists Num UtilsModel UtilsSpec UtilsRProofs HypsModel CovModel CovMx KernelSpec CovSpec PSD.
From Coq Require Import List ZArith Bool String Ascii Reals Lra Lia Permutation Arith.
Import ListNotations.
Open Scope R_scope.
Local Open Scope string_scope.
Set Implicit Arguments.
Unset Strict Implicit.
Unset Asymmetric Patterns.
Set Bullet Behavior "Strict Subproofs".

(** ** entries *)
Lemma nnorm_R (l : list R) : nnorm NumR l = sqrt (Rsum (map (fun x => x * x) l)).
Proof. unfold nnorm. rewrite nsum_R. reflexivity. Qed.

Lemma map_nth_seq {A B} (f : A -> B) (l : list A) d :
  map f l = map (fun i => f (nth i l d)) (seq 0 (List.length l)).
Proof.
  apply nth_ext with (d := f d) (d' := f d); [now rewrite !map_length, seq_length|].
  intros i Hi. rewrite map_length in Hi. rewrite map_nth.
  rewrite (@nth_map_in _ _ _ _ 0%nat) by now rewrite seq_length. now rewrite seq_nth.
Qed.

Lemma vscale_length ls d (x : list R) : List.length x = d ->
  match ls with PArr _ l => List.length l = d | _ => True end -> List.length (vscale NumR ls x) = d.
Proof.
  intros L E. destruct ls; cbn; [now rewrite map_length| |exact L].
  unfold map2. rewrite map_length, combine_length. cbn in *. lia.
Qed.
Lemma vscale_nth ls d (x : list R) i : List.length x = d ->
  match ls with PArr _ l => List.length l = d | PFloat _ _ => True | POther _ _ => False end ->
  (i < d)%nat -> nth i (vscale NumR ls x) 0 = nth i x 0 / ls_at ls i.
Proof.
  intros L E Hi. destruct ls as [s|l|t]; cbn in *; [| |contradiction].
  - rewrite (@nth_map_in _ _ _ _ 0) by (cbn in *; lia). reflexivity.
  - rewrite (@map2_nth _ _ _ _ _ _ 0 0); cbn in *; try lia. reflexivity.
Qed.

Lemma cdist_scaled ls d (x y : list R) : List.length x = d -> List.length y = d ->
  match ls with PArr _ l => List.length l = d | PFloat _ _ => True | POther _ _ => False end ->
  cdist1 NumR (vscale NumR ls x) (vscale NumR ls y) = scaled_dist (ls_at ls) d x y.
Proof.
  intros Lx Ly E. unfold cdist1. rewrite nnorm_R. unfold scaled_dist, scaled_sq. f_equal. f_equal.
  assert (E' : match ls with PArr _ l => List.length l = d | _ => True end) by (destruct ls; auto).
  assert (LV : List.length (vsub NumR (vscale NumR ls x) (vscale NumR ls y)) = d).
  { unfold vsub. rewrite map_length, combine_length. pose proof (vscale_length Lx E') as V1.
    pose proof (vscale_length Ly E') as V2. cbn in *. lia. }
  apply nth_ext with (d := 0 * 0) (d' := 0 * 0).
  - rewrite !map_length, seq_length. exact LV.
  - rewrite map_length. intros i Hi.
    rewrite (map_nth (fun x : R => x * x)).
    rewrite (@nth_map_in _ _ _ _ 0%nat) by (rewrite seq_length; cbn in *; lia).
    rewrite seq_nth by (cbn in *; lia). cbn [Nat.add].
    assert (V : nth i (vsub NumR (vscale NumR ls x) (vscale NumR ls y)) 0
                = nth i x 0 / ls_at ls i - nth i y 0 / ls_at ls i).
    { unfold vsub. change (map (fun p => nsub NumR (fst p) (snd p)) (combine (vscale NumR ls x) (vscale NumR ls y)))
        with (map2 (nsub NumR) (vscale NumR ls x) (vscale NumR ls y)).
      rewrite (@map2_nth _ _ _ _ _ _ 0 0).
      - rewrite (vscale_nth Lx E), (vscale_nth Ly E) by (cbn in *; lia). reflexivity.
      - pose proof (vscale_length Lx E') as V1. pose proof (vscale_length Ly E') as V2. cbn in *. congruence.
      - pose proof (vscale_length Lx E') as V1. cbn in *; lia. }
    cbn in V |- *. rewrite V. unfold Rdiv. ring.
Qed.

Lemma k_se_R s r : k_se NumR exp s r = s * s * se_profile r.
Proof. unfold k_se, se_profile, nlit, nsq. cbn. f_equal. f_equal. field. Qed.
Lemma k_matern32_R s r : k_matern32 NumR exp s r = s * s * matern32_profile r.
Proof.
  unfold k_matern32, matern32_profile, nsq. cbn. replace (-1 * sqrt 3 * r) with (- (sqrt 3 * r)) by ring. ring.
Qed.
Lemma k_matern52_R s r : k_matern52 NumR exp s r = s * s * matern52_profile r.
Proof.
  unfold k_matern52, matern52_profile, nsq, nlit. cbn. replace (-1 * sqrt 5 * r) with (- (sqrt 5 * r)) by ring. ring.
Qed.

(** names *)
Lemma choose_profile name p : profile_of name = Some p ->
  exists k, choose_fun_cov NumR exp name = Ok k /\ (forall s r, k s r = s * s * p r) /\
    str_in name ALLOWED_COV = true /\ str_in name ALLOWED_COV_BASE = true.
Proof.
  unfold profile_of, choose_fun_cov.
  destruct ((name =? "eq") || (name =? "se"))%bool eqn:A.
  { intros H. injection H as <-. eexists. split; [reflexivity|]. split; [apply k_se_R|].
    apply orb_true_iff in A as [A|A]; apply String.eqb_eq in A; subst; split; reflexivity. }
  destruct (name =? "matern32") eqn:B.
  { intros H. injection H as <-. eexists. split; [reflexivity|]. split; [apply k_matern32_R|].
    apply String.eqb_eq in B; subst; split; reflexivity. }
  destruct (name =? "matern52") eqn:C; [|discriminate].
  intros H. injection H as <-. eexists. split; [reflexivity|]. split; [apply k_matern52_R|].
  apply String.eqb_eq in C; subst; split; reflexivity.
Qed.
Lemma set_profile name p : set_profile_of name = Some p ->
  profile_of name = None /\ str_in name ALLOWED_COV = true /\ str_in name ALLOWED_COV_BASE = false /\
  str_in name ALLOWED_COV_SET = true /\
  exists b, nth_error (split_on "_"%char name "") 1 = Some b /\ profile_of b = Some p.
Proof.
  unfold set_profile_of.
  destruct (name =? "set_eq") eqn:A.
  { intros H. injection H as <-. apply String.eqb_eq in A. subst. repeat split; try reflexivity.
    exists "eq". split; reflexivity. }
  destruct (name =? "set_se") eqn:A'; cbn [orb].
  { intros H. injection H as <-. apply String.eqb_eq in A'. subst. repeat split; try reflexivity.
    exists "se". split; reflexivity. }
  destruct (name =? "set_matern32") eqn:B.
  { intros H. injection H as <-. apply String.eqb_eq in B. subst. repeat split; try reflexivity.
    exists "matern32". split; reflexivity. }
  destruct (name =? "set_matern52") eqn:C; [|discriminate].
  intros H. injection H as <-. apply String.eqb_eq in C. subst. repeat split; try reflexivity.
  exists "matern52". split; reflexivity.
Qed.

Lemma validate_ok h d ls s nz name : has_hyps h d ls s nz -> str_in name ALLOWED_COV = true ->
  validate_hyps_dict h name (Z.of_nat d) true = Ok h.
Proof.
  intros (Hn & Hs & Hl & E) A. unfold validate_hyps_dict. rewrite A. cbn [assert_ rbind]. rewrite Hn.
  cbn [ninf NumR rbind]. rewrite Hl. destruct ls as [l|l|t]; [| |contradiction].
  - rewrite Hs. reflexivity.
  - rewrite E, Z.eqb_refl. cbn [negb]. rewrite Hs. reflexivity.
Qed.

(** base kernels between two arrays of points *)
Definition ls_ok (ls : pyval NumR) (d : nat) : Prop :=
  match ls with PArr _ l => List.length l = d | PFloat _ _ => True | POther _ _ => False end.
Lemma assert_ls ls d (X Xp : mat NumR) : ls_ok ls d -> mcols X = d -> mcols Xp = d ->
  match ls with
  | POther _ _ => false
  | PArr _ l => (Nat.eqb (mcols X) (mcols Xp) && Nat.eqb (mcols Xp) (List.length l))%bool
  | PFloat _ _ => Nat.eqb (mcols X) (mcols Xp)
  end = true.
Proof.
  intros E Hx Hp. rewrite Hx, Hp. destruct ls; cbn in *; [| |contradiction].
  - apply Nat.eqb_refl.
  - rewrite E, !Nat.eqb_refl. reflexivity.
Qed.
Lemma cov_base_ok k ls d s (X Xp : mat NumR) : ls_ok ls d -> mcols X = d -> mcols Xp = d ->
  @cov_base NumR k X Xp ls s = Ok (map (fun x => map (entry NumR k ls s x) (mrows Xp)) (mrows X)).
Proof.
  intros E Hx Hp. unfold cov_base. rewrite (assert_ls E Hx Hp). reflexivity.
Qed.
Lemma entry_base k p ls d s (x y : list R) : (forall s r, k s r = s * s * p r) -> ls_ok ls d ->
  List.length x = d -> List.length y = d -> entry NumR k ls s x y = base_kernel p ls s d x y.
Proof.
  intros Hk E Lx Ly. unfold entry, base_kernel. rewrite (cdist_scaled Lx Ly E). apply Hk.
Qed.

Lemma Rsum_concat (l : list (list R)) : Rsum (List.concat l) = Rsum (map Rsum l).
Proof. induction l as [|x l IH]; cbn; [reflexivity|]. now rewrite Rsum_app, IH. Qed.

Lemma cov_set_ok b p ls d s (X Xp : mat NumR) : profile_of b = Some p -> ls_ok ls d ->
  mat_wf X -> mat_wf Xp -> mcols X = d -> mcols Xp = d ->
  @cov_set NumR exp b X Xp ls s = Ok (set_average (base_kernel p ls s d) (mrows X) (mrows Xp)).
Proof.
  intros Hb E WX WXp Hx Hp. destruct (choose_profile Hb) as (k & Ek & Hk & A & B).
  unfold cov_set. rewrite (assert_ls E Hx Hp). cbn [assert_ rbind]. rewrite B. cbn [assert_ rbind].
  rewrite Ek. cbn [rbind]. pose proof (@cov_base_ok k ls d s X Xp E Hx Hp) as CB. rewrite CB. cbn [rbind].
  f_equal. pose proof (nsum_R (List.concat (map (fun x => map (entry NumR k ls s x) (mrows Xp)) (mrows X)))) as NS.
  cbn [ndiv NumR]. etransitivity; [apply (f_equal (fun z => z / _) NS)|].
  rewrite Rsum_concat, map_map. unfold set_average. f_equal.
  - apply Rsum_map_ext. intros x Hxin. f_equal. apply map_ext_in. intros y Hy.
    apply (@entry_base k p ls d s x y Hk E).
    + rewrite <- Hx. now apply WX.
    + rewrite <- Hp. now apply WXp.
  - rewrite mult_IZR, !INR_IZR_INZ. reflexivity.
Qed.

(** ** symmetry, and positive semidefiniteness *)
Lemma scaled_sq_sym ls d x y : scaled_sq ls d x y = scaled_sq ls d y x.
Proof. unfold scaled_sq. apply Rsum_map_ext. intros i _. cbv zeta. unfold Rdiv. ring. Qed.
Lemma base_kernel_sym p ls s d x y : base_kernel p ls s d x y = base_kernel p ls s d y x.
Proof. unfold base_kernel, scaled_dist. now rewrite scaled_sq_sym. Qed.
Lemma set_average_sym {T} (k : T -> T -> R) xs ys : (forall x y, k x y = k y x) ->
  set_average k xs ys = set_average k ys xs.
Proof.
  intros H. unfold set_average. rewrite Rsum_swap, (Rmult_comm (INR (List.length xs))). f_equal.
  apply Rsum_map_ext. intros y _. apply Rsum_map_ext. intros x _. apply H.
Qed.
Lemma cov_of_sym name ls s d K e e' : cov_of name ls s d = Some K -> K e e' = K e' e.
Proof.
  unfold cov_of. destruct (profile_of name); [|destruct (set_profile_of name); [|discriminate]];
    intros H; injection H as <-.
  - apply base_kernel_sym.
  - apply set_average_sym. apply base_kernel_sym.
Qed.
Lemma profile_psd name p ls s d : profile_of name = Some p -> psd (base_kernel p ls s d).
Proof.
  intros H. unfold base_kernel. apply (@psd_scal _ (s * s) (fun x y => p (scaled_dist (ls_at ls) d x y))); [nra|].
  unfold profile_of in H. destruct ((name =? "eq") || (name =? "se"))%bool; [injection H as <-; apply se_psd|].
  destruct (name =? "matern32"); [injection H as <-; apply matern32_psd|].
  destruct (name =? "matern52"); [injection H as <-; apply matern52_psd|discriminate].
Qed.
Lemma cov_of_psd name ls s d K : cov_of name ls s d = Some K -> psd K.
Proof.
  unfold cov_of. destruct (profile_of name) as [p|] eqn:P.
  - intros H. injection H as <-. apply (@psd_comp _ _ point (base_kernel p ls s d)). now apply (@profile_psd name).
  - destruct (set_profile_of name) as [p|] eqn:Q; [|discriminate]. intros H. injection H as <-.
    destruct (set_profile Q) as (_ & _ & _ & _ & b & _ & Hb).
    apply (@psd_comp _ _ points (set_average (base_kernel p ls s d))). apply set_average_psd. now apply (@profile_psd b).
Qed.

(** ** cov_main *)
Lemma at_mget (c : list (list R)) i j : at_ c i j = mget NumR c i j.
Proof. reflexivity. Qed.
Lemma is_mx_shp n m (c : list (list R)) : is_mx n m c <-> @shp NumR n m c.
Proof. split; intros H; exact H. Qed.

Lemma getset_ok (l : list (mat NumR)) i : (i < List.length l)%nat ->
  @getset NumR l i = Ok (nth i l (mkmat [] 0)).
Proof.
  intros H. unfold getset. erewrite nth_error_nth'; [|exact H]. reflexivity.
Qed.
Lemma elem_nth_set l s d i : (i < List.length l)%nat ->
  elem_nth (A3 NumR l s d) i = ESet (mrows (nth i l (mkmat [] 0))).
Proof.
  intros H. unfold elem_nth, elems. now rewrite (@nth_map_in _ _ _ _ (mkmat [] 0)).
Qed.
Lemma elem_nth_point (m : mat NumR) i : (i < nrows m)%nat -> elem_nth (A2 NumR m) i = EPoint (nth i (mrows m) []).
Proof.
  intros H. unfold elem_nth, elems. now rewrite (@nth_map_in _ _ _ _ []).
Qed.

Lemma NoDup_triangle n : NoDup (flat_map (fun i => map (pair i) (seq i (n - i))) (seq 0 n)).
Proof.
  assert (G : forall l, NoDup l -> NoDup (flat_map (fun i => map (pair i) (seq i (n - i))) l)).
  { induction l as [|i l IH]; cbn; intros ND; [constructor|]. inversion ND; subst.
    assert (NA : forall (u v : list (nat * nat)), NoDup u -> NoDup v -> (forall p, In p u -> ~ In p v) -> NoDup (u ++ v)).
    { clear. induction u as [|a u IH]; cbn; intros v U V D; [exact V|]. inversion U; subst. constructor.
      - rewrite in_app_iff. intros [|]; [contradiction|]. apply (D a); [now left|assumption].
      - apply IH; auto. }
    apply NA.
    - apply FinFun.Injective_map_NoDup; [intros a b E; congruence|apply seq_NoDup].
    - auto.
    - intros [a b] Hp Hq. apply in_map_iff in Hp as [j [Ej _]]. apply in_flat_map in Hq as [i' [Hi' Hq]].
      apply in_map_iff in Hq as [j' [Ej' _]]. assert (i = i') by congruence. subst. contradiction. }
  apply G, seq_NoDup.
Qed.
Lemma NoDup_square n m : NoDup (list_prod (seq 0 n) (seq 0 m)).
Proof.
  assert (G : forall l : list nat, NoDup l -> NoDup (list_prod l (seq 0 m))).
  { induction l as [|i l IH]; cbn; intros ND; [constructor|]. inversion ND; subst.
    assert (NA : forall (u v : list (nat * nat)), NoDup u -> NoDup v -> (forall p, In p u -> ~ In p v) -> NoDup (u ++ v)).
    { clear. induction u as [|a u IH]; cbn; intros v U V D; [exact V|]. inversion U; subst. constructor.
      - rewrite in_app_iff. intros [|]; [contradiction|]. apply (D a); [now left|assumption].
      - apply IH; auto. }
    apply NA.
    - apply FinFun.Injective_map_NoDup; [intros a b E; congruence|apply seq_NoDup].
    - auto.
    - intros [a b] Hp Hq. apply in_map_iff in Hp as [j [Ej _]]. apply in_prod_iff in Hq as [Hq _].
      assert (i = a) by congruence. subst. contradiction. }
  apply G, seq_NoDup.
Qed.

(** the accumulator before kernel values are added *)
Definition diag0 (n m : nat) (same : bool) (jit : R) : list (list R) :=
  if same then madd NumR (zeros NumR n m) (mmap NumR (fun e => nmul NumR e jit) (eye NumR n n)) else zeros NumR n m.
Lemma shp_diag0 n m same jit : (same = true -> n = m) -> @shp NumR n m (diag0 n m same jit).
Proof.
  intros H. unfold diag0. destruct same; [|apply shp_zeros]. rewrite <- (H eq_refl).
  apply shp_madd; [apply shp_zeros|]. apply shp_mmap, shp_eye.
Qed.
Lemma mget_diag0 n m same jit i j : (same = true -> n = m) -> (i < n)%nat -> (j < m)%nat ->
  mget NumR (diag0 n m same jit) i j = if (same && Nat.eqb i j)%bool then jit else 0.
Proof.
  intros H Hi Hj. unfold diag0. destruct same; cbn [andb].
  - pose proof (H eq_refl) as E. subst m.
    rewrite (@mget_madd NumR n n) by (try assumption; try apply shp_zeros; apply shp_mmap, shp_eye).
    rewrite (@mget_mmap NumR n n) by (try assumption; apply shp_eye).
    unfold zeros, eye. rewrite !mget_mgen by assumption. destruct (Nat.eqb i j); cbn; ring.
  - unfold zeros. now rewrite mget_mgen.
Qed.

Definition lower_set (name : string) (same : bool) (i j : nat) : bool :=
  (match set_profile_of name with Some _ => true | None => false end) && same && Nat.ltb j i.

Lemma cov_main_ok name X Xp h d ls s nz K same jit :
  fits name X d -> fits name Xp d -> has_hyps h d ls s nz -> cov_of name ls s d = Some K ->
  (same = true -> alen X = alen Xp) ->
  exists C, @cov_main NumR exp name X Xp h same jit = Ok C /\ is_mx (alen X) (alen Xp) C /\
    forall i j, (i < alen X)%nat -> (j < alen Xp)%nat ->
      at_ C i j = if lower_set name same i j then K (elem_nth X j) (elem_nth Xp i)
                  else K (elem_nth X i) (elem_nth Xp j) + (if (same && Nat.eqb i j)%bool then jit else 0).
Proof.
  intros [WX FX] [WXp FXp] HH HK HS.
  pose proof HH as (Hn & Hs & Hl & Els). unfold lower_set.
  assert (PRE : (if same then
               assert (Nat.eqb (alen X) (alen Xp));
               Ok (madd NumR (zeros NumR (alen X) (alen Xp)) (mmap NumR (fun e => nmul NumR e jit) (eye NumR (alen X) (alen X))))
             else Ok (zeros NumR (alen X) (alen Xp))) = Ok (diag0 (alen X) (alen Xp) same jit)).
  { unfold diag0. destruct same; [|reflexivity]. rewrite (HS eq_refl), Nat.eqb_refl. reflexivity. }
  pose proof (@shp_diag0 (alen X) (alen Xp) same jit HS) as S0.
  destruct X as [x|x sx dx], Xp as [xp|xp sp dp].
  - (* points *)
    destruct FX as [PX DX], FXp as [_ DXp].
    destruct (profile_of name) as [p|] eqn:P; [|contradiction].
    destruct (choose_profile P) as (k & Ek & Hk & A & B).
    assert (SP : set_profile_of name = None).
    { destruct (set_profile_of name) as [q|] eqn:Q; [|reflexivity]. destruct (set_profile Q) as (Q' & _). congruence. }
    unfold cov_of in HK. rewrite P in HK. injection HK as <-. rewrite SP. cbn [andb].
    unfold cov_main. rewrite A. cbn [assert_ rbind]. rewrite PRE. cbn [rbind]. rewrite B.
    rewrite DX, DXp, Nat.eqb_refl. cbn [assert_ rbind]. rewrite (validate_ok HH A). cbn [rbind].
    rewrite Ek. cbn [rbind]. unfold getls. rewrite Hl. cbn [rbind]. unfold dfloat. rewrite Hs. cbn [rbind].
    pose proof (@cov_base_ok k ls d s x xp Els DX DXp) as CB. rewrite CB. cbn [rbind].
    set (E := map (fun x => map (entry NumR k ls s x) (mrows xp)) (mrows x)).
    assert (SE : @shp NumR (nrows x) (nrows xp) E).
    { split; [unfold E; now rewrite map_length|]. intros r Hr. unfold E in Hr.
      apply in_map_iff in Hr as [y [<- _]]. now rewrite map_length. }
    eexists. split; [reflexivity|]. split; [apply (shp_madd S0 SE)|].
    intros i j Hi Hj. cbn [alen] in *. rewrite at_mget, (mget_madd S0 SE Hi Hj), (@mget_diag0 (nrows x) (nrows xp)) by assumption.
    assert (G : mget NumR E i j = base_kernel p ls s d (point (elem_nth (A2 NumR x) i)) (point (elem_nth (A2 NumR xp) j))).
    { unfold mget, E. rewrite (@nth_map_in _ _ _ _ []) by exact Hi.
      rewrite (@nth_map_in _ _ _ _ []) by exact Hj. rewrite !elem_nth_point by assumption. cbn [point].
      apply (@entry_base k p ls d s _ _ Hk Els).
      - rewrite <- DX. apply WX. apply nth_In, Hi.
      - rewrite <- DXp. apply WXp. apply nth_In, Hj. }
    rewrite G. cbn. apply Rplus_comm.
  - destruct FX as [FX _], FXp as (FXp & _). exfalso. destruct (set_profile_of name) eqn:Q; [|contradiction].
    destruct (set_profile Q) as (Q' & _). congruence.
  - destruct FX as [FX _], FXp as (FXp & _). exfalso. destruct (set_profile_of name) eqn:Q; [|contradiction].
    destruct (set_profile Q) as (Q' & _). congruence.
  - (* sets *)
    destruct FX as (PX & -> & PosX), FXp as (_ & -> & PosXp).
    destruct (set_profile_of name) as [p|] eqn:Q; [|contradiction].
    destruct (set_profile Q) as (P & A & NB & B & b & Eb & Pb).
    unfold cov_of in HK. rewrite P, Q in HK. injection HK as <-. cbn [andb].
    assert (Ab : str_in b ALLOWED_COV = true).
    { destruct (choose_profile Pb) as (k & _ & _ & A' & _). exact A'. }
    unfold cov_main. rewrite A. cbn [assert_ rbind]. rewrite PRE. cbn [rbind]. rewrite NB, B, Eb, Nat.eqb_refl.
    cbn [assert_ rbind]. rewrite (validate_ok HH Ab). cbn [rbind].
    unfold getls. rewrite Hl. cbn [rbind]. unfold dfloat. rewrite Hs. cbn [rbind alen].
    set (n := List.length x) in *. set (m := List.length xp) in *.
    pose (v := fun i j => set_average (base_kernel p ls s d) (mrows (nth i x (mkmat [] 0))) (mrows (nth j xp (mkmat [] 0)))).
    assert (V : forall i j, (i < n)%nat -> (j < m)%nat ->
       (do a <- @getset NumR x i; do c <- @getset NumR xp j; @cov_set NumR exp b a c ls s) = Ok (v i j)).
    { intros i j Hi Hj. rewrite !getset_ok by assumption. cbn [rbind].
      destruct (WX (nth i x (mkmat [] 0))) as (W1 & N1 & D1); [now apply nth_In|].
      destruct (WXp (nth j xp (mkmat [] 0))) as (W2 & N2 & D2); [now apply nth_In|].
      now apply (@cov_set_ok b p ls d s). }
    destruct same; cbn [negb andb].
    + (* mirrored *)
      pose proof (HS eq_refl) as En. cbn [alen] in En. fold n m in En.
      rewrite foldM_flat.
      set (L := flat_map (fun i => map (pair i) (seq i (m - i))) (seq 0 n)).
      assert (LB : forall p, In p L -> (fst p <= snd p)%nat /\ (snd p < n)%nat).
      { intros q Hq. unfold L in Hq. apply in_flat_map in Hq as [i [Hi Hq]]. apply in_map_iff in Hq as [j [<- Hj]].
        apply in_seq in Hi. apply in_seq in Hj. cbn [fst snd]. lia. }
      rewrite (@foldM_ext _ _ _ (@step2 NumR v)).
      2:{ intros c q Hq. destruct (LB _ Hq) as [L1 L2]. specialize (V (fst q) (snd q) ltac:(lia) ltac:(lia)).
          unfold step2. rewrite !getset_ok in V by (fold n m; lia). rewrite !getset_ok by (fold n m; lia).
          cbn [rbind] in V |- *. rewrite V. reflexivity. }
      assert (ND : NoDup L).
      { unfold L. rewrite <- En. apply NoDup_triangle. }
      cbn [alen] in S0. fold n m in S0. rewrite <- En in S0.
      destruct (@loop2 NumR v n L (diag0 n n true jit) S0 ND LB) as (C & EC & SC & HC).
      exists C. rewrite <- En. split; [exact EC|]. split; [exact SC|]. intros i j Hi Hj.
      assert (INL : forall i j, (i <= j)%nat -> (j < n)%nat -> In (i, j) L).
      { clear - En. intros i j Hij Hj. unfold L. apply in_flat_map. exists i. split; [apply in_seq; lia|].
        apply in_map. apply in_seq. lia. }
      rewrite at_mget.
      destruct (Nat.ltb_spec j i) as [Hlt|Hge].
      * destruct (HC j i ltac:(lia)) as [H1 _]. destruct (H1 (INL j i ltac:(lia) Hi)) as [_ E2].
        rewrite E2. rewrite mget_diag0 by (try assumption; trivial).
        replace (Nat.eqb j i) with false by (symmetry; apply Nat.eqb_neq; lia). cbn [andb nadd NumR].
        unfold v. rewrite !elem_nth_set by (fold n m; lia). cbn [points]. apply Rplus_0_l.
      * destruct (HC i j Hge) as [H1 _]. destruct (H1 (INL i j Hge Hj)) as [E1 _].
        rewrite E1. rewrite mget_diag0 by (try assumption; trivial). cbn [andb nadd NumR].
        unfold v. rewrite !elem_nth_set by (fold n m; lia). cbn [points]. apply Rplus_comm.
    + (* all entries *)
      set (L := list_prod (seq 0 n) (seq 0 m)).
      assert (LB : forall p, In p L -> (fst p < n)%nat /\ (snd p < m)%nat).
      { intros [i j] Hq. unfold L in Hq. apply in_prod_iff in Hq as [Hi Hj]. apply in_seq in Hi. apply in_seq in Hj.
        cbn [fst snd]. lia. }
      rewrite (@foldM_ext _ _ _ (@step1 NumR v)).
      2:{ intros c q Hq. destruct (LB _ Hq) as [L1 L2]. specialize (V (fst q) (snd q) L1 L2).
          unfold step1. rewrite !getset_ok in V by assumption. rewrite !getset_ok by assumption.
          cbn [rbind] in V |- *. rewrite V. reflexivity. }
      destruct (@loop1 NumR v n m L (diag0 n m false jit) S0 (NoDup_square n m) LB) as (C & EC & SC & HC).
      exists C. split; [exact EC|]. split; [exact SC|]. intros i j Hi Hj. fold n in Hi. fold m in Hj.
      destruct (HC i j) as [H1 _]. rewrite at_mget, H1 by (apply in_prod; apply in_seq; lia).
      rewrite mget_diag0 by (try assumption; discriminate). cbn [andb nadd NumR].
      unfold v. rewrite !elem_nth_set by (fold n m; lia). cbn [points]. apply Rplus_comm.
Qed.
