(** binary64: kernel matrices are symmetric bit for bit; predictive deviations are numbers. *)
From Verif Require Import Base Lists Num NumLaws UtilsModel HypsModel CovModel CovMx GPModel SamplingFloat FloatSpec FloatOps FloatNorm FloatTrees.
From Coq Require Import Reals ZArith Bool List String Lra Lia Floats.SpecFloat.
From Flocq Require Import Core IEEE754.BinarySingleNaN.
Import ListNotations.
Set Implicit Arguments.
Unset Asymmetric Patterns.
Set Bullet Behavior "Strict Subproofs".
Local Open Scope R_scope.
#[local] Existing Instance vexp64.
#[local] Existing Instance vrndE.

Lemma assert_ok b {A} (k : res A) v : (assert b; k) = Ok v -> b = true /\ k = Ok v.
Proof. destruct b; [auto|discriminate]. Qed.

(** ** squares of differences *)
Lemma fmul_inf (s s' : bool) : fmul (B754_infinity s) (B754_infinity s') = B754_infinity (xorb s s').
Proof. reflexivity. Qed.
Lemma sq_opp_finite (a b : f64) : is_finite a = true -> is_finite b = true -> B2R b = - B2R a -> fmul a a = fmul b b.
Proof.
  intros Fa Fb E.
  assert (Ka := Bmult_correct prec64 emax64 prec64_gt_0 prec64_lt_emax mode_NE a a).
  assert (Kb := Bmult_correct prec64 emax64 prec64_gt_0 prec64_lt_emax mode_NE b b).
  replace (B2R b * B2R b) with (B2R a * B2R a) in Kb by (rewrite E; ring). rewrite Fa in Ka. rewrite Fb in Kb. rewrite !xorb_nilpotent in Ka, Kb.
  fold (fmul a a) in Ka. fold (fmul b b) in Kb. destruct (Rlt_bool _ _).
  - destruct Ka as (A1 & A2 & A3), Kb as (B1 & B2 & B3). apply B2R_Bsign_inj; [exact A2|exact B2|congruence|].
    rewrite A3, B3; [reflexivity| |]; now apply finite_notnan.
  - apply B2SF_inj. congruence.
Qed.
Lemma fsub_overflow (x y : f64) : is_finite x = true -> is_finite y = true ->
  ~ Rabs (rnd64 (B2R x - B2R y)) < bpow radix2 emax64 -> exists s, fsub x y = B754_infinity s.
Proof.
  intros Fx Fy H. assert (K := Bminus_correct prec64 emax64 prec64_gt_0 prec64_lt_emax mode_NE x y Fx Fy).
  change (round radix2 (SpecFloat.fexp prec64 emax64) (round_mode mode_NE)) with rnd64 in K. rewrite Rlt_bool_false in K by lra.
  destruct K as (K & _). exists (Bsign x). apply B2SF_inj. exact K.
Qed.
Lemma fsub_swap (x y : f64) : fmul (fsub x y) (fsub x y) = fmul (fsub y x) (fsub y x).
Proof.
  destruct (is_finite x) eqn:Fx; [destruct (is_finite y) eqn:Fy|].
  - assert (S : rnd64 (B2R y - B2R x) = - rnd64 (B2R x - B2R y)).
    { replace (B2R y - B2R x) with (- (B2R x - B2R y)) by ring. apply round_NE_opp. }
    destruct (Rlt_le_dec (Rabs (rnd64 (B2R x - B2R y))) (bpow radix2 emax64)) as [L|L].
    + assert (K := Bminus_correct prec64 emax64 prec64_gt_0 prec64_lt_emax mode_NE x y Fx Fy).
      assert (K' := Bminus_correct prec64 emax64 prec64_gt_0 prec64_lt_emax mode_NE y x Fy Fx).
      change (round radix2 (SpecFloat.fexp prec64 emax64) (round_mode mode_NE)) with rnd64 in K, K'.
      rewrite Rlt_bool_true in K by exact L. rewrite Rlt_bool_true in K' by (rewrite S, Rabs_Ropp; exact L).
      destruct K as (K1 & K2 & _), K' as (K1' & K2' & _). apply sq_opp_finite; [exact K2|exact K2'|]. fold (fsub y x) in K1'. fold (fsub x y) in K1. lra.
    + destruct (fsub_overflow x y Fx Fy) as (s & ->); [lra|]. destruct (fsub_overflow y x Fy Fx) as (s' & ->); [rewrite S, Rabs_Ropp; lra|].
      rewrite !fmul_inf, !xorb_nilpotent. reflexivity.
  - destruct x as [sx|sx| |sx mx ex bx]; try discriminate Fx; destruct y as [sy|sy| |sy my ey By]; try discriminate Fy; try reflexivity; destruct sy; reflexivity.
  - destruct x as [sx|sx| |sx mx ex bx]; try discriminate Fx; destruct y as [sy|sy| |sy my ey By]; try reflexivity; destruct sx; try reflexivity; destruct sy; reflexivity.
Qed.

Lemma cdist1_swap (x y : list NumF) : cdist1 NumF x y = cdist1 NumF y x.
Proof.
  unfold cdist1, nnorm, vsub. f_equal. f_equal. rewrite !map_map. revert y. induction x as [|a x IH]; intros [|b y]; cbn [combine map]; try reflexivity.
  f_equal; [apply fsub_swap|apply IH].
Qed.

(** ** matrices *)
Definition sym (n : nat) (C : list (list NumF)) : Prop := shp n n C /\ forall i j, (i < n)%nat -> (j < n)%nat -> mget NumF C i j = mget NumF C j i.
Lemma sym_symmetric n C : sym n C -> symmetricF n C.
Proof. intros ((L & R) & H). split; [exact L|]. split; [exact R|]. exact H. Qed.

Lemma sym_madd n A B : sym n A -> sym n B -> sym n (madd NumF A B).
Proof.
  intros (SA & HA) (SB & HB). split; [now apply shp_madd|]. intros i j Hi Hj. rewrite !(mget_madd SA SB) by assumption. now rewrite HA, HB.
Qed.
Lemma sym_mmap n A f : sym n A -> sym n (mmap NumF f A).
Proof. intros (SA & HA). split; [now apply shp_mmap|]. intros i j Hi Hj. rewrite !(mget_mmap f SA) by assumption. now rewrite HA. Qed.
Lemma sym_eye n : sym n (eye NumF n n).
Proof. split; [apply shp_eye|]. intros i j Hi Hj. unfold eye. rewrite !mget_mgen by assumption. rewrite Nat.eqb_sym. reflexivity. Qed.
Lemma sym_zeros n : sym n (zeros NumF n n).
Proof. split; [apply shp_zeros|]. intros i j Hi Hj. unfold zeros. now rewrite !mget_mgen by assumption. Qed.
Lemma sym_mtr n A : sym n A -> sym n (mtr NumF n n A).
Proof. intros (SA & HA). split; [apply shp_mtr|]. intros i j Hi Hj. rewrite !mget_mtr by assumption. symmetry. now apply HA. Qed.

Lemma foldM_inv {A S} (P : S -> Prop) (f : S -> A -> res S) l s s' : (forall x s s', In x l -> P s -> f s x = Ok s' -> P s') -> P s -> foldM f l s = Ok s' -> P s'.
Proof.
  revert s. induction l as [|x l IH]; intros s H HP E; cbn [foldM] in E; [injection E as <-; exact HP|].
  destruct (f s x) as [s1|] eqn:E1; [|discriminate]. cbn [rbind] in E. eapply IH; [|eapply H; [now left|exact HP|exact E1]|exact E]. intros y a b Hy. apply H. now right.
Qed.

Lemma sym_set2 n C i j v : sym n C -> (i <= j)%nat -> (j < n)%nat -> let C' := mset NumF C i j v in
  sym n (if Nat.ltb i j then mset NumF C' j i (mget NumF C' i j) else C').
Proof.
  intros (SC & HC) Hi Hj C'. assert (Hi' : (i < n)%nat) by lia. assert (SC' : shp n n C') by (apply shp_mset; assumption).
  assert (G : forall a b, mget NumF C' a b = if Nat.eqb i a && Nat.eqb j b then v else mget NumF C a b) by (intros a b; apply (mget_mset v a b SC Hi' Hj)).
  destruct (Nat.ltb_spec i j) as [L|L].
  - split; [now apply shp_mset|]. intros a b Ha Hb. rewrite !(mget_mset _ _ _ SC' Hj Hi'), !G. rewrite !Nat.eqb_refl. cbn [andb].
    destruct (Nat.eqb_spec j a), (Nat.eqb_spec i b), (Nat.eqb_spec i a), (Nat.eqb_spec j b); subst; cbn [andb]; try reflexivity; try lia; now apply HC.
  - assert (i = j) by lia. subst j. split; [exact SC'|]. intros a b Ha Hb. rewrite !G.
    destruct (Nat.eqb_spec i a), (Nat.eqb_spec i b); subst; cbn [andb]; try reflexivity; now apply HC.
Qed.

Section Cov.
Context (nexp : f64 -> f64).

Lemma cov_base_sym k (x : mat NumF) ls s C : @cov_base NumF k x x ls s = Ok C -> sym (nrows x) C.
Proof.
  unfold cov_base. intros H. apply assert_ok in H as (_ & H). injection H as <-. split.
  - split; [now rewrite map_length|]. intros r Hr. apply in_map_iff in Hr as (y & <- & _). now rewrite map_length.
  - intros i j Hi Hj. unfold mget. rewrite !(@nth_map_in _ _ _ _ []) by assumption.
    unfold entry. f_equal. apply cdist1_swap.
Qed.

Lemma cov_main_sym name (X : arr NumF) h jit C : @cov_main NumF nexp name X X h true jit = Ok C -> sym (alen X) C.
Proof.
  unfold cov_main. intros H. apply assert_ok in H as (_ & H). rewrite Nat.eqb_refl in H. cbn [assert_ rbind] in H.
  assert (S0 : sym (alen X) (madd NumF (zeros NumF (alen X) (alen X)) (mmap NumF (fun e => nmul NumF e jit) (eye NumF (alen X) (alen X))))).
  { apply sym_madd; [apply sym_zeros|apply sym_mmap, sym_eye]. }
  destruct (str_in name ALLOWED_COV_BASE).
  - destruct X as [x|]; [|discriminate]. apply assert_ok in H as (_ & H).
    destruct (validate_hyps_dict _ _ _ _) as [h'|]; [|discriminate]. cbn [rbind] in H.
    destruct (choose_fun_cov _ _) as [k|]; [|discriminate]. cbn [rbind] in H.
    destruct (getls _) as [ls|]; [|discriminate]. cbn [rbind] in H. destruct (dfloat _ _) as [s|]; [|discriminate]. cbn [rbind] in H.
    destruct (cov_base _ _ _ _ _) as [c|] eqn:E; [|discriminate]. cbn [rbind] in H. injection H as <-.
    apply sym_madd; [exact S0|]. eapply cov_base_sym. exact E.
  - destruct (str_in name ALLOWED_COV_SET); [|discriminate]. destruct (nth_error _ 1) as [b|]; [|discriminate].
    destruct X as [|x sx dx]; [discriminate|]. apply assert_ok in H as (_ & H).
    destruct (validate_hyps_dict _ _ _ _) as [h'|]; [|discriminate]. cbn [rbind] in H.
    destruct (getls _) as [ls|]; [|discriminate]. cbn [rbind] in H. destruct (dfloat _ _) as [s|]; [|discriminate]. cbn [rbind negb] in H.
    eapply foldM_inv; [|exact S0|exact H]. intros i c c' Hi Sc E. apply in_seq in Hi.
    eapply foldM_inv; [|exact Sc|exact E]. intros j d d' Hj Sd E'. apply in_seq in Hj.
    destruct (getset _ x i); [|discriminate]. cbn [rbind] in E'. destruct (getset _ x j); [|discriminate]. cbn [rbind] in E'.
    destruct (cov_set _ _ _ _ _ _) as [v|]; [|discriminate]. cbn [rbind] in E'. injection E' as <-. apply sym_set2; [exact Sd|lia|lia].
Qed.

Lemma train_cov_sym (X : arr NumF) h name C : @train_cov NumF nexp X h name = Ok C -> sym (alen X) C.
Proof.
  unfold train_cov. intros H. destruct (cov_main _ _ _ _ _ _ _) as [c|] eqn:E; [|discriminate]. cbn [rbind] in H.
  destruct (dfloat _ _) as [nz|]; [|discriminate]. cbn [rbind] in H. injection H as <-. apply cov_main_sym in E.
  assert (S1 : sym (alen X) (madd NumF c (mmap NumF (fun e => nmul NumF (nsq NumF nz) e) (eye NumF (alen X) (alen X))))) by (apply sym_madd; [exact E|apply sym_mmap, sym_eye]).
  apply sym_mmap, sym_madd; [exact S1|now apply sym_mtr].
Qed.
Lemma kernel_inverse_sym inv X h name fn ug C I g : @get_kernel_inverse NumF nexp inv X h name fn ug = Ok (C, I, g) -> sym (alen X) C.
Proof.
  unfold get_kernel_inverse. intros H. destruct (check_str_cov _ _ _); [|discriminate]. cbn [rbind] in H.
  destruct (train_cov _ _ _ _) as [c|] eqn:E; [|discriminate]. cbn [rbind] in H. destruct (inv c) as [ic|]; [|discriminate]. cbn [rbind] in H.
  destruct (if ug then _ else _) as [g'|]; [|discriminate]. cbn [rbind] in H. injection H as -> _ _. eapply train_cov_sym. exact E.
Qed.
Lemma chol_loop_sym chol n js : forall c C L, sym n c -> @chol_loop NumF chol n c js = Ok (Some (C, L)) -> sym n C.
Proof.
  induction js as [|j js IH]; intros c C L Sc H; cbn [chol_loop] in H; [discriminate|].
  destruct (chol _) as [l|e].
  - injection H as <- _. apply sym_madd; [exact Sc|apply sym_mmap, sym_eye].
  - destruct e; try discriminate. eapply IH; [exact Sc|exact H].
Qed.
Lemma kernel_cholesky_sym chol X h name fn ug C L g : @get_kernel_cholesky NumF nexp chol X h name fn ug = Ok (C, L, g) -> sym (alen X) C.
Proof.
  unfold get_kernel_cholesky. intros H. destruct (check_str_cov _ _ _); [|discriminate]. cbn [rbind] in H.
  destruct (train_cov _ _ _ _) as [c|] eqn:E; [|discriminate]. cbn [rbind] in H. destruct (chol_loop _ _ _ _) as [[[c' l]|]|] eqn:EC; try discriminate. cbn [rbind] in H.
  destruct (if ug then _ else _) as [g'|]; [|discriminate]. cbn [rbind] in H. injection H as -> _ _. eapply chol_loop_sym; [|exact EC]. eapply train_cov_sym. exact E.
Qed.

(** ** deviations *)
Lemma fsqrt_dev (v : f64) : deviation_of v (nsqrt NumF (clamp0 NumF v)).
Proof.
  unfold deviation_of, clamp0. destruct v as [s|s| |s m e b].
  - destruct s; (split; [split; intros K; discriminate K|split; [reflexivity|intros _; split; [reflexivity|]]]; cbn [B2R]; rewrite Rmax_left, sqrt_0, round_0 by (lra || exact _); reflexivity).
  - destruct s; (split; [split; intros K; discriminate K|split; [reflexivity|intros K; discriminate K]]).
  - split; [split; reflexivity|]. split; intros K; discriminate K.
  - destruct (fofZ_val 0 ltac:(reflexivity)) as (F0 & E0).
    assert (L : nlt NumF (B754_finite s m e b) (nofZ NumF 0) = Rlt_bool (B2R (B754_finite s m e b)) 0).
    { change (nofZ NumF 0) with (fofZ 0). rewrite (flt_R (B754_finite s m e b) (fofZ 0) eq_refl F0), E0. reflexivity. }
    destruct (nlt NumF _ _) eqn:EL.
    + split; [split; intros K; discriminate K|]. split; [intros _; reflexivity|intros _; split; [reflexivity|]].
      symmetry in L. destruct (Rlt_bool_spec (B2R (B754_finite s m e b)) 0) as [P|?]; [|discriminate]. rewrite Rmax_left, sqrt_0, round_0 by (lra || exact _). reflexivity.
    + symmetry in L. destruct (Rlt_bool_spec (B2R (B754_finite s m e b)) 0) as [?|P]; [discriminate|].
      set (v := B754_finite s m e b) in *. assert (Fv : is_finite v = true) by reflexivity.
      destruct (Bsqrt_correct prec64 emax64 prec64_gt_0 prec64_lt_emax mode_NE v) as (E & F & _).
      change (round radix2 (SpecFloat.fexp prec64 emax64) (round_mode mode_NE)) with rnd64 in E. fold (fsqrt v) in *.
      assert (F' : is_finite (fsqrt v) = true).
      { rewrite F. unfold v in *. destruct s; [|reflexivity]. exfalso. cbn in P. pose proof (F2R_lt_0 radix2 (Float radix2 (Z.neg m) e) ltac:(reflexivity)). unfold F2R in *. cbn in *. lra. }
      assert (P' : 0 <= B2R (fsqrt v)) by (rewrite E; apply rnd64_pos, sqrt_pos).
      change (nsqrt NumF v) with (fsqrt v). split; [rewrite (finite_notnan _ F'), (finite_notnan _ Fv); split; discriminate|]. split; [|intros _; split; [exact F'|rewrite E; rewrite Rmax_right by exact P; reflexivity]].
      intros _. change (nle NumF (fofZ 0) (fsqrt v)) with (Bleb (fofZ 0) (fsqrt v)). rewrite Bleb_correct by assumption. rewrite E0. apply Rle_bool_true. exact P'.
Qed.

Lemma deviations_dev l (S : list (list NumF)) i : (i < l)%nat -> deviation_of (mget NumF S i i) (mget NumF (deviations NumF l S) i 0).
Proof.
  intros Hi. unfold deviations, mdiag, mget at 2. rewrite map_map. rewrite (@nth_map_in _ _ _ _ 0%nat) by now rewrite seq_length.
  rewrite seq_nth by exact Hi. cbn [nth Nat.add]. apply fsqrt_dev.
Qed.
Lemma gp_dev X Y Xs cov inv h name pm mu sd S : @predict_with_cov NumF nexp X Y Xs cov inv h name pm = Ok (mu, sd, S) ->
  forall i, (i < alen Xs)%nat -> deviation_of (mget NumF S i i) (mget NumF sd i 0).
Proof.
  unfold predict_with_cov. intros H i Hi. destruct (posterior _ _ _ _ _ _ _ _ _) as [[[? m] S']|]; [|discriminate]. cbn in H. injection H as _ <- <-. now apply deviations_dev.
Qed.
Lemma tp_dev X Y Xs cov inv h name pm nu mu sd S : @tp_predict_with_cov NumF nexp X Y Xs cov inv h name pm = Ok (nu, mu, sd, S) ->
  forall i, (i < alen Xs)%nat -> deviation_of (mget NumF S i i) (mget NumF sd i 0).
Proof.
  unfold tp_predict_with_cov. intros H i Hi. destruct (posterior _ _ _ _ _ _ _ _ _) as [[[? m] S']|]; [|discriminate]. cbn [rbind] in H.
  destruct (dfloat _ _); [|discriminate]. cbn [rbind] in H. injection H as _ _ <- <-. now apply deviations_dev.
Qed.
End Cov.
