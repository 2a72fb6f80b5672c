(** Entries of the predictions of gp.py and tp.py. *)
From Verif Require Import Base Lists Num UtilsModel UtilsSpec UtilsRProofs HypsModel CovModel CovMx KernelSpec CovSpec CovProofs CovProofs2 GPModel GPSpec.
From Coq Require Import List ZArith Bool String Reals Lra Lia Arith.
From Flocq Require Import Core.Raux.
Import ListNotations.
Open Scope R_scope.
Local Open Scope string_scope.
Set Implicit Arguments.
Unset Strict Implicit.
Unset Asymmetric Patterns.
Set Bullet Behavior "Strict Subproofs".

Lemma mdot_at n k m a b i j : (i < n)%nat -> (j < m)%nat -> at_ (mdot NumR n k m a b) i j = prod_at k a b i j.
Proof.
  intros Hi Hj. change (at_ (mdot NumR n k m a b) i j) with (mget NumR (mdot NumR n k m a b) i j).
  unfold mdot. rewrite mget_mgen by assumption. exact (nsum_R _).
Qed.
Lemma mdot_mx n k m a b : is_mx n m (mdot NumR n k m a b). Proof. exact (@shp_mgen NumR n m _). Qed.
Lemma msub_mx n m (a b : list (list R)) : is_mx n m a -> is_mx n m b -> is_mx n m (msub NumR a b).
Proof.
  intros [La Ra] [Lb Rb]. unfold msub. split.
  - rewrite map2_length. cbn in *. lia.
  - intros r Hr. unfold map2 in Hr at 1. apply in_map_iff in Hr as [[u v] [<- Hp]]. cbn [fst snd].
    etransitivity; [apply map2_length|]. pose proof (Ra u (in_combine_l _ _ _ _ Hp)). pose proof (Rb v (in_combine_r _ _ _ _ Hp)). cbn in *; lia.
Qed.
Lemma msub_at n m (a b : list (list R)) i j : is_mx n m a -> is_mx n m b -> (i < n)%nat -> (j < m)%nat ->
  at_ (msub NumR a b) i j = at_ a i j - at_ b i j.
Proof.
  intros [La Ra] [Lb Rb] Hi Hj. unfold at_, msub.
  assert (Ia : List.length (nth i a []) = m) by (apply Ra, nth_In; lia).
  assert (Ib : List.length (nth i b []) = m) by (apply Rb, nth_In; lia).
  etransitivity; [apply (f_equal (fun z => nth j z 0)); apply (@map2_nth _ _ _ _ a b [] [] []); cbn in *; lia|].
  apply (@map2_nth _ _ _ (nsub NumR) (nth i a []) (nth i b []) 0 0 0); cbn in *; lia.
Qed.
Lemma madd_at n m (a b : list (list R)) i j : is_mx n m a -> is_mx n m b -> (i < n)%nat -> (j < m)%nat ->
  at_ (madd NumR a b) i j = at_ a i j + at_ b i j.
Proof. intros A B Hi Hj. exact (@mget_madd NumR n m a b i j A B Hi Hj). Qed.
Lemma madd_mx n m (a b : list (list R)) : is_mx n m a -> is_mx n m b -> is_mx n m (madd NumR a b).
Proof. intros A B. exact (@shp_madd NumR n m a b A B). Qed.
Lemma mtr_at n m (a : list (list R)) i j : (i < m)%nat -> (j < n)%nat -> at_ (mtr NumR n m a) i j = at_ a j i.
Proof. exact (@mget_mtr NumR n m a i j). Qed.
Lemma mtr_mx n m (a : list (list R)) : is_mx m n (mtr NumR n m a).
Proof. exact (@shp_mtr NumR n m a). Qed.
Lemma has_shape_iff n m (a : list (list R)) : has_shape NumR n m a = true <-> is_mx n m a.
Proof.
  unfold has_shape, is_mx. rewrite andb_true_iff, Nat.eqb_eq, forallb_forall. split; intros [A B]; (split; [exact A|]).
  - intros r Hr. apply Nat.eqb_eq. now apply B.
  - intros r Hr. apply Nat.eqb_eq. now apply B.
Qed.
Lemma is_mx_cols n m (a : list (list R)) : is_mx n m a -> (0 < n)%nat -> List.length (nth 0 a []) = m.
Proof. intros [L R0] H. apply R0. apply nth_In. lia. Qed.
Lemma is_mx_same n (a b : list (list NumR)) : is_mx n n a -> is_mx n n b ->
  has_shape NumR (List.length a) (List.length (nth 0 a [])) b = true.
Proof.
  intros A B. apply has_shape_iff. destruct (Nat.eq_dec n 0) as [->|Hn].
  - destruct A as [LA _], B as [LB RB]. split; [cbn in *; now rewrite LA, LB|]. destruct b; [|discriminate]. intros r [].
  - pose proof (is_mx_cols A ltac:(lia)) as CA. destruct A as [LA _]. cbn in *. rewrite CA, LA. exact B.
Qed.

Lemma prior_ok pm m a : prior_is pm m -> exists p, @get_prior_mu NumR pm a = Ok p /\ column (alen a) p /\
  forall i, (i < alen a)%nat -> at_ (mrows p) i 0 = m (elem_nth a i).
Proof.
  intros P. unfold get_prior_mu. destruct pm as [f|].
  - destruct (P a) as (p & E & C & V). rewrite E. cbn [rbind].
    assert (nrows p = alen a) as NR by (destruct C as [_ [L _]]; exact L). rewrite NR, Nat.eqb_refl. cbn [assert_ rbind].
    now exists p.
  - exists (mkmat (zeros NumR (alen a) 1) 1). split; [reflexivity|]. split.
    + split; [reflexivity|]. exact (@shp_zeros NumR (alen a) 1).
    + intros i Hi. cbn [mrows]. rewrite P. change (mget NumR (zeros NumR (alen a) 1) i 0 = 0).
      unfold zeros. rewrite mget_mgen by lia. reflexivity.
Qed.

Lemma fits_shape_pair name X Xs d : fits name X d -> fits name Xs d ->
  check_str_cov name (shape X) (Some (shape Xs)) = Ok tt /\ check_str_cov name (shape X) None = Ok tt /\
  (forall Y, column (alen X) Y -> @validate_common_args NumR X Y (Some Xs) = Ok tt).
Proof.
  intros [WX FX] [WXs FXs].
  assert (V : match X, Xs with A2 _ x, A2 _ y => mcols x = mcols y /\ exists p, profile_of name = Some p
              | A3 _ _ _ a, A3 _ _ _ b => a = b /\ exists p, set_profile_of name = Some p | _, _ => False end).
  { destruct X as [x|lx sx dx], Xs as [y|ly sy dy].
    - destruct FX as [P DX], FXs as [_ DY]. split; [congruence|]. destruct (profile_of name); [eauto|congruence].
    - destruct FX as [P _], FXs as [Q _]. destruct (profile_of name) as [p|] eqn:E; [|congruence].
      destruct (set_profile_of name) as [q|] eqn:E'; [|congruence]. destruct (set_profile E') as (E'' & _). congruence.
    - destruct FX as [P _], FXs as [Q _]. destruct (profile_of name) as [p|] eqn:E; [|congruence].
      destruct (set_profile_of name) as [q|] eqn:E'; [|congruence]. destruct (set_profile E') as (E'' & _). congruence.
    - destruct FX as (P & DX & _), FXs as (_ & DY & _). split; [congruence|]. destruct (set_profile_of name); [eauto|congruence]. }
  destruct X as [x|lx sx dx], Xs as [y|ly sy dy]; try contradiction; destruct V as [E [p P]].
  - destruct (choose_profile P) as (_ & _ & _ & _ & B). unfold check_str_cov. rewrite B. cbn [shape List.length Nat.eqb assert_ rbind].
    split; [reflexivity|]. split; [reflexivity|]. intros Y [_ [LY _]]. unfold validate_common_args.
    assert (NR : nrows Y = alen (A2 NumR x)) by exact LY. rewrite NR, Nat.eqb_refl. cbn. match goal with |- context [Nat.eqb ?a ?b] => replace (Nat.eqb a b) with true; [reflexivity|symmetry; apply Nat.eqb_eq; exact E] end.
  - destruct (set_profile P) as (_ & _ & B & C & _). unfold check_str_cov. rewrite B, C. cbn [shape List.length Nat.eqb assert_ rbind].
    split; [reflexivity|]. split; [reflexivity|]. intros Y [_ [LY _]]. unfold validate_common_args.
    assert (NR : nrows Y = alen (A3 NumR lx sx dx)) by exact LY. rewrite NR, Nat.eqb_refl. cbn. match goal with |- context [Nat.eqb ?a ?b] => replace (Nat.eqb a b) with true; [reflexivity|symmetry; apply Nat.eqb_eq; exact E] end.
Qed.
Lemma fits_shape name X d : fits name X d -> check_str_cov name (shape X) None = Ok tt.
Proof. intros F. apply (fits_shape_pair F F). Qed.

Lemma dev_at l S i : (i < l)%nat -> at_ (deviations NumR l S) i 0 = sqrt (Rmax (at_ S i i) 0).
Proof.
  intros Hi. unfold at_ at 1, deviations, mdiag. rewrite map_map.
  rewrite (@nth_map_in _ _ _ (seq 0 l) 0%nat []) by now rewrite seq_length.
  rewrite seq_nth by exact Hi. cbn [nth Nat.add]. unfold clamp0. cbn [nlt nofZ NumR nsqrt].
  change (mget NumR S i i) with (at_ S i i). destruct (Rlt_bool_spec (at_ S i i) 0) as [Q|Q].
  - rewrite Rmax_right by lra. reflexivity.
  - rewrite Rmax_left by lra. reflexivity.
Qed.
Lemma dev_mx l S : is_mx l 1 (deviations NumR l S).
Proof.
  unfold deviations, mdiag. split; [rewrite !map_length, seq_length; reflexivity|].
  intros r Hr. apply in_map_iff in Hr as [v [<- _]]. reflexivity.
Qed.

(** ** the posterior, entry by entry, for any inverse of the training covariance *)
Section Posterior.
Variables (name : string) (h : dict NumR) (d : nat) (ls : pyval NumR) (s nz : R) (K : elem -> elem -> R)
  (pm : prior NumR) (m : elem -> R) (X Xs : arr NumR) (Y : mat NumR).
Hypotheses (RG : regression name h d ls s nz K pm m) (F : fits name X d) (Fs : fits name Xs d) (HY : column (alen X) Y).
Let n := alen X.
Let l := alen Xs.
Let x i := elem_nth X i.
Let z j := elem_nth Xs j.

Lemma lower_sym same i j A B (jit : R) : (same = true -> A = B) ->
  (if lower_set name same i j then K (elem_nth A j) (elem_nth B i)
   else K (elem_nth A i) (elem_nth B j) + (if (same && Nat.eqb i j)%bool then jit else 0))
  = K (elem_nth A i) (elem_nth B j) + (if (same && Nat.eqb i j)%bool then jit else 0).
Proof.
  intros HS. destruct (lower_set name same i j) eqn:L; [|reflexivity].
  unfold lower_set in L. destruct (set_profile_of name); [|discriminate].
  cbn [andb] in L. apply andb_true_iff in L as [L1 L2]. subst same. rewrite (HS eq_refl). cbn [andb].
  replace (Nat.eqb i j) with false; [|symmetry; apply Nat.eqb_neq; apply Nat.ltb_lt in L2; lia].
  rewrite Rplus_0_r. exact (cov_of_sym _ _ (reg_cov RG)).
Qed.

Lemma posterior_ok C B : is_mx n n C -> is_mx n n B ->
  exists r mu S, @posterior NumR exp X Y Xs C B h name pm = Ok (r, mu, S) /\
  is_mx n 1 r /\ is_mx l 1 mu /\ is_mx l l S /\
  (forall i, (i < n)%nat -> at_ r i 0 = out Y i - m (x i)) /\
  (forall j, (j < l)%nat -> at_ mu j 0
     = Rsum (map (fun a => Rsum (map (fun b => K (x b) (z j) * at_ B b a) (seq 0 n)) * (out Y a - m (x a))) (seq 0 n)) + m (z j)) /\
  (forall j k, (j < l)%nat -> (k < l)%nat -> at_ S j k
     = K (z j) (z k) + (if Nat.eqb j k then jitter_cov else 0)
       - Rsum (map (fun a => Rsum (map (fun b => K (x b) (z j) * at_ B b a) (seq 0 n)) * K (x a) (z k)) (seq 0 n))).
Proof.
  intros HC HB. pose proof (reg_cov RG) as HK. pose proof (reg_hyps RG) as HH.
  destruct (fits_shape_pair F Fs) as (CK & _ & VA).
  unfold posterior. rewrite (VA Y HY). cbn [rbind]. rewrite (is_mx_same HC HB). cbn [assert_ rbind]. rewrite CK. cbn [rbind].
  destruct (@prior_ok pm m X (reg_prior RG)) as (p & Ep & [Cp Sp] & Vp). rewrite Ep. cbn [rbind].
  destruct (@prior_ok pm m Xs (reg_prior RG)) as (q & Eq & [Cq Sq] & Vq). rewrite Eq. cbn [rbind].
  destruct (@cov_main_ok name X Xs h d ls s nz K false (JITTER_COV NumR) F Fs HH HK (fun e => match Bool.diff_false_true e with end))
    as (Kxs & Exs & Sxs & Vxs). rewrite Exs. cbn [rbind].
  destruct (@cov_main_ok name Xs Xs h d ls s nz K true (JITTER_COV NumR) Fs Fs HH HK (fun _ => eq_refl))
    as (Kss & Ess & Sss & Vss). rewrite Ess. cbn [rbind].
  destruct HY as [CY SY]. unfold centred. rewrite CY, Cp. cbn [Nat.eqb andb rbind]. rewrite Cq. cbn [Nat.eqb negb].
  fold n. fold l. fold l in Sxs, Sss, Sq. fold n in Sxs, Sp, SY. rewrite (proj2 (@has_shape_iff n n B) HB).
  assert (HX : forall i j, (i < n)%nat -> (j < l)%nat -> at_ Kxs i j = K (x i) (z j)).
  { intros i j Hi Hj. rewrite Vxs by assumption. rewrite lower_sym by discriminate. cbn [andb]. unfold x, z. ring. }
  assert (HS : forall i j, (i < l)%nat -> (j < l)%nat -> at_ Kss i j = K (z i) (z j) + (if Nat.eqb i j then jitter_cov else 0)).
  { intros i j Hi Hj. rewrite Vss by assumption. rewrite lower_sym by reflexivity. cbn [andb].
    unfold JITTER_COV, nlit, jitter_cov. cbn [ndiv nofZ NumR]. unfold Rdiv. rewrite Rmult_1_l. reflexivity. }
  set (r := msub NumR (mrows Y) (mrows p)).
  set (w := mdot NumR l n n (mtr NumR n l Kxs) B).
  set (S0 := mmap NumR _ (madd NumR Kss (mtr NumR l l Kss))).
  assert (Sr : is_mx n 1 r) by (apply msub_mx; assumption).
  assert (Vr : forall i, (i < n)%nat -> at_ r i 0 = out Y i - m (x i)).
  { intros i Hi. unfold r. rewrite (@msub_at n 1) by (try assumption; lia). rewrite Vp by exact Hi. reflexivity. }
  assert (Vw : forall j a, (j < l)%nat -> (a < n)%nat -> at_ w j a = Rsum (map (fun b => K (x b) (z j) * at_ B b a) (seq 0 n))).
  { intros j a Hj Ha. unfold w. rewrite mdot_at by assumption. unfold prod_at. apply Rsum_map_ext. intros b Hb. apply in_seq in Hb.
    rewrite mtr_at by lia. rewrite HX by lia. reflexivity. }
  assert (SS0 : is_mx l l S0).
  { apply (@shp_mmap NumR l l). apply (@shp_madd NumR l l); [exact Sss|]. apply mtr_mx. }
  assert (VS0 : forall i j, (i < l)%nat -> (j < l)%nat -> at_ S0 i j = K (z i) (z j) + (if Nat.eqb i j then jitter_cov else 0)).
  { intros i j Hi Hj. unfold S0. etransitivity.
    - apply (@mget_mmap NumR l l); [apply (@shp_madd NumR l l); [exact Sss|apply mtr_mx]|exact Hi|exact Hj].
    - cbn [ndiv nofZ NumR]. etransitivity.
      + apply (f_equal (fun v : R => v / 2)). etransitivity; [apply (@madd_at l l Kss (mtr NumR l l Kss) i j Sss (mtr_mx l l Kss) Hi Hj)|].
        rewrite mtr_at by assumption. rewrite !HS by assumption. rewrite (cov_of_sym (z j) (z i) HK), (Nat.eqb_sym j i). reflexivity.
      + field. }
  exists r, (madd NumR (mdot NumR l n 1 w r) (mrows q)), (msub NumR S0 (mdot NumR l n l w Kxs)).
  split; [reflexivity|]. split; [exact Sr|]. split; [apply madd_mx; [apply mdot_mx|exact Sq]|].
  split; [apply msub_mx; [exact SS0|apply mdot_mx]|]. split; [exact Vr|]. split.
  - intros j Hj. rewrite (@madd_at l 1) by (try assumption; try lia; apply mdot_mx). rewrite mdot_at by lia.
    rewrite Vq by exact Hj. f_equal. unfold prod_at. apply Rsum_map_ext. intros a Ha. apply in_seq in Ha.
    rewrite Vw by lia. rewrite Vr by lia. reflexivity.
  - intros j k Hj Hk. rewrite (@msub_at l l) by (try assumption; apply mdot_mx). rewrite mdot_at by lia.
    rewrite VS0 by assumption. f_equal. f_equal. unfold prod_at. apply Rsum_map_ext. intros a Ha. apply in_seq in Ha.
    rewrite Vw by lia. rewrite HX by lia. reflexivity.
Qed.
End Posterior.

(** ** selections of rows *)
Lemma alen_take X p : alen (take_rows X p) = List.length p.
Proof. destruct X as [x|lx sx dx]; cbn; unfold nrows; cbn; now rewrite map_length. Qed.
Lemma elem_take X p i : (forall k, In k p -> (k < alen X)%nat) -> (i < List.length p)%nat ->
  elem_nth (take_rows X p) i = elem_nth X (nth i p 0%nat).
Proof.
  intros Hp Hi. pose proof (Hp _ (nth_In p 0%nat Hi)) as Hk. destruct X as [x|lx sx dx].
  - cbn [take_rows]. rewrite !elem_nth_point by (try exact Hk; unfold nrows; cbn [mrows]; now rewrite map_length). cbn [mrows]. f_equal.
    now rewrite (@nth_map_in _ _ _ p 0%nat []).
  - cbn [take_rows]. rewrite !elem_nth_set by (try exact Hk; now rewrite map_length). f_equal.
    rewrite (@nth_map_in _ _ _ p 0%nat (mkmat [] 0)) by exact Hi. f_equal. now apply nth_indep.
Qed.
Lemma fits_take name X d p : (forall k, In k p -> (k < alen X)%nat) -> fits name X d -> fits name (take_rows X p) d.
Proof.
  intros Hp [W F]. destruct X as [x|lx sx dx]; (split; [|exact F]).
  - cbn [take_rows arr_wf] in *. intros r Hr. cbn [mrows mcols] in *. apply in_map_iff in Hr as [k [<- Hk]].
    apply W. apply nth_In. exact (Hp k Hk).
  - cbn [take_rows arr_wf] in *. intros mm Hm. apply in_map_iff in Hm as [k [<- Hk]]. apply W. apply nth_In. exact (Hp k Hk).
Qed.
Lemma column_take n Y p : (forall k, In k p -> (k < n)%nat) -> column n Y -> column (List.length p) (take_out Y p).
Proof.
  intros Hp [C [L R0]]. split; [exact C|]. split; [cbn; now rewrite map_length|].
  intros r Hr. cbn [take_out mrows] in Hr. apply in_map_iff in Hr as [k [<- Hk]]. apply R0, nth_In. pose proof (Hp k Hk). cbn in *. lia.
Qed.
Lemma out_take Y p i : (i < List.length p)%nat -> out (take_out Y p) i = out Y (nth i p 0%nat).
Proof. intros Hi. unfold out, at_. cbn [take_out mrows]. now rewrite (@nth_map_in _ _ _ p 0%nat []). Qed.
