(** Exact-arithmetic facts about utils_common.py and normalize_min_max. *)
From Verif Require Import Base Lists Num NumLaws UtilsModel UtilsSpec UtilsProofs.
From Coq Require Import List ZArith Bool Reals Lra Lia Arith Permutation.
From Flocq Require Import Core.Raux.
Local Open Scope R_scope.

Lemma fold_left_Rplus l : forall a, fold_left Rplus l a = a + Rsum l.
Proof. induction l as [|x l IH]; simpl; intros a; [lra|rewrite IH; lra]. Qed.

Lemma nsum_R (l : list R) : nsum NumR l = Rsum l.
Proof. unfold nsum. cbn [nadd nofZ NumR car]. rewrite fold_left_Rplus. lra. Qed.

Lemma nmean_R (l : list R) : nmean NumR l = Rsum l / INR (List.length l).
Proof. unfold nmean, nofnat. rewrite nsum_R. cbn [ndiv nofZ NumR]. now rewrite <- INR_IZR_INZ. Qed.

Lemma Rsum_map_nonneg {A} (f : A -> R) l : (forall x, In x l -> 0 <= f x) -> 0 <= Rsum (map f l).
Proof.
  induction l as [|x l IH]; simpl; intros H; [lra|].
  pose proof (H x (or_introl eq_refl)). assert (0 <= Rsum (map f l)) by auto. lra.
Qed.

Lemma Rsum_app l l' : Rsum (l ++ l') = Rsum l + Rsum l'.
Proof. induction l as [|x l IH]; simpl; [lra|rewrite IH; lra]. Qed.

Lemma Rsum_map_ext {A} (f g : A -> R) l : (forall x, In x l -> f x = g x) -> Rsum (map f l) = Rsum (map g l).
Proof. intros H. f_equal. now apply map_ext_in. Qed.

Lemma Rsum_map_plus {A} (f g : A -> R) l : Rsum (map (fun x => f x + g x) l) = Rsum (map f l) + Rsum (map g l).
Proof. induction l as [|x l IH]; simpl; [lra|rewrite IH; lra]. Qed.

Lemma Rsum_map_scal {A} (f : A -> R) c l : Rsum (map (fun x => c * f x) l) = c * Rsum (map f l).
Proof. induction l as [|x l IH]; simpl; [lra|rewrite IH; lra]. Qed.

Lemma Rsum_const {A} c (l : list A) : Rsum (map (fun _ => c) l) = INR (List.length l) * c.
Proof.
  induction l as [|x l IH]; [simpl; lra|].
  cbn [map Rsum List.length]. rewrite IH, S_INR. lra.
Qed.

Lemma Rsum_zero_all {A} (f : A -> R) l :
  (forall x, In x l -> 0 <= f x) -> Rsum (map f l) = 0 -> forall x, In x l -> f x = 0.
Proof.
  induction l as [|y l IH]; simpl; intros H E x Hx; [contradiction|].
  assert (0 <= f y) by auto. assert (0 <= Rsum (map f l)) by (apply Rsum_map_nonneg; auto).
  destruct Hx as [->|Hx]; [lra|]. apply IH; auto. lra.
Qed.

Lemma column_eq (N : Num) j (rows : list (list N)) d :
  (forall r, In r rows -> (j < List.length r)%nat) -> column N j rows = map (fun r => nth j r d) rows.
Proof.
  induction rows as [|r rows IH]; intros H; [reflexivity|].
  unfold column in *. cbn [flat_map map]. rewrite IH by (intros; apply H; now right).
  rewrite (nth_error_nth' r d) by (apply H; now left). reflexivity.
Qed.

(** ** get_minimum statistics *)
Lemma get_minimum_R_shape (Y : mat NumR) num_init out :
  mat_wf Y -> get_minimum NumR Y num_init = Ok out ->
  nrows Y = List.length (mo_minima out) /\ (0 < nrows Y)%nat /\
  exists w, (forall m, In m (mo_minima out) -> List.length m = w) /\
    mo_mean out = map (fun j => nmean NumR (map (fun r => nth j r 0) (mo_minima out))) (seq 0 w) /\
    mo_std out = (if (1 <? nrows Y)%nat then map (fun j => nstd NumR 1 (map (fun r => nth j r 0) (mo_minima out))) (seq 0 w)
                  else map (fun _ => 0) (seq 0 w)) /\
    mo_sem out = map (fun s => s / sqrt (INR (nrows Y))) (mo_std out).
Proof.
  intros WF H. pose proof H as H0.
  apply (get_minimum_best NumR_ord num_init WF) in H0 as [Len B].
  pose proof (get_minimum_inv _ _ H) as [L F].
  revert H. unfold get_minimum. destruct (Z.ltb_spec num_init (Z.of_nat (mcols Y))) as [_|]; [|discriminate].
  cbn [assert_ rbind]. destruct (mapM _ (mrows Y)) as [minima|] eqn:E; cbn [rbind]; [|discriminate].
  destruct minima as [|m0 ms]; [discriminate|]. intros H.
  assert (Eo : mo_minima out = m0 :: ms) by (inversion H; reflexivity).
  set (w := List.length m0).
  assert (W : forall m, In m (m0 :: ms) -> List.length m = w).
  { intros m Hm. rewrite <- Eo in Hm. apply in_nth_error in Hm as [i Hi].
    assert (G : forall i m, nth_error (mo_minima out) i = Some m ->
       exists row, nth_error (mrows Y) i = Some row /\ List.length m = (mcols Y - slice_pos row num_init + 1)%nat).
    { intros i' m' Hi'. destruct (Forall2_nth i' F Hi') as (row & Hr & _). exists row. split; [exact Hr|].
      now destruct (B i' row m' Hr Hi'). }
    destruct (G _ _ Hi) as (row & Hr & ->).
    destruct (G 0%nat m0) as (row0 & Hr0 & E0); [now rewrite Eo|]. unfold w. rewrite E0.
    apply nth_error_In in Hr, Hr0. apply WF in Hr, Hr0. unfold slice_pos. rewrite Hr, Hr0. reflexivity. }
  assert (C : map (fun j => column NumR j (m0 :: ms)) (seq 0 w) = map (fun j => map (fun r => nth j r 0) (m0 :: ms)) (seq 0 w)).
  { apply map_ext_in. intros j Hj. apply in_seq in Hj. apply (column_eq NumR). intros r Hr. rewrite (W r Hr). lia. }
  split; [now rewrite Len|]. split; [rewrite <- Len, Eo; simpl; lia|]. exists w. rewrite Eo. split; [exact W|].
  apply Ok_inj in H. subst out. cbn [mo_mean mo_std mo_sem]. fold w. rewrite C, !map_map. split; [reflexivity|].
  assert (S0 : forall s : R, nsqrt NumR (nofnat NumR (nrows Y)) = sqrt (INR (nrows Y))).
  { intros. unfold nofnat. cbn [nofZ nsqrt NumR]. now rewrite <- INR_IZR_INZ. }
  rewrite (S0 0). destruct (1 <? nrows Y)%nat; split; reflexivity.
Qed.

Lemma nstd1_R (col : list R) : (1 < List.length col)%nat ->
  0 <= nstd NumR 1 col /\
  nstd NumR 1 col * nstd NumR 1 col * (INR (List.length col) - 1) =
    Rsum (map (fun x => (x - Rsum col / INR (List.length col)) * (x - Rsum col / INR (List.length col))) col).
Proof.
  intros L. unfold nstd. cbn [nsqrt ndiv nofZ NumR]. rewrite nsum_R, nmean_R.
  rewrite minus_IZR, <- !INR_IZR_INZ. change (INR 1) with 1.
  split; [apply sqrt_pos|].
  unfold nsq. cbn [nmul nsub NumR car].
  set (S := Rsum _).
  assert (0 <= S).
  { apply Rsum_map_nonneg. intros x _. apply Rle_0_sqr. }
  assert (1 < INR (List.length col)) by (apply (lt_INR 1); lia).
  rewrite sqrt_sqrt.
  - field. lra.
  - apply Rmult_le_pos; [assumption|]. left. apply Rinv_0_lt_compat. lra.
Qed.

Theorem get_minimum_stats (Y : mat NumR) num_init out :
  mat_wf Y -> get_minimum NumR Y num_init = Ok out ->
  let r := INR (nrows Y) in
  exists w, (forall m, In m (mo_minima out) -> List.length m = w) /\
   List.length (mo_mean out) = w /\ List.length (mo_std out) = w /\ List.length (mo_sem out) = w /\
   forall j m s e, nth_error (mo_mean out) j = Some m -> nth_error (mo_std out) j = Some s ->
     nth_error (mo_sem out) j = Some e ->
     let col := map (fun row => nth j row 0) (mo_minima out) in
     List.length col = nrows Y /\
     m * r = Rsum col /\
     0 <= s /\
     s * s * (r - 1) = Rsum (map (fun x => (x - m) * (x - m)) col) /\
     (nrows Y = 1%nat -> s = 0) /\
     (s = 0 <-> forall x y, In x col -> In y col -> x = y) /\
     0 <= e /\ e * sqrt r = s.
Proof.
  intros WF H r. destruct (get_minimum_R_shape _ _ _ WF H) as (Ln & Pos & w & W & Em & Es & Ee).
  exists w. split; [exact W|].
  assert (Lm : List.length (mo_mean out) = w) by (rewrite Em, map_length, seq_length; reflexivity).
  assert (Ls : List.length (mo_std out) = w) by (rewrite Es; destruct (1 <? nrows Y)%nat; rewrite map_length, seq_length; reflexivity).
  assert (Le : List.length (mo_sem out) = w) by (rewrite Ee, map_length; exact Ls).
  repeat (split; [assumption|]). intros j m s e Hm Hs He.
  set (col := map (fun row => nth j row 0) (mo_minima out)). cbv zeta.
  assert (Lc : List.length col = nrows Y) by (unfold col; rewrite map_length; auto).
  assert (Rpos : 0 < r) by (apply (lt_INR 0); lia).
  rewrite Em in Hm. apply nth_error_map_some in Hm as (j' & Hj' & Hm). apply nth_error_seq in Hj' as [-> Lj].
  rewrite Nat.add_0_l in *. fold col in Hm. rewrite nmean_R, Lc in Hm. fold r in Hm.
  rewrite Ee in He. apply nth_error_map_some in He as (s' & Hs' & He).
  pose proof (eq_trans (eq_sym Hs') Hs) as X. injection X as ->. fold r in He.
  assert (Sq : 0 < sqrt r) by now apply sqrt_lt_R0.
  assert (M : m * r = Rsum col) by (rewrite Hm; field; lra).
  assert (S : 0 <= s /\ s * s * (r - 1) = Rsum (map (fun x => (x - m) * (x - m)) col) /\
              (nrows Y = 1%nat -> s = 0)).
  { rewrite Es in Hs. destruct (Nat.ltb_spec 1 (nrows Y)) as [L1|L1].
    - apply nth_error_map_some in Hs as (j' & Hj' & Hs). apply nth_error_seq in Hj' as [-> _].
      rewrite Nat.add_0_l in *. fold col in Hs.
      destruct (nstd1_R col) as [A B]; [lia|]. rewrite <- Hs in *.
      split; [exact A|]. split; [|lia]. rewrite Lc in B. fold r in B. rewrite Hm. exact B.
    - apply nth_error_map_some in Hs as (j' & Hj' & Hs). subst s. split; [lra|]. split; [|reflexivity].
      assert (E1 : nrows Y = 1%nat) by lia. rewrite E1 in Lc. destruct col as [|x [|]]; try discriminate.
      unfold r in M. rewrite E1 in M. simpl in M. simpl. replace m with x by lra. lra. }
  destruct S as (S1 & S2 & S3). repeat (split; [assumption|]). split; [|split].
  - split.
    + intros E. rewrite E in S2. rewrite Rmult_0_l, Rmult_0_l in S2.
      assert (Z : forall x, In x col -> (x - m) * (x - m) = 0).
      { apply (Rsum_zero_all (fun x => (x - m) * (x - m))); [|now symmetry]. intros x _. apply Rle_0_sqr. }
      assert (G : forall x, In x col -> x = m).
      { intros x Hx. apply Z in Hx. apply Rmult_integral in Hx. destruct Hx; lra. }
      intros x y Hx Hy. rewrite (G x Hx), (G y Hy). reflexivity.
    + intros E. assert (G : forall x, In x col -> x = m).
      { intros x Hx.
        assert (Ec : Rsum col = r * x).
        { unfold r. rewrite <- Lc. rewrite <- (Rsum_const x col). rewrite <- (map_id col) at 1.
          apply Rsum_map_ext. intros y Hy. symmetry. apply E; assumption. }
        rewrite Hm, Ec. field. lra. }
      assert (Z : Rsum (map (fun x => (x - m) * (x - m)) col) = 0).
      { rewrite (Rsum_map_ext _ (fun _ => 0)).
        - rewrite Rsum_const. lra.
        - intros x Hx. rewrite (G x Hx). lra. }
      destruct (Nat.eq_dec (nrows Y) 1) as [E1|E1]; [auto|].
      assert (1 < r) by (apply (lt_INR 1); lia).
      rewrite Z in S2. apply Rmult_integral in S2 as [S2|S2]; [|lra].
      apply Rmult_integral in S2; tauto.
  - rewrite He. apply Rmult_le_pos; [assumption|]. left. now apply Rinv_0_lt_compat.
  - rewrite He. field. lra.
Qed.

(** ** get_time *)
Lemma cumsum_nth (l : list R) : forall a k v, nth_error (cumsum_from Rplus a l) k = Some v ->
  v = a + Rsum (firstn (S k) l).
Proof.
  induction l as [|x l IH]; intros a k v H; [destruct k; discriminate|].
  cbn [cumsum_from] in H. destruct k; cbn [nth_error] in H.
  - inversion H. simpl. lra.
  - apply IH in H. rewrite H. simpl. lra.
Qed.

Lemma cumsum_length {A} (add : A -> A -> A) (l : list A) : forall a, List.length (cumsum_from add a l) = List.length l.
Proof. induction l as [|x l IH]; simpl; intros; [|rewrite IH]; reflexivity. Qed.

Lemma round_time_length (N : Num) num_init inc row :
  List.length (round_time N num_init inc row) =
  S (if inc then List.length row - slice_pos row num_init else List.length row).
Proof.
  unfold round_time. cbn [List.length]. f_equal.
  assert (G : forall l : list N, List.length (np_cumsum N l) = List.length l).
  { intros [|x l]; [reflexivity|]. cbn [np_cumsum List.length]. now rewrite cumsum_length. }
  rewrite G. destruct inc; [|reflexivity]. unfold slice_from. now rewrite skipn_length.
Qed.

Definition kept (inc : bool) (num_init : Z) {A} (row : list A) : list A :=
  if inc then skipn (slice_pos row num_init) row else row.

Lemma round_time_nth num_init inc row k v :
  nth_error (round_time NumR num_init inc row) k = Some v -> v = Rsum (firstn k (kept inc num_init row)).
Proof.
  unfold round_time. destruct k; cbn [nth_error].
  - intros H. inversion H. reflexivity.
  - fold (kept inc num_init row). change (if inc then slice_from row num_init else row) with (kept inc num_init row).
    destruct (kept inc num_init row) as [|x l]; [destruct k; discriminate|].
    cbn [np_cumsum]. destruct k; cbn [nth_error].
    + intros H. inversion H. simpl. lra.
    + intros H. apply cumsum_nth in H. rewrite H. reflexivity.
Qed.

Theorem get_time_spec (T : mat NumR) num_init inc out :
  mat_wf T -> get_time NumR T num_init inc = Ok out ->
  (0 < nrows T)%nat /\
  List.length out = S (match mrows T with [] => 0 | row :: _ => List.length (kept inc num_init row) end) /\
  (forall k v, nth_error out k = Some v ->
     v * INR (nrows T) = Rsum (map (fun row => Rsum (firstn k (kept inc num_init row))) (mrows T))) /\
  nth_error out 0 = Some 0 /\
  ((forall row t, In row (mrows T) -> In t row -> 0 <= t) ->
    forall k v w, nth_error out k = Some v -> nth_error out (S k) = Some w -> v <= w).
Proof.
  intros WF H. unfold get_time in H.
  destruct (assert_ _) as [[]|]; cbn [rbind] in H; [|discriminate].
  set (times := map (round_time NumR num_init inc) (mrows T)) in H.
  destruct (mrows T) as [|row0 rows] eqn:ET; [discriminate|].
  assert (Er : times = round_time NumR num_init inc row0 :: map (round_time NumR num_init inc) rows) by reflexivity.
  assert (Eo0 : out = map (fun j => nmean NumR (column NumR j times)) (seq 0 (List.length (round_time NumR num_init inc row0)))).
  { symmetry. apply Ok_inj. exact H. }
  assert (Pos : (0 < nrows T)%nat) by (unfold nrows; rewrite ET; simpl; lia).
  assert (KL : forall row, In row (row0 :: rows) -> List.length (kept inc num_init row) = List.length (kept inc num_init row0)).
  { intros row Hr. assert (List.length row = mcols T) by (apply WF; now rewrite ET).
    assert (E0 : List.length row0 = mcols T) by (apply WF; rewrite ET; now left).
    assert (E1 : List.length row = List.length row0) by (rewrite E0; assumption).
    unfold kept, slice_pos. destruct inc; [rewrite !skipn_length; rewrite E1; reflexivity|exact E1]. }
  assert (RL : forall row, In row (row0 :: rows) -> List.length (round_time NumR num_init inc row) = S (List.length (kept inc num_init row0))).
  { intros row Hr. rewrite round_time_length. rewrite <- (KL row Hr). unfold kept. destruct inc; [now rewrite skipn_length|reflexivity]. }
  assert (TL : forall t, In t times -> List.length t = S (List.length (kept inc num_init row0))).
  { intros t Ht. apply in_map_iff in Ht as (row & <- & Hr). auto. }
  set (w := S (List.length (kept inc num_init row0))) in *.
  assert (Eo : out = map (fun j => nmean NumR (column NumR j times)) (seq 0 w)).
  { rewrite <- (RL row0) by now left. exact Eo0. }
  assert (V : forall k v, nth_error out k = Some v ->
     v * INR (nrows T) = Rsum (map (fun row => Rsum (firstn k (kept inc num_init row))) (row0 :: rows)) /\
     v = Rsum (map (fun row => Rsum (firstn k (kept inc num_init row))) (row0 :: rows)) / INR (nrows T) /\ (k < w)%nat).
  { intros k v Hk. rewrite Eo in Hk. apply nth_error_map_some in Hk as (j & Hj & Hv).
    apply nth_error_seq in Hj as [-> Lk]. rewrite Nat.add_0_l in *.
    rewrite (column_eq NumR k times 0) in Hv by (intros t Ht; rewrite (TL t Ht); exact Lk).
    rewrite nmean_R, map_length in Hv. unfold times in Hv. rewrite map_length, map_map in Hv.
    assert (Ec : map (fun x => nth k (round_time NumR num_init inc x) 0) (row0 :: rows)
               = map (fun row => Rsum (firstn k (kept inc num_init row))) (row0 :: rows)).
    { apply map_ext_in. intros row Hr. apply round_time_nth. apply nth_error_nth'.
      rewrite (RL row Hr). exact Lk. }
    rewrite Ec in Hv. assert (En : List.length (row0 :: rows) = nrows T) by (unfold nrows; now rewrite ET).
    rewrite En in Hv.
    assert (0 < INR (nrows T)) by (apply (lt_INR 0); lia).
    split; [|split; [exact Hv|exact Lk]]. rewrite Hv. field. lra. }
  split; [exact Pos|]. split; [rewrite Eo, map_length, seq_length; reflexivity|].
  split; [intros k v Hk; apply V; exact Hk|]. split.
  - destruct (nth_error out 0) as [v|] eqn:E0.
    + destruct (V _ _ E0) as (_ & Ev & _). f_equal. apply (eq_trans Ev).
      rewrite (Rsum_map_ext _ (fun _ => 0)) by reflexivity. rewrite Rsum_const, Rmult_0_r. apply Rmult_0_l.
    + apply nth_error_None in E0. rewrite Eo, map_length, seq_length in E0. unfold w in E0. lia.
  - intros Hpos k v u Hv Hu. destruct (V _ _ Hv) as (_ & -> & _). destruct (V _ _ Hu) as (_ & -> & Lk).
    apply Rmult_le_compat_r; [left; apply Rinv_0_lt_compat; apply (lt_INR 0); exact Pos|].
    assert (G : forall rs, (forall row, In row rs -> In row (row0 :: rows)) ->
       Rsum (map (fun row => Rsum (firstn k (kept inc num_init row))) rs)
       <= Rsum (map (fun row => Rsum (firstn (S k) (kept inc num_init row))) rs)).
    { induction rs as [|r rs IH]; intros Hs; [simpl; lra|]. cbn [map Rsum].
      assert (A : Rsum (firstn k (kept inc num_init r)) <= Rsum (firstn (S k) (kept inc num_init r))).
      { assert (Hr : In r (row0 :: rows)) by (apply Hs; now left).
        destruct (@firstn_S_snoc _ (kept inc num_init r) k) as (y & Hy & ->).
        - rewrite (KL r Hr). unfold w in Lk. lia.
        - rewrite Rsum_app. cbn [Rsum]. rewrite Rplus_0_r. rewrite <- (Rplus_0_r (Rsum _)) at 1.
          apply Rplus_le_compat_l. apply (Hpos r); [exact Hr|].
          apply nth_error_In in Hy. unfold kept in Hy. destruct inc; [|exact Hy].
          rewrite <- (firstn_skipn (slice_pos r num_init) r). apply in_or_app. now right. }
      assert (B := IH (fun row h => Hs row (or_intror h))). exact (Rplus_le_compat _ _ _ _ A B). }
    apply G. auto.
Qed.

(** ** plotting axes: lengths of get_time and get_minimum *)
Theorem time_minimum_lengths (N : Num) (Y T : mat N) num_init (inc : bool) mo ti :
  mat_wf Y -> mat_wf T ->
  (0 <= num_init)%Z ->
  (if inc then mcols T = mcols Y else (Z.of_nat (mcols T) + num_init)%Z = Z.of_nat (mcols Y)) ->
  get_minimum N Y num_init = Ok mo -> get_time N T num_init inc = Ok ti ->
  List.length ti = List.length (mo_mean mo).
Proof.
  intros WY WT Hn Hs HY HT.
  assert (LY : List.length (mo_mean mo) = (mcols Y - Z.to_nat num_init + 1)%nat).
  { pose proof (get_minimum_inv _ _ HY) as [L F].
    revert HY. unfold get_minimum. destruct (num_init <? Z.of_nat (mcols Y))%Z; [|discriminate].
    cbn [assert_ rbind]. destruct (mapM _ (mrows Y)) as [minima|] eqn:E; cbn [rbind]; [|discriminate].
    destruct minima as [|m0 ms]; [discriminate|]. intros H. apply Ok_inj in H. subst mo.
    cbn [mo_mean mo_minima] in *. rewrite !map_length, seq_length.
    inversion F as [|row ? rows ? E1 E2 E3 E4]; subst.
    apply mapM_ok_length in E1. rewrite E1, round_minima_length.
    assert (List.length row = mcols Y) by (apply WY; rewrite <- E3; now left).
    rewrite slice_pos_nonneg by lia. lia. }
  assert (LT : List.length ti = S (if inc then mcols T - Z.to_nat num_init else mcols T)).
  { revert HT. unfold get_time. destruct (assert_ (if inc then _ else _)) as [[]|] eqn:EA; cbn [rbind]; [|discriminate].
    destruct (mrows T) as [|row rows] eqn:ET; [discriminate|]. cbn [map]. intros H. apply Ok_inj in H. subst ti.
    rewrite map_length, seq_length, round_time_length.
    assert (EL : List.length row = mcols T) by (apply WT; rewrite ET; now left). rewrite EL.
    destruct inc; [|reflexivity].
    unfold assert_ in EA. destruct (Z.ltb_spec num_init (Z.of_nat (mcols T))); [|discriminate].
    rewrite slice_pos_nonneg by lia. reflexivity. }
  rewrite LY, LT. destruct inc; lia.
Qed.

(** ** normalize_min_max *)
Lemma npmin_R (l : list R) (m : R) : npmin NumR l = Ok m -> In m l /\ forall y, In y l -> m <= y.
Proof.
  destruct l as [|x l]; cbn [npmin]; [discriminate|]. intros H; injection H as <-.
  revert x; induction l as [|y l IH]; intros x; cbn [fold_left].
  - split; [now left|]. intros z [->|[]]. lra.
  - unfold npmin2 at 2 4. cbn [nisnan nlt NumR].
    destruct (Rlt_bool_spec y x) as [L|L].
    + destruct (IH y) as [A B]. split; [right; exact A|]. intros z [<-|Hz]; [|auto].
      apply Rle_trans with y; [apply B; now left|lra].
    + destruct (IH x) as [A B]. split; [destruct A as [A|A]; [left|right; right]; exact A|].
      intros z [<-|[<-|Hz]]; [apply B; now left| |apply B; now right].
      apply Rle_trans with x; [apply B; now left|lra].
Qed.

Lemma npmax_R (l : list R) (m : R) : npmax NumR l = Ok m -> In m l /\ forall y, In y l -> y <= m.
Proof.
  destruct l as [|x l]; cbn [npmax]; [discriminate|]. intros H; injection H as <-.
  revert x; induction l as [|y l IH]; intros x; cbn [fold_left].
  - split; [now left|]. intros z [->|[]]. lra.
  - unfold npmax2 at 2 4. cbn [nisnan nlt NumR].
    destruct (Rlt_bool_spec x y) as [L|L].
    + destruct (IH y) as [A B]. split; [right; exact A|]. intros z [<-|Hz]; [|auto].
      apply Rle_trans with y; [lra|apply B; now left].
    + destruct (IH x) as [A B]. split; [destruct A as [A|A]; [left|right; right]; exact A|].
      intros z [<-|[<-|Hz]]; [apply B; now left| |apply B; now right].
      apply Rle_trans with x; [lra|apply B; now left].
Qed.

Lemma npmin_unique (l : list R) (m m' : R) : npmin NumR l = Ok m -> In m' l -> (forall y, In y l -> m' <= y) -> m = m'.
Proof. intros H A B. apply npmin_R in H as [C D]. apply Rle_antisym; auto. Qed.
Lemma npmax_unique (l : list R) (m m' : R) : npmax NumR l = Ok m -> In m' l -> (forall y, In y l -> y <= m') -> m = m'.
Proof. intros H A B. apply npmax_R in H as [C D]. apply Rle_antisym; auto. Qed.

Lemma npmin_total (N : Num) (l : list N) : l <> [] -> exists m, npmin N l = Ok m.
Proof. destruct l; [congruence|]. intros _. cbn. eauto. Qed.
Lemma npmax_total (N : Num) (l : list N) : l <> [] -> exists m, npmax N l = Ok m.
Proof. destruct l; [congruence|]. intros _. cbn. eauto. Qed.

Definition nonconstant (Y : list R) : Prop := exists a b, In a Y /\ In b Y /\ a < b.

Lemma normalize_formula (Y : list R) mn mx :
  In mn Y -> In mx Y -> (forall y, In y Y -> mn <= y <= mx) -> mn < mx ->
  normalize_min_max NumR Y = Ok (map (fun y => (y - mn) / (mx - mn) * 10) Y).
Proof.
  intros Hmn Hmx Hb L. unfold normalize_min_max.
  assert (Ne : Y <> []) by (destruct Y; [contradiction|discriminate]).
  destruct (npmax_total NumR Y Ne) as [mx' Emx]. destruct (npmin_total NumR Y Ne) as [mn' Emn].
  rewrite Emx, Emn. cbn [rbind].
  rewrite (npmax_unique _ _ _ Emx Hmx) by (intros; apply Hb; assumption).
  rewrite (npmin_unique _ _ _ Emn Hmn) by (intros; apply Hb; assumption).
  cbn [neqb NumR]. rewrite Req_bool_false by lra. reflexivity.
Qed.

Lemma nonconstant_extremes (Y : list R) : nonconstant Y ->
  exists mn mx, In mn Y /\ In mx Y /\ (forall y, In y Y -> mn <= y <= mx) /\ mn < mx.
Proof.
  intros (a & b & Ha & Hb & L).
  assert (Ne : Y <> []) by (destruct Y; [contradiction|discriminate]).
  destruct (npmax_total NumR Y Ne) as [mx Emx]. destruct (npmin_total NumR Y Ne) as [mn Emn].
  apply npmax_R in Emx as [A B]. apply npmin_R in Emn as [C D].
  exists mn, mx. repeat split; auto. pose proof (D a Ha). pose proof (B b Hb). lra.
Qed.

Theorem normalize_min_max_spec (Y : list R) : nonconstant Y ->
  exists Z, normalize_min_max NumR Y = Ok Z /\ List.length Z = List.length Y /\
    (forall i y z, nth_error Y i = Some y -> nth_error Z i = Some z ->
       0 <= z <= 10 /\
       (z = 0 <-> forall w, In w Y -> y <= w) /\
       (z = 10 <-> forall w, In w Y -> w <= y)) /\
    (forall i j y y' z z', nth_error Y i = Some y -> nth_error Y j = Some y' ->
       nth_error Z i = Some z -> nth_error Z j = Some z' -> (z < z' <-> y < y')) /\
    In 0 Z /\ In 10 Z.
Proof.
  intros H. destruct (nonconstant_extremes Y H) as (mn & mx & Hmn & Hmx & Hb & L).
  exists (map (fun y => (y - mn) / (mx - mn) * 10) Y).
  set (f := fun y => (y - mn) / (mx - mn) * 10).
  assert (P : 0 < / (mx - mn)) by (apply Rinv_0_lt_compat; lra).
  assert (I : / (mx - mn) * (mx - mn) = 1) by (field; lra).
  assert (Mono : forall a b, a < b <-> f a < f b).
  { intros a b. unfold f, Rdiv. split; intros.
    - apply Rmult_lt_compat_r; [lra|]. apply Rmult_lt_compat_r; lra.
    - apply Rmult_lt_reg_r with (/ (mx - mn) * 10); [lra|]. nra. }
  assert (F0 : f mn = 0) by (unfold f; replace (mn - mn) with 0 by lra; unfold Rdiv; ring).
  assert (F1 : f mx = 10) by (unfold f; field; lra).
  assert (Nth : forall i y z, nth_error Y i = Some y -> nth_error (map f Y) i = Some z -> z = f y /\ In y Y).
  { intros i y z Hy Hz. rewrite nth_error_map, Hy in Hz. injection Hz as <-. split; [reflexivity|].
    eapply nth_error_In; eauto. }
  split; [now apply normalize_formula|]. split; [apply map_length|]. split; [|split; [|split]].
  - intros i y z Hy Hz. destruct (Nth _ _ _ Hy Hz) as [-> Hin]. pose proof (Hb y Hin) as [B1 B2].
    assert (G0 : f y < 0 <-> y < mn) by (rewrite <- F0; symmetry; apply Mono).
    assert (G0' : 0 < f y <-> mn < y) by (rewrite <- F0 at 1; symmetry; apply Mono).
    assert (G1 : f y < 10 <-> y < mx) by (rewrite <- F1 at 1; symmetry; apply Mono).
    assert (G1' : 10 < f y <-> mx < y) by (rewrite <- F1 at 1; symmetry; apply Mono).
    assert (E0 : f y = 0 <-> y = mn) by (split; [intros; apply Rle_antisym; apply Rnot_lt_le; intro; [apply G0' in H1|]; lra|intros ->; exact F0]).
    assert (E1 : f y = 10 <-> y = mx) by (split; [intros; apply Rle_antisym; apply Rnot_lt_le; intro; [|apply G1 in H1]; lra|intros ->; exact F1]).
    split; [split; apply Rnot_lt_le; rewrite ?G0, ?G1'; lra|]. split.
    + rewrite E0. split; [intros -> w Hw; apply Hb; exact Hw|]. intros A. pose proof (A mn Hmn). lra.
    + rewrite E1. split; [intros -> w Hw; apply Hb; exact Hw|]. intros A. pose proof (A mx Hmx). lra.
  - intros i j y y' z z' Hy Hy' Hz Hz'. destruct (Nth _ _ _ Hy Hz) as [-> _]. destruct (Nth _ _ _ Hy' Hz') as [-> _].
    symmetry. apply Mono.
  - rewrite <- F0. now apply (in_map f).
  - rewrite <- F1. now apply (in_map f).
Qed.

Theorem normalize_constant (Y : list R) : Y <> [] -> ~ nonconstant Y -> normalize_min_max NumR Y = Ok Y.
Proof.
  intros Ne H. unfold normalize_min_max.
  destruct (npmax_total NumR Y Ne) as [mx Emx]. destruct (npmin_total NumR Y Ne) as [mn Emn].
  rewrite Emx, Emn. cbn [rbind]. apply npmax_R in Emx as [A B]. apply npmin_R in Emn as [C D].
  assert (mx = mn).
  { apply Rle_antisym; [|auto]. apply Rnot_lt_le. intro. apply H. exists mn, mx. auto. }
  subst. cbn [neqb NumR]. rewrite Req_bool_true by reflexivity. reflexivity.
Qed.

Theorem normalize_idempotent (Y Z : list R) : nonconstant Y ->
  normalize_min_max NumR Y = Ok Z -> normalize_min_max NumR Z = Ok Z.
Proof.
  intros H E. destruct (normalize_min_max_spec Y H) as (Z' & E' & Len & P & _ & I0 & I1).
  rewrite E in E'. injection E' as <-.
  rewrite (normalize_formula Z 0 10); try assumption; try lra.
  - f_equal. rewrite <- (map_id Z) at 2. apply map_ext. intros z. field.
  - intros z Hz. apply in_nth_error in Hz as [i Hi].
    assert (exists y, nth_error Y i = Some y) as [y Hy].
    { destruct (nth_error Y i) eqn:E2; [eauto|]. apply nth_error_None in E2. assert (Len' : @List.length R Z = @List.length R Y) by exact Len.
      assert (i < @List.length R Z)%nat by (apply nth_error_Some; congruence). lia. }
    apply (P i y z Hy Hi).
Qed.

Theorem normalize_affine (Y : list R) a b : nonconstant Y -> 0 < a ->
  normalize_min_max NumR (map (fun y => a * y + b) Y) = normalize_min_max NumR Y.
Proof.
  intros H Ha. destruct (nonconstant_extremes Y H) as (mn & mx & Hmn & Hmx & Hb & L).
  rewrite (normalize_formula Y mn mx) by assumption.
  rewrite (normalize_formula _ (a * mn + b) (a * mx + b)).
  - f_equal. rewrite map_map. apply map_ext. intros y. field. split; [|nra]. lra.
  - now apply (in_map (fun y => a * y + b)).
  - now apply (in_map (fun y => a * y + b)).
  - intros z Hz. apply in_map_iff in Hz as (y & <- & Hy). pose proof (Hb y Hy). nra.
  - nra.
Qed.
