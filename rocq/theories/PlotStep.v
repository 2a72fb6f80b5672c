(** Figures of single steps and of Gaussian processes. *)
From Verif Require Import Base Lists Num NumLaws Monad UtilsModel UtilsSpec UtilsProofs UtilsRProofs PlotModel PlotSpec PlotProofs.
From Coq Require Import List ZArith Bool String Reals Lra Lia Arith.
Import ListNotations.
Set Implicit Arguments.

Section Step.
Context (N : Num).

Lemma combine_app_eq {A B} (a a' : list A) (b b' : list B) : List.length a = List.length b -> combine (a ++ a') (b ++ b') = combine a b ++ combine a' b'.
Proof. revert b. induction a as [|x a IH]; intros [|y b] H; try discriminate; [reflexivity|]. cbn [app combine]. f_equal. apply IH. cbn in H. lia. Qed.
Lemma map_pair {A B} (l : list A) (p : B) : map (fun q => (q, p)) l = combine l (repeat p (List.length l)).
Proof. induction l as [|x l IH]; [reflexivity|]. cbn [map List.length repeat combine]. f_equal. exact IH. Qed.
Lemma firstn_left {A} i (l l' : list A) : (i <= List.length l)%nat -> firstn i (l ++ l') = firstn i l.
Proof. intros H. rewrite firstn_app. replace (i - List.length l)%nat with 0%nat by lia. cbn. apply app_nil_r. Qed.
Lemma slice_pos_len {A B} (l : list A) (l' : list B) k : List.length l = List.length l' -> slice_pos l k = slice_pos l' k.
Proof. intros H. unfold slice_pos. now rewrite H. Qed.
Lemma slice_pos_last {A} (l : list A) x : slice_pos (l ++ [x]) (-1) = List.length l.
Proof. unfold slice_pos. rewrite app_length. cbn [List.length]. destruct (Z.ltb_spec (-1) 0); lia. Qed.
Lemma slice_to_last {A} (l : list A) x : slice_to (l ++ [x]) (-1) = l.
Proof. unfold slice_to. rewrite slice_pos_last, firstn_left by lia. apply firstn_all. Qed.
Lemma last_item_app {A} (l : list A) x : last_item (l ++ [x]) = Ok x.
Proof. unfold last_item. rewrite rev_app_distr. reflexivity. Qed.
Lemma flatten_length (m : mat N) : mat_wf m -> mcols m = 1%nat -> List.length (flatten N m) = nrows m.
Proof.
  intros W H. unfold flatten, nrows. unfold mat_wf in W. rewrite H in W. induction (mrows m) as [|r l IH]; [reflexivity|].
  cbn [List.concat List.length]. rewrite app_length, (W r (or_introl eq_refl)), IH; [reflexivity|]. intros r' Hr'. apply W. now right.
Qed.
Lemma snoc {A} (l : list A) n : List.length l = S n -> exists l' x, l = l' ++ [x] /\ List.length l' = n.
Proof.
  intros H. destruct (@exists_last _ l) as (l' & x & ->); [destruct l; discriminate|]. rewrite app_length in H. cbn in H. exists l', x. split; [reflexivity|lia].
Qed.

(** the training points are drawn in order, each once, in the colours of the specification *)
Lemma train_marks_run (X_train Y_train : mat N) num_init : mat_wf X_train -> mat_wf Y_train -> mcols X_train = 1%nat -> mcols Y_train = 1%nat ->
  nrows X_train = nrows Y_train -> (0 < nrows X_train)%nat ->
  exists t, train_marks N X_train Y_train num_init tt = (tt, t, Ok tt) /\
    marked t = combine (combine (flatten N X_train) (flatten N Y_train)) (step_colours num_init (nrows X_train)) /\
    Forall (fun d => match d with Marks ax _ _ _ => ax = 0%nat | _ => False end) t.
Proof.
  intros WX WY CX CY HXY HP. unfold train_marks.
  pose proof (flatten_length WX CX) as LX. pose proof (flatten_length WY CY) as LY. rewrite <- HXY in LY.
  set (n := nrows X_train) in *. destruct n as [|n]; [lia|]. clear HXY HP.
  destruct (snoc _ LX) as (X & x & EX & LX'). destruct (snoc _ LY) as (Y & y & EY & LY').
  rewrite EX, EY. rewrite !slice_to_last, !last_item_app.
  assert (C1 : combine (X ++ [x]) (Y ++ [y]) = combine X Y ++ [(x, y)]) by (rewrite combine_app_eq by lia; reflexivity).
  assert (LC : List.length (combine X Y) = n) by (rewrite combine_length; lia).
  destruct num_init as [k|].
  - destruct (Z.ltb_spec k (Z.of_nat (S n))) as [Hk|Hk].
    + set (i := slice_pos (X ++ [x]) k). assert (EI : slice_pos (Y ++ [y]) k = i) by (apply slice_pos_len; rewrite !app_length; cbn; lia).
      assert (HI : (i <= n)%nat /\ (if (k <? 0)%Z then Z.to_nat (Z.of_nat (S n) + k) else Z.to_nat k) = i).
      { unfold i, slice_pos. rewrite app_length. cbn [List.length]. rewrite LX'. destruct (Z.ltb_spec k 0); lia. }
      destruct HI as [HI EI2].
      assert (S1 : slice_to (X ++ [x]) k = firstn i X) by (unfold slice_to; fold i; apply firstn_left; lia).
      assert (S2 : slice_to (Y ++ [y]) k = firstn i Y) by (unfold slice_to; rewrite EI; apply firstn_left; lia).
      assert (S3 : slice_range (X ++ [x]) k (-1) = skipn i X) by (unfold slice_range; rewrite slice_to_last; reflexivity).
      assert (S4 : slice_range (Y ++ [y]) k (-1) = skipn i Y) by (unfold slice_range; rewrite slice_to_last, EI; reflexivity).
      rewrite S1, S2, S3, S4. eexists. split; [|split].
      * eapply bind_run2; [apply marks_run; rewrite !firstn_length; lia|]. eapply bind_run2; [apply marks_run; rewrite !skipn_length; lia|].
        eapply bind_run2 with (t1 := []); [reflexivity|]. eapply bind_run2 with (t1 := []); [reflexivity|]. apply marks_run. reflexivity.
      * unfold marked. cbn [app flat_map]. rewrite app_nil_r. rewrite !map_pair. unfold step_colours.
        destruct (Z.ltb_spec k (Z.of_nat (S n))); [|lia]. rewrite EI2, C1.
        assert (C2 : combine X Y = combine (firstn i X) (firstn i Y) ++ combine (skipn i X) (skipn i Y)).
        { rewrite <- combine_app_eq by (rewrite !firstn_length; lia). rewrite !firstn_skipn. reflexivity. }
        rewrite C2, <- app_assoc. rewrite combine_app_eq by (rewrite combine_length, !firstn_length, repeat_length; lia).
        rewrite combine_app_eq by (rewrite combine_length, !skipn_length, repeat_length; lia).
        rewrite !combine_length, !firstn_length, !skipn_length. replace (Nat.min (Nat.min i (List.length X)) (Nat.min i (List.length Y))) with i by lia.
        replace (Nat.min (List.length X - i) (List.length Y - i)) with (S n - 1 - i)%nat by lia. reflexivity.
      * repeat constructor.
    + eexists. split; [apply marks_run; rewrite !app_length; cbn; lia|]. split; [|repeat constructor].
      unfold marked. cbn [flat_map]. rewrite app_nil_r, map_pair. unfold step_colours. destruct (Z.ltb_spec k (Z.of_nat (S n))); [lia|].
      rewrite combine_length, !app_length. cbn [List.length]. replace (Nat.min (List.length X + 1) (List.length Y + 1)) with (S n) by lia. reflexivity.
  - eexists. split; [|split].
    + eapply bind_run2; [apply marks_run; lia|]. eapply bind_run2 with (t1 := []); [reflexivity|]. eapply bind_run2 with (t1 := []); [reflexivity|]. apply marks_run. reflexivity.
    + unfold marked. cbn [app flat_map]. rewrite !map_pair. unfold step_colours. rewrite C1. rewrite combine_app_eq by (rewrite repeat_length; lia).
      rewrite LC. replace (S n - 1)%nat with n by lia. reflexivity.
    + repeat constructor.
Qed.

Lemma xlim_run_N ax (l : list N) : l <> [] -> exists lo hi, npmin N l = Ok lo /\ npmax N l = Ok hi /\ xlim_of N ax l tt = (tt, [Xlim ax lo hi], Ok tt).
Proof.
  intros HN. unfold xlim_of.
  destruct (npmin N l) as [lo|] eqn:E1; [|destruct l; [congruence|discriminate]].
  destruct (npmax N l) as [hi|] eqn:E2; [|destruct l; [congruence|discriminate]].
  exists lo, hi. auto.
Qed.

Definition saved (path_save str_postfix : option string) (prefix : string) : list (draw N) :=
  match path_save, str_postfix with Some d, Some f => [SaveFigure d (prefix ++ f ++ ".pdf")%string] | _, _ => [] end.

Theorem step_shows (X_train Y_train X_test Y_test mean_test std_test : mat N) acq_test p s num_init range_shade :
  mat_wf X_train -> mat_wf Y_train -> mat_wf X_test -> mat_wf Y_test -> mat_wf mean_test -> mat_wf std_test ->
  mcols X_train = 1%nat -> mcols Y_train = 1%nat -> mcols X_test = 1%nat -> mcols Y_test = 1%nat -> mcols mean_test = 1%nat -> mcols std_test = 1%nat ->
  nrows Y_train = nrows X_train -> nrows Y_test = nrows X_test -> nrows mean_test = nrows X_test -> nrows std_test = nrows X_test ->
  (forall a, acq_test = Some a -> mat_wf a /\ mcols a = 1%nat /\ nrows a = nrows X_test) ->
  (0 < nrows X_train)%nat -> (0 < nrows X_test)%nat -> (forall k, num_init = Some k -> (k <= Z.of_nat (nrows X_train))%Z) ->
  exists marks lo hi,
    let X := flatten N X_test in
    plot_bo_step_gen N true X_train Y_train X_test Y_test mean_test std_test acq_test p s num_init range_shade tt =
    (tt, Line 0 X (flatten N Y_test) None (Named "g") None :: Line 0 X (flatten N mean_test) None (Named "b") None
         :: Band 0 X (shade N (nsub N) range_shade (flatten N mean_test) (flatten N std_test)) (shade N (nadd N) range_shade (flatten N mean_test) (flatten N std_test)) (Named "b")
         :: marks ++ Xlim 0 lo hi
         :: match acq_test with Some a => [Line 1 X (flatten N a) None (Named "b") None; Xlim 1 lo hi] | None => [] end
         ++ saved p s (match acq_test with Some _ => "bo_step_acq_" | None => "bo_step_" end)%string ++ [Show], Ok tt) /\
    marked marks = combine (combine (flatten N X_train) (flatten N Y_train)) (step_colours num_init (nrows X_train)) /\
    Forall (fun d => match d with Marks ax _ _ _ => ax = 0%nat | _ => False end) marks /\
    npmin N X = Ok lo /\ npmax N X = Ok hi.
Proof.
  intros W1 W2 W3 W4 W5 W6 C1 C2 C3 C4 C5 C6 L1 L2 L3 L4 HA HP HP2 HK.
  destruct (@train_marks_run X_train Y_train num_init W1 W2 C1 C2 (eq_sym L1) HP) as (t & ET & EM & EF).
  assert (NE : flatten N X_test <> []). { pose proof (flatten_length W3 C3). destruct (flatten N X_test); [cbn in *; lia|discriminate]. }
  destruct (xlim_run_N 0 NE) as (lo & hi & E1 & E2 & EX). exists t, lo, hi. cbv zeta. split; [|auto].
  assert (F3 := flatten_length W3 C3). assert (F4 := flatten_length W4 C4). assert (F5 := flatten_length W5 C5). assert (F6 := flatten_length W6 C6).
  assert (EK : match num_init with Some k => (k <=? Z.of_nat (nrows X_train))%Z | None => true end = true).
  { destruct num_init as [k|]; [apply Z.leb_le; auto|reflexivity]. }
  unfold plot_bo_step_gen. rewrite C1, C2, C3, C4, C5, C6, L1, L2, L3, L4, EK, !Nat.eqb_refl.
  destruct acq_test as [a|].
  - destruct (HA a eq_refl) as (WA & CA & LA). rewrite CA, LA, !Nat.eqb_refl. assert (FA := flatten_length WA CA).
    assert (EX1 : xlim_of N 1 (flatten N X_test) tt = (tt, [Xlim 1 lo hi], Ok tt)) by (unfold xlim_of; rewrite E1, E2; reflexivity).
    cbn [assert_ negb andb]. do 8 (eapply bind_run2 with (t1 := []); [reflexivity|]).
    eapply eq_trans.
    { eapply bind_run2; [apply line_run; congruence|]. eapply bind_run2; [apply line_run; congruence|]. eapply bind_run2; [apply band_run; congruence|].
      eapply bind_run2; [exact ET|]. eapply bind_run2; [exact EX|]. eapply bind_run2; [eapply bind_run2; [apply line_run; congruence|exact EX1]|].
      eapply bind_run2; [apply save_run|reflexivity]. }
    cbn [app]. rewrite <- ?app_assoc. reflexivity.
  - cbn [assert_ negb andb]. do 8 (eapply bind_run2 with (t1 := []); [reflexivity|]).
    eapply eq_trans.
    { eapply bind_run2; [apply line_run; congruence|]. eapply bind_run2; [apply line_run; congruence|]. eapply bind_run2; [apply band_run; congruence|].
      eapply bind_run2; [exact ET|]. eapply bind_run2; [exact EX|]. eapply bind_run2 with (t1 := []); [reflexivity|].
      eapply bind_run2; [apply save_run|reflexivity]. }
    cbn [app]. rewrite <- ?app_assoc. reflexivity.
Qed.

Theorem gp_shows ncolors (X_train Y_train X_test mean_test std_test : mat N) Y_test p s range_shade :
  mat_wf X_train -> mat_wf Y_train -> mat_wf X_test -> mat_wf mean_test -> mat_wf std_test ->
  mcols X_train = 1%nat -> mcols Y_train = 1%nat -> mcols X_test = 1%nat -> mcols mean_test = 1%nat -> mcols std_test = 1%nat ->
  nrows Y_train = nrows X_train -> nrows mean_test = nrows X_test -> nrows std_test = nrows X_test ->
  (forall a, Y_test = Some a -> mat_wf a /\ mcols a = 1%nat /\ nrows a = nrows X_test) ->
  (0 < nrows X_test)%nat -> (2 < ncolors)%nat ->
  exists lo hi,
    let X := flatten N X_test in
    plot_gp_via_distribution N true ncolors X_train Y_train X_test mean_test std_test Y_test p s range_shade tt =
    (tt, match Y_test with Some a => [Line 0 X (flatten N a) None (Palette 1) None] | None => [] end
         ++ Line 0 X (flatten N mean_test) None (Palette 2) None
         :: Band 0 X (shade N (nsub N) range_shade (flatten N mean_test) (flatten N std_test)) (shade N (nadd N) range_shade (flatten N mean_test) (flatten N std_test)) (Palette 2)
         :: Marks 0 (flatten N X_train) (flatten N Y_train) (Palette 0) :: Xlim 0 lo hi :: saved p s "gp_" ++ [Show], Ok tt) /\
    npmin N X = Ok lo /\ npmax N X = Ok hi.
Proof.
  intros W1 W2 W3 W5 W6 C1 C2 C3 C5 C6 L1 L3 L4 HA HP2 HC.
  assert (NE : flatten N X_test <> []). { pose proof (flatten_length W3 C3). destruct (flatten N X_test); [cbn in *; lia|discriminate]. }
  destruct (xlim_run_N 0 NE) as (lo & hi & E1 & E2 & EX). exists lo, hi. cbv zeta. split; [|auto].
  assert (F1 := flatten_length W1 C1). assert (F2 := flatten_length W2 C2).
  assert (F3 := flatten_length W3 C3). assert (F5 := flatten_length W5 C5). assert (F6 := flatten_length W6 C6).
  unfold plot_gp_via_distribution. rewrite C1, C2, C3, C5, C6, L1, L3, L4, !Nat.eqb_refl.
  destruct Y_test as [a|].
  - destruct (HA a eq_refl) as (WA & CA & LA). rewrite CA, LA, !Nat.eqb_refl. assert (FA := flatten_length WA CA).
    cbn [assert_ negb andb]. do 7 (eapply bind_run2 with (t1 := []); [reflexivity|]).
    eapply eq_trans.
    { eapply bind_run2; [eapply bind_run2; [apply palette_run; lia|apply line_run; congruence]|].
      eapply bind_run2; [apply palette_run; lia|]. eapply bind_run2; [apply line_run; congruence|]. eapply bind_run2; [apply palette_run; lia|].
      eapply bind_run2; [apply band_run; congruence|]. eapply bind_run2; [apply palette_run; lia|]. eapply bind_run2; [apply marks_run; congruence|].
      eapply bind_run2; [exact EX|]. eapply bind_run2; [apply save_run|reflexivity]. }
    cbn [app]. reflexivity.
  - cbn [assert_ negb andb]. do 7 (eapply bind_run2 with (t1 := []); [reflexivity|]).
    eapply eq_trans.
    { eapply bind_run2 with (t1 := []); [reflexivity|].
      eapply bind_run2; [apply palette_run; lia|]. eapply bind_run2; [apply line_run; congruence|]. eapply bind_run2; [apply palette_run; lia|].
      eapply bind_run2; [apply band_run; congruence|]. eapply bind_run2; [apply palette_run; lia|]. eapply bind_run2; [apply marks_run; congruence|].
      eapply bind_run2; [exact EX|]. eapply bind_run2; [apply save_run|reflexivity]. }
    cbn [app]. reflexivity.
Qed.

Theorem sample_shows ncolors (X Ys : mat N) p s :
  mat_wf X -> mat_wf Ys -> mcols X = 1%nat -> nrows X = mcols Ys -> (0 < nrows X)%nat -> (0 < ncolors)%nat ->
  exists lo hi,
    plot_gp_via_sample N true ncolors X Ys p s tt =
    (tt, map (fun Y => Line 0 (flatten N X) Y None (Palette 0) None) (mrows Ys) ++ Xlim 0 lo hi :: saved p s "gp_sampled_" ++ [Show], Ok tt) /\
    npmin N (flatten N X) = Ok lo /\ npmax N (flatten N X) = Ok hi.
Proof.
  intros WX WY CX LXY HP HC. pose proof (flatten_length WX CX) as LX.
  assert (NE : flatten N X <> []) by (destruct (flatten N X); [cbn in *; lia|discriminate]).
  destruct (xlim_run_N 0 NE) as (lo & hi & E1 & E2 & EX). exists lo, hi. split; [|auto].
  unfold plot_gp_via_sample. rewrite CX, LXY, !Nat.eqb_refl. cbn [assert_ negb]. do 2 (eapply bind_run2 with (t1 := []); [reflexivity|]).
  assert (G : exists l, mmapM (fun Y => mlet c <- palette N ncolors 0; line N 0 (flatten N X) Y None c None) (mrows Ys) tt =
    (tt, map (fun Y => Line 0 (flatten N X) Y None (Palette 0) None) (mrows Ys), Ok l)).
  { unfold mat_wf in WY. induction (mrows Ys) as [|Y rows IH]; [exists []; reflexivity|].
    destruct IH as [l IH]; [intros; apply WY; now right|]. exists (tt :: l). cbn [mmapM map].
    eapply eq_trans; [eapply bind_run2; [eapply bind_run2; [apply palette_run; lia|apply line_run]|]|].
    - rewrite (WY Y (or_introl eq_refl)). lia.
    - eapply bind_run2; [exact IH|reflexivity].
    - cbn [app]. rewrite app_nil_r. reflexivity. }
  destruct G as [l G]. eapply eq_trans; [eapply bind_run2; [exact G|]; eapply bind_run2; [exact EX|]; eapply bind_run2; [apply save_run|reflexivity]|].
  reflexivity.
Qed.
End Step.
