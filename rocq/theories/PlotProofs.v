(** The figures of utils_plotting.py show what PlotSpec says. *)
From Verif Require Import Base Lists Num NumLaws Monad UtilsModel UtilsSpec UtilsProofs UtilsRProofs PlotModel PlotSpec.
From Coq Require Import List ZArith Bool String Reals Lra Lia Arith.
Import ListNotations.
Set Implicit Arguments.
Local Open Scope R_scope.

(** ** Sequences of drawing commands *)
Lemma bind_run2 {W E A B} (m : M W E A) (k : A -> M W E B) w w1 t1 a w2 t2 r :
  m w = (w1, t1, Ok a) -> k a w1 = (w2, t2, r) -> bind m k w = (w2, (t1 ++ t2)%list, r).
Proof. intros H1 H2. unfold bind. rewrite H1, H2. reflexivity. Qed.
Lemma bind_stop {W E A B} (m : M W E A) (k : A -> M W E B) w w1 t1 e : m w = (w1, t1, Raise e) -> bind m k w = (w1, t1, Raise e).
Proof. intros H. unfold bind. now rewrite H. Qed.

Section Draw.
Context (N : Num).
Lemma line_run ax (xs ys : list N) l c m : List.length xs = List.length ys -> line N ax xs ys l c m tt = (tt, [Line ax xs ys l c m], Ok tt).
Proof. intros H. unfold line. apply Nat.eqb_eq in H. rewrite H. reflexivity. Qed.
Lemma marks_run ax (xs ys : list N) c : List.length xs = List.length ys -> marks N ax xs ys c tt = (tt, [Marks ax xs ys c], Ok tt).
Proof. intros H. unfold marks. apply Nat.eqb_eq in H. rewrite H. reflexivity. Qed.
Lemma band_run ax (xs ys ss : list N) s c : List.length xs = List.length ys ->
  band N ax xs ys ss s c tt = (tt, [Band ax xs (shade N (nsub N) s ys ss) (shade N (nadd N) s ys ss) c], Ok tt).
Proof. intros H. unfold band. apply Nat.eqb_eq in H. rewrite H. reflexivity. Qed.
Lemma palette_run n k : (k < n)%nat -> palette N n k tt = (tt, [], Ok (Palette k)).
Proof. intros H. unfold palette. apply Nat.ltb_lt in H. rewrite H. reflexivity. Qed.
Lemma index_run k n : (0 < n)%nat -> index_mod N k n tt = (tt, [], Ok (Nat.modulo k n)).
Proof. destruct n; [lia|reflexivity]. Qed.

Lemma curve_run k nc nm label (xs : list N) o ds im s : (0 < nc)%nat -> List.length xs = List.length (mo_mean o) ->
  curve N (k mod nc) nm nc label xs o ds im s tt =
  (tt, Line 0 xs (mo_mean o) (Some label) (Palette (k mod nc)) (if im then Some nm else None)
       :: (if ds then [Band 0 xs (shade N (nsub N) s (mo_mean o) (mo_std o)) (shade N (nadd N) s (mo_mean o) (mo_std o)) (Palette (k mod nc))] else []), Ok tt).
Proof.
  intros H L. unfold curve.
  assert (E := palette_run (Nat.mod_upper_bound k nc ltac:(lia))).
  destruct ds; (eapply eq_trans; [eapply bind_run2; [exact E|]; eapply bind_run2; [apply line_run; exact L|]; [first [apply band_run; exact L|reflexivity]]|reflexivity]).
Qed.

Lemma finish_run prefix labels ds il p s : finish N prefix labels ds il p s tt = (tt, closing prefix labels ds il p s, Ok tt).
Proof. unfold finish, closing. destruct il, p, s; reflexivity. Qed.
Lemma save_run p s prefix : save_figure N p s prefix tt = (tt, match p, s with Some d, Some f => [SaveFigure d (prefix ++ f ++ ".pdf")%string] | _, _ => [] end, Ok tt).
Proof. unfold save_figure. destruct p, s; reflexivity. Qed.
End Draw.

Lemma Forall2_nth_intro {A B} (P : A -> B -> Prop) l l' : List.length l' = List.length l ->
  (forall i a b, nth_error l i = Some a -> nth_error l' i = Some b -> P a b) -> Forall2 P l l'.
Proof.
  revert l'. induction l as [|a l IH]; intros [|b l'] H F; try discriminate; constructor.
  - apply (F 0%nat); reflexivity.
  - apply IH; [cbn in H; lia|]. intros i x y Hx Hy. apply (F (S i)); assumption.
Qed.

(** ** get_minimum over the reals *)
Lemma fold_some (l : list NumR) : forall b, exists v, fold_left (pymin NumR) l (Some b) = Some v.
Proof. induction l as [|y l IH]; intros b; cbn [fold_left]; [eauto|]. unfold pymin at 2. destruct (nlt NumR y b); apply IH. Qed.
Lemma scan_ext (l : list NumR) : forall b, exists r, mapM (ext_elt NumR) (minima_scan NumR (Some b) l) = Ok r.
Proof.
  induction l as [|y l IH]; intros b; [cbn; eauto|]. cbn [minima_scan pymin]. set (v := if nlt NumR y b then Some y else Some b).
  assert (exists c, v = Some c) as [c ->] by (unfold v; destruct (nlt NumR y b); eauto).
  cbn [mapM ext_elt rbind]. destruct (IH c) as [r ->]. cbn. eauto.
Qed.
Lemma round_ext k (row : list NumR) : (0 < k)%Z -> row <> [] -> exists r, mapM (ext_elt NumR) (round_minima NumR k row) = Ok r.
Proof.
  intros Hk Hr. unfold round_minima, slice_to. destruct row as [|y row]; [congruence|].
  assert (exists p, slice_pos (y :: row) k = S p) as [p ->].
  { unfold slice_pos. destruct (Z.ltb_spec k 0); [lia|]. cbn [List.length]. destruct (Z.to_nat k) as [|p] eqn:E; [lia|]. exists (Nat.min p (List.length row)). reflexivity. }
  cbn [firstn fold_left pymin nltinf NumR]. destruct (fold_some (firstn p row) y) as [v ->].
  destruct (scan_ext (slice_from (y :: row) k) v) as [r Er]. cbn [mapM ext_elt rbind]. rewrite Er. cbn. eauto.
Qed.
Lemma get_minimum_R_ok (Y : mat NumR) k : mat_wf Y -> mrows Y <> [] -> (0 < k < Z.of_nat (mcols Y))%Z -> exists o, get_minimum NumR Y k = Ok o.
Proof.
  intros WF HN HK. unfold get_minimum. destruct (Z.ltb_spec k (Z.of_nat (mcols Y))); [|lia]. cbn [assert_ rbind].
  assert (G : forall rows, (forall r, In r rows -> List.length r = mcols Y) -> exists m, mapM (fun by_ => mapM (ext_elt NumR) (round_minima NumR k by_)) rows = Ok m).
  { induction rows as [|r rows IH]; intros HW; [cbn; eauto|]. cbn [mapM].
    destruct (@round_ext k r) as [a ->]; [lia| |]. { specialize (HW r (or_introl eq_refl)). intros ->. change (0%nat = mcols Y) in HW. lia. }
    cbn [rbind]. destruct IH as [m ->]; [intros; apply HW; now right|]. cbn. eauto. }
  destruct (G (mrows Y) WF) as [m E]. rewrite E. cbn [rbind]. destruct m as [|m0 ms]; [|eauto].
  apply mapM_ok_length in E. destruct (mrows Y); [congruence|discriminate].
Qed.

Lemma get_minimum_length (Y : mat NumR) k o : mat_wf Y -> get_minimum NumR Y k = Ok o -> (0 <= k)%Z -> List.length (mo_mean o) = S (mcols Y - Z.to_nat k).
Proof.
  intros WF H Hk. destruct (get_minimum_R_shape _ _ _ WF H) as (Ln & Pos & w & W & Em & _). rewrite Em, map_length, seq_length.
  destruct (get_minimum_best NumR_ord k WF H) as [_ B]. destruct (get_minimum_inv _ _ H) as [L F].
  destruct (mo_minima o) as [|m0 ms] eqn:Eo; [change (nrows Y = 0%nat) in Ln; lia|]. rewrite <- (W m0 (or_introl eq_refl)).
  destruct (mrows Y) as [|row rows] eqn:EY; [unfold nrows in Ln; rewrite EY in Ln; discriminate|].
  destruct (B 0%nat row m0) as [-> _]; [reflexivity|reflexivity|].
  rewrite slice_pos_nonneg; [lia|]. rewrite (WF row) by (rewrite EY; now left). lia.
Qed.

Lemma shade_nth (op : R -> R -> R) (s : R) (ys ss : list R) j y d : nth_error ys j = Some y -> nth_error ss j = Some d ->
  nth_error (shade NumR op s ys ss) j = Some (op y (s * d)).
Proof.
  intros H1 H2. unfold shade. revert ss j H1 H2. induction ys as [|a ys IH]; intros [|b ss] [|j] H1 H2; try discriminate.
  - cbn in *. injection H1 as ->. injection H2 as ->. reflexivity.
  - cbn [combine map nth_error]. apply IH; assumption.
Qed.
Lemma shade_length (N : Num) op s (ys ss : list N) : List.length ys = List.length ss -> List.length (shade N op s ys ss) = List.length ys.
Proof. intros H. unfold shade. rewrite map_length, combine_length. lia. Qed.

Lemma smallest_R (seen : list R) v : best_entry NumR seen v -> smallest seen v.
Proof.
  intros [(A & B & C)|(A & B)]; [|discriminate A]. split; [exact A|]. intros y Hy. specialize (C y Hy eq_refl).
  cbn [nle NumR] in C. destruct (Raux.Rle_bool_spec v y); [assumption|discriminate].
Qed.

Lemma slice_pos_in {A} (l : list A) k n : List.length l = n -> (0 <= k < Z.of_nat n)%Z -> slice_pos l k = Z.to_nat k.
Proof. intros <- H. apply slice_pos_nonneg. lia. Qed.
Lemma shows (Y : mat NumR) k o (s : R) xs : mat_wf Y -> get_minimum NumR Y k = Ok o -> (0 <= k)%Z -> List.length xs = List.length (mo_mean o) ->
  shows_best (Z.to_nat k) (mcols Y) s (mrows Y)
    (mkshown xs (mo_mean o) (shade NumR Rminus s (mo_mean o) (mo_std o)) (shade NumR Rplus s (mo_mean o) (mo_std o))).
Proof.
  intros WF H Hk LX. pose proof (get_minimum_length WF H Hk) as LM.
  destruct (get_minimum_stats _ _ _ WF H) as (w & W & L1 & L2 & L3 & ST).
  pose proof (get_minimum_best NumR_ord k WF H) as [LN B].
  unfold shows_best. cbn [sh_x sh_y sh_lo sh_hi]. rewrite !(@shade_length NumR) by (rewrite L1, L2; reflexivity). rewrite LX.
  do 4 (split; [exact LM|]). intros j y l u Hy Hl Hu.
  assert (Hj : (j < w)%nat) by (rewrite <- L1; apply nth_error_Some; intros Q; exact (eq_ind (Some y) (fun z : option R => match z with Some _ => True | None => False end) Logic.I None (eq_trans (eq_sym Hy) Q))).
  assert (exists d, nth_error (mo_std o) j = Some d) as [d Hd].
  { destruct (nth_error (mo_std o) j) eqn:E; [eauto|]. apply nth_error_None in E. lia. }
  assert (exists e, nth_error (mo_sem o) j = Some e) as [e He].
  { destruct (nth_error (mo_sem o) j) eqn:E; [eauto|]. apply nth_error_None in E. lia. }
  destruct (ST j y d e Hy Hd He) as (C1 & C2 & C3 & C4 & C5 & _).
  exists (map (fun row => nth j row 0) (mo_minima o)), d. split.
  - apply Forall2_nth_intro; [rewrite map_length; exact LN|]. intros i row b Hr Hb.
    apply nth_error_map_some in Hb as (mi & Hm & ->).
    destruct (B i row mi Hr Hm) as [LL BB]. apply smallest_R.
    assert (E : slice_pos row k = Z.to_nat k).
    { destruct (get_minimum_inv _ _ H) as [LK _]. exact (@slice_pos_in _ row k (mcols Y) (WF row (nth_error_In _ _ Hr)) (conj Hk LK)). }
    rewrite <- E. apply BB. apply nth_error_nth'. exact (eq_ind_r (fun q => (j < q)%nat) Hj (W mi (nth_error_In _ _ Hm))).
  - split; [exact (eq_ind_r (fun q => y * INR q = _) C2 C1)|].
    split; [split; [exact C3|]; split; [exact (eq_ind_r (fun q => d * d * (INR q - 1) = _) C4 C1)|exact (eq_ind_r (fun q => q = 1%nat -> d = 0) C5 C1)]|].
    pose proof (eq_trans (eq_sym Hl) (@shade_nth Rminus s _ _ _ _ _ Hy Hd)) as Q1. pose proof (eq_trans (eq_sym Hu) (@shade_nth Rplus s _ _ _ _ _ Hy Hd)) as Q2.
    injection Q1 as ->. injection Q2 as ->. split; reflexivity.
Qed.

(** ** One curve per experiment *)
Section Iter.
Context (ncolors nmarkers : nat) (num_init : Z) (n : nat) (draw_std include_marker : bool) (range_shade : R).
Context (HC : (0 < ncolors)%nat) (HM : (0 < nmarkers)%nat) (HK : (0 < num_init < Z.of_nat n)%Z).

Lemma iter_curves (es : list (list (list NumR))) : forall k labels, List.length es = List.length labels ->
  (forall e, In e es -> e <> [] /\ forall r, In r e -> List.length r = n) ->
  exists cs,
    mmapM (fun e : nat * (list (list NumR) * string) =>
      let '(k, (rounds, label)) := e in
      mlet ind_color <- index_mod NumR k ncolors; mlet ind_marker <- index_mod NumR k nmarkers;
      mlet o <- lift (get_minimum NumR (mkmat rounds n) num_init);
      mlet _ <- curve NumR ind_color ind_marker ncolors label (map (nofnat NumR) (seq 0 (List.length (mo_mean o)))) o draw_std include_marker range_shade;
      ret (List.length (mo_mean o))) (combine (seq k (List.length es)) (combine es labels)) tt
    = (tt, figure k ncolors nmarkers draw_std include_marker labels cs, Ok (repeat (S (n - Z.to_nat num_init)) (List.length es))) /\
    Forall2 (fun e c => shows_best (Z.to_nat num_init) n range_shade e c /\ counts (sh_x c)) es cs.
Proof.
  induction es as [|e es IH]; intros k [|label labels] HL HW; try discriminate.
  - exists []. split; [reflexivity|constructor].
  - destruct (IH (S k) labels) as (cs & E & F); [injection HL; auto|intros e' H'; apply HW; now right|].
    destruct (HW e (or_introl eq_refl)) as [HN HR].
    destruct (@get_minimum_R_ok (mkmat e n) num_init HR HN HK) as [o Eo].
    assert (LO : List.length (mo_mean o) = S (n - Z.to_nat num_init)) by (apply (@get_minimum_length (mkmat e n) num_init o HR Eo); lia).
    set (xs := map (nofnat NumR) (seq 0 (List.length (mo_mean o)))).
    assert (LX : List.length xs = List.length (mo_mean o)) by (unfold xs; rewrite map_length, seq_length; reflexivity).
    exists (mkshown xs (mo_mean o) (shade NumR Rminus range_shade (mo_mean o) (mo_std o)) (shade NumR Rplus range_shade (mo_mean o) (mo_std o)) :: cs).
    split.
    + cbn [List.length seq combine mmapM].
      eapply eq_trans; [eapply bind_run2|].
      * eapply bind_run2; [apply index_run; exact HC|]. eapply bind_run2; [apply index_run; exact HM|].
        eapply bind_run2; [unfold lift; rewrite Eo; reflexivity|]. eapply bind_run2; [apply curve_run; [exact HC|exact LX]|reflexivity].
      * eapply bind_run2; [exact E|reflexivity].
      * cbn [figure sh_x sh_y sh_lo sh_hi repeat]. unfold xs. rewrite LO. rewrite !app_nil_r. cbn [app]. reflexivity.
    + constructor; [|exact F]. split; [apply (@shows (mkmat e n) num_init o range_shade xs HR Eo); [lia|exact LX]|].
      intros j x Hx. cbn [sh_x] in Hx. unfold xs in Hx. apply nth_error_map_some in Hx as (i & Hi & ->). apply nth_error_seq in Hi as [-> _].
      unfold nofnat. cbn [nofZ NumR]. rewrite <- INR_IZR_INZ. reflexivity.
Qed.
End Iter.

Theorem vs_iter_shows ncolors nmarkers (minima : cube NumR) labels num_init ds im il p s (range_shade : R) :
  cube_wf minima -> cexps minima <> [] -> (0 < crounds minima)%nat -> List.length labels = List.length (cexps minima) ->
  (0 < num_init < Z.of_nat (ccols minima))%Z -> (0 < ncolors)%nat -> (0 < nmarkers)%nat ->
  exists cs,
    plot_minimum_vs_iter NumR true ncolors nmarkers minima labels num_init ds im il p s range_shade tt =
    (tt, figure 0 ncolors nmarkers ds im labels cs ++ Xlim 0 (0 : NumR) (IZR (Z.of_nat (ccols minima) - num_init)) :: closing "minimum_" labels ds il p s, Ok tt) /\
    Forall2 (fun e c => shows_best (Z.to_nat num_init) (ccols minima) range_shade e c /\ counts (sh_x c)) (cexps minima) cs.
Proof.
  intros WF HN HR HL HK HC HM.
  destruct (@iter_curves ncolors nmarkers num_init (ccols minima) ds im range_shade HC HM HK (cexps minima) 0 labels) as (cs & E & F);
    [auto|intros e He; destruct (WF e He) as [L W]; split; [intros ->; change (0%nat = crounds minima) in L; lia|exact W]|].
  exists cs. split; [|exact F]. unfold plot_minimum_vs_iter. rewrite HL, Nat.eqb_refl. destruct (Z.leb_spec num_init (Z.of_nat (ccols minima))); [|lia].
  cbn [assert_ negb]. eapply bind_run2 with (t1 := []); [reflexivity|]. eapply bind_run2 with (t1 := []); [reflexivity|].
  eapply eq_trans; [eapply bind_run2; [exact E|]|reflexivity].
  destruct (cexps minima) as [|e es] eqn:EC; [congruence|].
  assert (ER : exists l, rev (repeat (S (ccols minima - Z.to_nat num_init)) (List.length (e :: es))) = S (ccols minima - Z.to_nat num_init) :: l).
  { cbn [List.length]. set (q := S (ccols minima - Z.to_nat num_init)). generalize (List.length es). intros m. exists (repeat q m).
    induction m as [|m IH]; [reflexivity|]. change (repeat q (S (S m))) with (q :: repeat q (S m)). cbn [rev]. rewrite IH. cbn [app]. f_equal.
    clear IH. induction m as [|m IH]; [reflexivity|]. cbn [repeat app]. f_equal. exact IH. }
  destruct ER as [l ER]. rewrite ER.
  eapply bind_run2 with (t1 := []); [reflexivity|]. eapply eq_trans; [eapply bind_run2; [reflexivity|apply finish_run]|].
  cbn [app]. cbn [nofZ NumR]. replace (Z.of_nat (S (ccols minima - Z.to_nat num_init)) - 1)%Z with (Z.of_nat (ccols minima) - num_init)%Z by lia. reflexivity.
Qed.

(** ** Elapsed time *)
Lemma get_time_R_ok (T : mat NumR) k (inc : bool) : mrows T <> [] -> (inc = true -> (k < Z.of_nat (mcols T))%Z) -> exists xs, get_time NumR T k inc = Ok xs.
Proof.
  intros HN HI. unfold get_time.
  assert (E : (if inc then (k <? Z.of_nat (mcols T))%Z else true) = true) by (destruct inc; [apply Z.ltb_lt; auto|reflexivity]).
  rewrite E. cbn [assert_ rbind]. destruct (mrows T); [congruence|]. cbn [map]. eauto.
Qed.
Lemma xlim_run ax (l : list NumR) : l <> [] -> exists lo hi, smallest l lo /\ largest l hi /\ xlim_of NumR ax l tt = (tt, [Xlim ax (lo : NumR) hi], Ok tt).
Proof.
  intros HN. unfold xlim_of.
  destruct (npmin NumR l) as [lo|] eqn:E1; [|destruct l; [congruence|discriminate]].
  destruct (npmax NumR l) as [hi|] eqn:E2; [|destruct l; [congruence|discriminate]].
  exists lo, hi. split; [exact (npmin_R _ _ E1)|]. split; [exact (npmax_R _ _ E2)|]. reflexivity.
Qed.

Section Time.
Context (ncolors nmarkers : nat) (num_init : Z) (n nt : nat) (inc : bool) (draw_std include_marker : bool) (range_shade : R).
Context (HC : (0 < ncolors)%nat) (HM : (0 < nmarkers)%nat) (HK : (0 < num_init < Z.of_nat n)%Z).
Context (HT : if inc then nt = n else (Z.of_nat nt + num_init)%Z = Z.of_nat n).

Lemma time_curves (es : list (list (list NumR))) : forall k ts labels, List.length es = List.length labels -> List.length ts = List.length es ->
  (forall e, In e es -> e <> [] /\ forall r, In r e -> List.length r = n) ->
  (forall t, In t ts -> t <> [] /\ forall r, In r t -> List.length r = nt) ->
  exists cs,
    mmapM (fun e : nat * (list (list NumR) * (list (list NumR) * string)) =>
      let '(k, (trounds, (rounds, label))) := e in
      mlet ind_color <- index_mod NumR k ncolors; mlet ind_marker <- index_mod NumR k nmarkers;
      mlet o <- lift (get_minimum NumR (mkmat rounds n) num_init);
      mlet xs <- lift (get_time NumR (mkmat trounds nt) num_init inc);
      mlet _ <- curve NumR ind_color ind_marker ncolors label xs o draw_std include_marker range_shade;
      ret xs) (combine (seq k (List.length es)) (combine ts (combine es labels))) tt
    = (tt, figure k ncolors nmarkers draw_std include_marker labels cs, Ok (map sh_x cs)) /\
    Forall2 (fun et c => shows_best (Z.to_nat num_init) n range_shade (fst et) c /\
      elapsed (fun row => if inc then skipn (Z.to_nat num_init) row else row) (snd et) (sh_x c)) (combine es ts) cs.
Proof.
  induction es as [|e es IH]; intros k [|t ts] [|label labels] HL HL2 HW HW2; try discriminate.
  - exists []. split; [reflexivity|constructor].
  - destruct (IH (S k) ts labels) as (cs & E & F); [injection HL; auto|injection HL2; auto|intros e' H'; apply HW; now right|intros e' H'; apply HW2; now right|].
    destruct (HW e (or_introl eq_refl)) as [HN HR]. destruct (HW2 t (or_introl eq_refl)) as [HN2 HR2].
    destruct (@get_minimum_R_ok (mkmat e n) num_init HR HN HK) as [o Eo].
    destruct (@get_time_R_ok (mkmat t nt) num_init inc HN2) as [xs Ex]; [intros ->; rewrite HT; cbn [mcols]; lia|].
    assert (LX : List.length xs = List.length (mo_mean o)).
    { apply (@time_minimum_lengths NumR (mkmat e n) (mkmat t nt) num_init inc o xs HR HR2); [lia|exact HT|exact Eo|exact Ex]. }
    exists (mkshown xs (mo_mean o) (shade NumR Rminus range_shade (mo_mean o) (mo_std o)) (shade NumR Rplus range_shade (mo_mean o) (mo_std o)) :: cs).
    split.
    + cbn [List.length seq combine mmapM].
      eapply eq_trans; [eapply bind_run2|].
      * eapply bind_run2; [apply index_run; exact HC|]. eapply bind_run2; [apply index_run; exact HM|].
        eapply bind_run2; [unfold lift; rewrite Eo; reflexivity|]. eapply bind_run2; [unfold lift; rewrite Ex; reflexivity|].
        eapply bind_run2; [apply curve_run; [exact HC|exact LX]|reflexivity].
      * eapply bind_run2; [exact E|reflexivity].
      * cbn [figure sh_x sh_y sh_lo sh_hi map]. rewrite !app_nil_r. cbn [app]. reflexivity.
    + cbn [combine]. constructor; [|exact F]. cbn [fst snd]. split; [apply (@shows (mkmat e n) num_init o range_shade xs HR Eo); [lia|exact LX]|].
      cbn [sh_x]. intros j x Hx. destruct (get_time_spec (mkmat t nt) _ _ _ HR2 Ex) as (_ & _ & ST & _).
      refine (eq_trans (ST j x Hx) _). cbn [mrows]. f_equal. apply map_ext_in. intros row Hr. destruct inc; [|reflexivity].
      assert (EP := @slice_pos_in _ row num_init nt (HR2 row Hr) ltac:(lia)). exact (f_equal (fun q => Rsum (firstn j (skipn q row))) EP).
Qed.
End Time.

Theorem vs_time_shows ncolors nmarkers (times minima : cube NumR) labels num_init ds im il p s (range_shade : R) :
  cube_wf minima -> cube_wf times -> cexps minima <> [] -> (0 < crounds minima)%nat -> crounds times = crounds minima ->
  List.length labels = List.length (cexps minima) -> List.length (cexps times) = List.length (cexps minima) ->
  ccols times = ccols minima \/ (Z.of_nat (ccols times) + num_init)%Z = Z.of_nat (ccols minima) ->
  (0 < num_init < Z.of_nat (ccols minima))%Z -> (0 < ncolors)%nat -> (0 < nmarkers)%nat ->
  exists cs lo hi,
    plot_minimum_vs_time NumR true ncolors nmarkers times minima labels num_init ds im il p s range_shade tt =
    (tt, figure 0 ncolors nmarkers ds im labels cs ++ Xlim 0 (lo : NumR) hi :: closing "minimum_time_" labels ds il p s, Ok tt) /\
    Forall2 (fun et c => shows_best (Z.to_nat num_init) (ccols minima) range_shade (fst et) c /\
      elapsed (fun row => if Nat.eqb (ccols times) (ccols minima) then skipn (Z.to_nat num_init) row else row) (snd et) (sh_x c)) (combine (cexps minima) (cexps times)) cs /\
    smallest (List.concat (map sh_x cs)) lo /\ largest (List.concat (map sh_x cs)) hi.
Proof.
  intros WF WT HN HR HRT HL HLT HT HK HC HM.
  assert (HT' : if Nat.eqb (ccols times) (ccols minima) then ccols times = ccols minima else (Z.of_nat (ccols times) + num_init)%Z = Z.of_nat (ccols minima)).
  { destruct (Nat.eqb_spec (ccols times) (ccols minima)); [assumption|tauto]. }
  destruct (@time_curves ncolors nmarkers num_init (ccols minima) (ccols times) (Nat.eqb (ccols times) (ccols minima)) ds im range_shade HC HM HK HT' (cexps minima) 0 (cexps times) labels) as (cs & E & F);
    [auto|auto|intros e He; destruct (WF e He) as [L W]; split; [intros ->; change (0%nat = crounds minima) in L; lia|exact W]|
     intros e He; destruct (WT e He) as [L W]; split; [intros ->; change (0%nat = crounds times) in L; lia|exact W]|].
  assert (NE : List.concat (map sh_x cs) <> []).
  { destruct (cexps minima) as [|e es]; [congruence|]. destruct (cexps times) as [|t ts]; [discriminate|]. cbn [combine] in F.
    inversion F as [|? c ? cs' [(LX & _) _] F' E1 E2]; subst. cbn [map List.concat]. destruct (sh_x c); [discriminate|discriminate]. }
  destruct (xlim_run 0 NE) as (lo & hi & S1 & S2 & EX). exists cs, lo, hi. split; [|auto].
  unfold plot_minimum_vs_time. rewrite HL, HLT, HRT, !Nat.eqb_refl. destruct (Z.leb_spec num_init (Z.of_nat (ccols minima))); [|lia].
  assert (EA : (Nat.eqb (ccols times) (ccols minima) || (Z.of_nat (ccols times) + num_init =? Z.of_nat (ccols minima))%Z)%bool = true).
  { apply orb_true_iff. destruct HT as [HT|HT]; [left; apply Nat.eqb_eq; exact HT|right; apply Z.eqb_eq; exact HT]. }
  rewrite EA. cbn [assert_ negb andb]. do 4 (eapply bind_run2 with (t1 := []); [reflexivity|]).
  eapply eq_trans; [eapply bind_run2; [exact E|]; eapply bind_run2; [exact EX|apply finish_run]|]. reflexivity.
Qed.
