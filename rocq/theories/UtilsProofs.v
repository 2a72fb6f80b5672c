From Verif Require Import Base Lists Num NumLaws UtilsModel UtilsSpec.
From Coq Require Import List ZArith Bool Reals Lra Lia Arith Permutation String.
From Flocq Require Import Core.Raux.
Set Implicit Arguments.

(** ** Running minima *)
Section Minima.
Context (N : Num) (O : NumOrd N).

Definition IsBest (seen : list N) (o : option N) : Prop :=
  match o with
  | None => forall y, In y seen -> nltinf N y = false
  | Some m => In m seen /\ nltinf N m = true /\
              forall y, In y seen -> nisnan N y = false -> nle N m y = true
  end.

Lemma pymin_best seen o y : IsBest seen o -> IsBest (seen ++ [y]) (pymin N o y).
Proof.
  destruct o as [m|]; simpl; intros H.
  - destruct H as (Hin & Hfin & Hle). destruct (nlt N y m) eqn:E; simpl.
    + split; [apply in_or_app; simpl; auto|]. split.
      * now apply (nlt_ltinf_l O y m).
      * intros z Hz Nz. apply in_app_or in Hz as [Hz|[->|[]]].
        -- apply (nlt_nle O). apply (nlt_nle_trans O) with m; auto.
        -- now apply (nle_refl O).
    + split; [apply in_or_app; auto|]. split; [assumption|].
      intros z Hz Nz. apply in_app_or in Hz as [Hz|[->|[]]]; [auto|].
      apply (nle_of_nlt_false O); auto. now apply (ord_ltinf_nan O).
  - destruct (nltinf N y) eqn:E; simpl.
    + split; [apply in_or_app; simpl; auto|]. split; [assumption|].
      intros z Hz Nz. apply in_app_or in Hz as [Hz|[->|[]]].
      * apply (nle_top O); auto. now apply (ord_ltinf_nan O).
      * now apply (nle_refl O).
    + intros z Hz. apply in_app_or in Hz as [Hz|[->|[]]]; auto.
Qed.

Lemma fold_pymin_best l : forall seen o, IsBest seen o -> IsBest (seen ++ l) (fold_left (pymin N) l o).
Proof.
  induction l as [|y l IH]; simpl; intros seen o H.
  - now rewrite app_nil_r.
  - replace (seen ++ y :: l) with ((seen ++ [y]) ++ l) by now rewrite <- app_assoc.
    apply IH. now apply pymin_best.
Qed.

Lemma minima_scan_length l : forall o, List.length (minima_scan N o l) = List.length l.
Proof. induction l as [|y l IH]; simpl; intros; [|rewrite IH]; reflexivity. Qed.

Lemma minima_scan_nth l : forall o k b, nth_error (minima_scan N o l) k = Some b ->
  b = fold_left (pymin N) (firstn (S k) l) o.
Proof.
  induction l as [|y l IH]; simpl; intros o k b H.
  - destruct k; discriminate.
  - destruct k; simpl in *.
    + now inversion H.
    + apply IH in H. exact H.
Qed.

Lemma round_minima_length num_init row :
  List.length (round_minima N num_init row) = S (List.length row - slice_pos row num_init).
Proof.
  unfold round_minima. cbn [List.length]. f_equal. rewrite minima_scan_length.
  unfold slice_from. now rewrite skipn_length.
Qed.

Lemma round_minima_best num_init row k o :
  nth_error (round_minima N num_init row) k = Some o ->
  IsBest (firstn (slice_pos row num_init + k) row) o.
Proof.
  intros H.
  assert (E : o = fold_left (pymin N) (firstn (slice_pos row num_init + k) row) None).
  { rewrite firstn_add, fold_left_app. unfold round_minima in H. destruct k; cbn [nth_error] in H.
    - inversion H. reflexivity.
    - apply minima_scan_nth in H. exact H. }
  subst o. change (firstn (slice_pos row num_init + k) row) with ([] ++ firstn (slice_pos row num_init + k) row).
  apply fold_pymin_best. simpl. tauto.
Qed.

Lemma ext_best seen o v : IsBest seen o -> ext_elt N o = Ok v -> best_entry N seen v.
Proof.
  destruct o as [m|]; simpl; intros H E.
  - inversion E; subst. left. exact H.
  - destruct (ninf N) as [i|] eqn:Ei; [|discriminate]. inversion E; subst. right. auto.
Qed.

Lemma get_minimum_inv Y num_init out : get_minimum N Y num_init = Ok out ->
  (num_init < Z.of_nat (mcols Y))%Z /\
  Forall2 (fun row mi => mapM (ext_elt N) (round_minima N num_init row) = Ok mi) (mrows Y) (mo_minima out).
Proof.
  unfold get_minimum. destruct (Z.ltb_spec num_init (Z.of_nat (mcols Y))) as [L|]; simpl; [|discriminate].
  destruct (mapM _ (mrows Y)) as [minima|] eqn:E; simpl; [|discriminate].
  destruct minima as [|m0 ms]; [discriminate|]. intros H. inversion H; subst; simpl.
  split; [exact L|]. now apply mapM_ok_iff in E.
Qed.

Theorem get_minimum_best Y num_init out :
  mat_wf Y -> get_minimum N Y num_init = Ok out ->
  List.length (mo_minima out) = nrows Y /\
  forall i row mi, nth_error (mrows Y) i = Some row -> nth_error (mo_minima out) i = Some mi ->
    let p := slice_pos row num_init in
    List.length mi = (mcols Y - p + 1)%nat /\
    forall k v, nth_error mi k = Some v -> best_entry N (firstn (p + k) row) v.
Proof.
  intros WF H. apply get_minimum_inv in H as [L F]. split.
  - symmetry. now apply Forall2_len in F.
  - intros i row mi Hr Hm p.
    destruct (Forall2_nth i F Hm) as (row' & Hr' & E). rewrite Hr in Hr'. inversion Hr'; subst row'.
    assert (Lr : List.length row = mcols Y) by (apply WF; eapply nth_error_In; eauto).
    split.
    + apply mapM_ok_length in E. rewrite E, round_minima_length, Lr. unfold p. lia.
    + intros k v Hv. apply mapM_ok_iff in E. destruct (Forall2_nth k E Hv) as (o & Ho & Ev).
      apply round_minima_best in Ho. eapply ext_best; eauto.
Qed.

Lemma best_entry_mono seen y v w :
  best_entry N seen v -> best_entry N (seen ++ [y]) w -> nle N w v = true.
Proof.
  intros Hv Hw.
  assert (Nv : nisnan N v = false).
  { destruct Hv as [(A & B & C)|(A & B)]; [now apply (ord_ltinf_nan O)|now apply (ord_inf O)]. }
  destruct Hw as [(A & B & C)|(A & B)].
  - destruct Hv as [(A' & B' & C')|(A' & B')].
    + apply C; auto. apply in_or_app; auto.
    + destruct (ord_inf O A') as [I1 I2]. apply (nle_top O); auto. now apply (ord_ltinf_nan O).
  - destruct (ord_inf O A) as [I1 I2].
    destruct Hv as [(A' & B' & C')|(A' & B')].
    + rewrite B in B' by (apply in_or_app; auto). discriminate.
    + assert (v = w) by congruence. subst. now apply (nle_refl O).
Qed.

Theorem get_minimum_nonincreasing Y num_init out i mi k v w :
  mat_wf Y -> get_minimum N Y num_init = Ok out ->
  nth_error (mo_minima out) i = Some mi ->
  nth_error mi k = Some v -> nth_error mi (S k) = Some w -> nle N w v = true.
Proof.
  intros WF H Hi Hv Hw.
  destruct (get_minimum_best num_init WF H) as [Len B].
  assert (exists row, nth_error (mrows Y) i = Some row) as [row Hr].
  { destruct (nth_error (mrows Y) i) eqn:E; [eauto|].
    apply nth_error_None in E. assert (i < List.length (mo_minima out))%nat by (apply nth_error_Some; congruence).
    unfold nrows in Len. lia. }
  destruct (B i row mi Hr Hi) as [Lm Best].
  assert (Lr : List.length row = mcols Y) by (apply WF; eapply nth_error_In; eauto).
  assert (Hk : (S k < List.length mi)%nat) by (apply nth_error_Some; congruence).
  pose proof (Best _ _ Hv) as B1. pose proof (Best _ _ Hw) as B2.
  set (p := slice_pos row num_init) in *.
  replace (p + S k)%nat with (S (p + k)) in B2 by lia.
  destruct (@firstn_S_snoc _ row (p + k)%nat) as [y [_ E]]; [pose proof (slice_pos_le row num_init) as SP; unfold p in *; lia|].
  rewrite E in B2. eapply best_entry_mono; eauto.
Qed.

(** success: exactly when the assertion holds and there is a round (for carriers with an infinity) *)
Theorem get_minimum_succeeds Y num_init i :
  ninf N = Some i ->
  (is_ok (get_minimum N Y num_init) = true <-> (num_init < Z.of_nat (mcols Y))%Z /\ mrows Y <> []).
Proof.
  intros Hi. unfold get_minimum.
  assert (E : forall l, exists r, mapM (ext_elt N) l = Ok r).
  { induction l as [|[x|] l [r IH]]; simpl; [eauto| |]; rewrite ?Hi; rewrite IH; simpl; eauto. }
  assert (E2 : forall rows, exists r, mapM (fun by_ => mapM (ext_elt N) (round_minima N num_init by_)) rows = Ok r).
  { induction rows as [|x l [r IH]]; [cbn; eauto|]. cbn [mapM]. destruct (E (round_minima N num_init x)) as [a ->].
    cbn [rbind]. rewrite IH. cbn. eauto. }
  destruct (Z.ltb_spec num_init (Z.of_nat (mcols Y))) as [L|L]; cbn [assert_ rbind].
  - destruct (E2 (mrows Y)) as [r Er]. rewrite Er. cbn [rbind].
    pose proof (mapM_ok_length _ _ Er) as Len.
    destruct r; simpl; destruct (mrows Y); simpl in Len; try discriminate.
    + split; [discriminate|]. intros [_ H]. now contradiction H.
    + split; [|reflexivity]. intros _. split; [exact L|discriminate].
  - split; [discriminate|]. intros [H _]. lia.
Qed.

Lemma slice_pos_nonneg {A} (l : list A) k : (0 <= k <= Z.of_nat (List.length l))%Z -> slice_pos l k = Z.to_nat k.
Proof. intros H. unfold slice_pos. destruct (Z.ltb_spec k 0); [lia|]. lia. Qed.
End Minima.

(** ** Selection loops of utils_bo.py *)
Section Select.
Context (N : Num) (O : NumOrd N).

(** [Sel l o]: [o] is the first pair of [l] whose value is below infinity and minimal off NaN *)
Definition Sel {A} (l : list (A * N)) (o : option (A * N)) : Prop :=
  match o with
  | None => forall x v, In (x, v) l -> nltinf N v = false
  | Some (x, v) => exists i, nth_error l i = Some (x, v) /\ nltinf N v = true /\
      (forall j y w, nth_error l j = Some (y, w) -> nisnan N w = false -> nle N v w = true) /\
      (forall j y w, (j < i)%nat -> nth_error l j = Some (y, w) -> nle N w v = false)
  end.

Lemma Sel_snoc {A} (l : list (A * N)) o x v :
  Sel l o -> Sel (l ++ [(x, v)]) (if better N v (option_map snd o) then Some (x, v) else o).
Proof.
  destruct o as [[x0 v0]|]; cbn [option_map snd better].
  - intros (i & Hi & Hf & Hmin & Hfst).
    destruct (nlt N v v0) eqn:E.
    + exists (List.length l). repeat split.
      * rewrite nth_error_app2, Nat.sub_diag by lia. reflexivity.
      * now apply (nlt_ltinf_l O v v0).
      * intros j y w Hj Nw.
        destruct (Nat.lt_ge_cases j (List.length l)) as [L|L].
        -- rewrite nth_error_app1 in Hj by assumption. apply (nlt_nle O).
           apply (nlt_nle_trans O) with v0; eauto.
        -- rewrite nth_error_app2 in Hj by assumption.
           destruct (j - List.length l)%nat as [|k]; simpl in Hj; [|destruct k; discriminate].
           inversion Hj; subst. now apply (nle_refl O).
      * intros j y w Lj Hj. rewrite nth_error_app1 in Hj by assumption.
        destruct (nle N w v) eqn:Ew; [|reflexivity].
        assert (Nw : nisnan N w = false) by (apply (nle_true O) in Ew; tauto).
        pose proof (Hmin _ _ _ Hj Nw) as H1.
        pose proof (nle_nlt_trans O _ _ _ Ew E) as H2.
        apply (nle_not_nlt O) in H1. congruence.
    + exists i. repeat split; auto.
      * rewrite nth_error_app1; [assumption|]. apply nth_error_Some. congruence.
      * intros j y w Hj Nw.
        destruct (Nat.lt_ge_cases j (List.length l)) as [L|L].
        -- rewrite nth_error_app1 in Hj by assumption. eauto.
        -- rewrite nth_error_app2 in Hj by assumption.
           destruct (j - List.length l)%nat as [|k]; simpl in Hj; [|destruct k; discriminate].
           inversion Hj; subst. apply (nle_of_nlt_false O); auto. now apply (ord_ltinf_nan O).
      * intros j y w Lj Hj. apply (Hfst j y w Lj).
        assert (i < List.length l)%nat by (apply nth_error_Some; congruence).
        rewrite nth_error_app1 in Hj by lia. assumption.
  - intros H. destruct (nltinf N v) eqn:E.
    + exists (List.length l). repeat split; auto.
      * rewrite nth_error_app2, Nat.sub_diag by lia. reflexivity.
      * intros j y w Hj Nw.
        destruct (Nat.lt_ge_cases j (List.length l)) as [L|L].
        -- rewrite nth_error_app1 in Hj by assumption.
           apply (nle_top O); auto; [|now apply (ord_ltinf_nan O)].
           eapply H. eapply nth_error_In; eauto.
        -- rewrite nth_error_app2 in Hj by assumption.
           destruct (j - List.length l)%nat as [|k]; simpl in Hj; [|destruct k; discriminate].
           inversion Hj; subst. now apply (nle_refl O).
      * intros j y w Lj Hj. rewrite nth_error_app1 in Hj by assumption.
        destruct (nle N w v) eqn:Ew; [|reflexivity].
        pose proof (nle_ltinf O _ _ Ew E) as H1.
        rewrite (H y w) in H1; [discriminate|]. eapply nth_error_In; eauto.
    + intros y w Hin. apply in_app_or in Hin as [Hin|[Hin|[]]].
      * eauto.
      * now inversion Hin; subst.
Qed.

Lemma fold_better_Sel {A} (l : list (A * N)) : forall seen o, Sel seen o ->
  Sel (seen ++ l) (fold_left (fun b pa => if better N (snd pa) (option_map snd b) then Some pa else b) l o).
Proof.
  induction l as [|[x v] l IH]; cbn [fold_left]; intros seen o H.
  - now rewrite app_nil_r.
  - replace (seen ++ (x, v) :: l) with ((seen ++ [(x, v)]) ++ l) by now rewrite <- app_assoc.
    apply IH. cbn [snd]. now apply Sel_snoc.
Qed.

Lemma pick_best_Sel cands : Sel cands (pick_best N cands).
Proof.
  change cands with ([] ++ cands) at 1. apply fold_better_Sel. simpl. tauto.
Qed.

Lemma eval_loop_ok {A} (f : A -> res N) l : forall b r, eval_loop N f l b = Ok r ->
  exists vs, Forall2 (fun x v => f x = Ok v) l vs /\
    r = fold_left (fun b pa => if better N (snd pa) (option_map snd b) then Some pa else b) (combine l vs) b.
Proof.
  induction l as [|x l IH]; cbn [eval_loop]; intros b r H.
  - inversion H; subst. exists []. split; [constructor|reflexivity].
  - destruct (f x) as [v|] eqn:E; cbn [rbind] in H; [|discriminate].
    apply IH in H as (vs & F & ->). exists (v :: vs). split; [now constructor|reflexivity].
Qed.

Lemma eval_loop_total {A} (f : A -> res N) l : forall b vs, Forall2 (fun x v => f x = Ok v) l vs ->
  eval_loop N f l b =
  Ok (fold_left (fun b pa => if better N (snd pa) (option_map snd b) then Some pa else b) (combine l vs) b).
Proof.
  induction l as [|x l IH]; intros b vs F; inversion F; subst; cbn [eval_loop].
  - reflexivity.
  - match goal with H : f x = Ok _ |- _ => rewrite H end. cbn [rbind]. now apply IH.
Qed.

Lemma Sel_first_best {A} (l : list A) (vs : list N) x v :
  List.length l = List.length vs ->
  Sel (combine l vs) (Some (x, v)) -> exists i, nth_error l i = Some x /\ nth_error vs i = Some v /\ first_best N vs i.
Proof.
  intros Len (i & Hi & Hf & Hmin & Hfst). apply nth_error_combine in Hi as [H1 H2].
  assert (G : forall j w, nth_error vs j = Some w -> exists y, nth_error (combine l vs) j = Some (y, w)).
  { intros j w Hw. destruct (nth_error l j) as [y|] eqn:E.
    - exists y. now apply nth_error_combine.
    - apply nth_error_None in E. assert (j < List.length vs)%nat by (apply nth_error_Some; congruence). lia. }
  exists i. repeat split; auto. exists v. repeat split; auto.
  - intros j w Hw. destruct (G _ _ Hw) as [y Hy]. eauto.
  - intros j w Lj Hw. destruct (G _ _ Hw) as [y Hy]. eauto.
Qed.

Theorem by_evaluation_ok initials f x :
  get_best_acquisition_by_evaluation N initials f = Ok x ->
  exists vs i, Forall2 (fun c v => f c = Ok v) initials vs /\ nth_error initials i = Some x /\ first_best N vs i.
Proof.
  unfold get_best_acquisition_by_evaluation. intros H.
  destruct (eval_loop N f initials None) as [b|] eqn:E; cbn [rbind] in H; [|discriminate].
  apply eval_loop_ok in E as (vs & F & Eb). destruct b as [[y v]|]; [|discriminate]. inversion H; subst y.
  pose proof (pick_best_Sel) as PB.
  assert (S : Sel (combine initials vs) (Some (x, v))).
  { rewrite Eb. change (combine initials vs) with ([] ++ combine initials vs) at 1.
    apply fold_better_Sel. simpl. tauto. }
  apply Sel_first_best in S as (i & H1 & H2 & H3); [|now apply Forall2_len in F].
  exists vs, i. auto.
Qed.

Theorem by_evaluation_raises initials f vs :
  Forall2 (fun c v => f c = Ok v) initials vs ->
  (get_best_acquisition_by_evaluation N initials f = Raise TypeError <->
   forall v, In v vs -> nltinf N v = false).
Proof.
  intros F. unfold get_best_acquisition_by_evaluation.
  rewrite (eval_loop_total f None F). cbn [rbind].
  assert (S : Sel (combine initials vs)
     (fold_left (fun b pa => if better N (snd pa) (option_map snd b) then Some pa else b) (combine initials vs) None)).
  { change (combine initials vs) with ([] ++ combine initials vs) at 1.
    apply fold_better_Sel. simpl. tauto. }
  destruct (fold_left _ _ _) as [[x v]|].
  - split; [discriminate|]. intros H. exfalso.
    apply Sel_first_best in S as (i & _ & H2 & w & H3 & H4 & _); [|now apply Forall2_len in F].
    apply nth_error_In in H3. rewrite (H _ H3) in H4. discriminate.
  - split; [|reflexivity]. intros _ v Hv. apply in_nth_error in Hv as [i Hi].
    destruct (Forall2_nth i F Hi) as (c & Hc & _).
    eapply (S c). eapply nth_error_In. apply nth_error_combine. eauto.
Qed.

(** *** argmin *)
Lemma argmin_from_spec (l : list N) : forall (pre : list N) i besti best,
  i = List.length pre -> nth_error pre besti = Some best ->
  (nisnan N best = true -> forall j w, (j < besti)%nat -> nth_error pre j = Some w -> nisnan N w = false) ->
  (nisnan N best = false ->
     (forall j w, nth_error pre j = Some w -> nle N best w = true) /\
     (forall j w, (j < besti)%nat -> nth_error pre j = Some w -> nle N w best = false)) ->
  exists b, nth_error (pre ++ l) (argmin_from N l i besti best) = Some b /\
    (nisnan N b = true -> forall j w, (j < argmin_from N l i besti best)%nat -> nth_error (pre ++ l) j = Some w -> nisnan N w = false) /\
    (nisnan N b = false ->
     (forall j w, nth_error (pre ++ l) j = Some w -> nle N b w = true) /\
     (forall j w, (j < argmin_from N l i besti best)%nat -> nth_error (pre ++ l) j = Some w -> nle N w b = false)).
Proof.
  induction l as [|x l IH]; cbn [argmin_from]; intros pre i besti best Ei Hb Hnan Hord.
  - rewrite app_nil_r. exists best. auto.
  - assert (Lb : (besti < List.length pre)%nat) by (apply nth_error_Some; congruence).
    assert (SNOC : forall j w, nth_error (pre ++ [x]) j = Some w ->
              (j < List.length pre)%nat /\ nth_error pre j = Some w \/ j = List.length pre /\ w = x).
    { intros j w Hj. destruct (Nat.lt_ge_cases j (List.length pre)) as [L|L].
      - rewrite nth_error_app1 in Hj by assumption. auto.
      - rewrite nth_error_app2 in Hj by assumption.
        destruct (j - List.length pre)%nat as [|k] eqn:Ek; simpl in Hj; [|destruct k; discriminate].
        inversion Hj. right. split; [lia|auto]. }
    destruct (nisnan N best) eqn:Nb.
    + exists best. repeat split; auto; try congruence.
      * rewrite nth_error_app1 by assumption. assumption.
      * intros _ j w Lj Hj. rewrite nth_error_app1 in Hj by lia. eauto.
    + destruct (Hord eq_refl) as [Hmin Hfst].
      replace (pre ++ x :: l) with ((pre ++ [x]) ++ l) by now rewrite <- app_assoc.
      destruct (nisnan N x) eqn:Nx; [|destruct (nlt N x best) eqn:E].
      * apply IH; [rewrite app_length; simpl; lia| | |congruence].
        -- rewrite nth_error_app2, Ei, Nat.sub_diag by lia. reflexivity.
        -- intros _ j w Lj Hj. destruct (SNOC _ _ Hj) as [[L Hj']|[-> ->]]; [|lia].
           apply Hmin in Hj'. apply (nle_true O) in Hj'. tauto.
      * apply IH; [rewrite app_length; simpl; lia| |congruence|].
        -- rewrite nth_error_app2, Ei, Nat.sub_diag by lia. reflexivity.
        -- intros _. split.
           ++ intros j w Hj. destruct (SNOC _ _ Hj) as [[L Hj']|[-> ->]].
              ** apply (nlt_nle O). apply (nlt_nle_trans O) with best; eauto.
              ** now apply (nle_refl O).
           ++ intros j w Lj Hj. destruct (SNOC _ _ Hj) as [[L Hj']|[-> ->]]; [|lia].
              apply (nlt_not_nle O). apply (nlt_nle_trans O) with best; eauto.
      * apply IH; [rewrite app_length; simpl; lia| |congruence|].
        -- rewrite nth_error_app1; assumption.
        -- intros _. split.
           ++ intros j w Hj. destruct (SNOC _ _ Hj) as [[L Hj']|[-> ->]]; [eauto|].
              now apply (nle_of_nlt_false O).
           ++ intros j w Lj Hj. destruct (SNOC _ _ Hj) as [[L Hj']|[-> ->]]; [eauto|lia].
Qed.

Lemma npargmin_spec l i : npargmin N l = Ok i ->
  exists b, nth_error l i = Some b /\
    (nisnan N b = true -> forall j w, (j < i)%nat -> nth_error l j = Some w -> nisnan N w = false) /\
    (nisnan N b = false ->
     (forall j w, nth_error l j = Some w -> nle N b w = true) /\
     (forall j w, (j < i)%nat -> nth_error l j = Some w -> nle N w b = false)).
Proof.
  destruct l as [|x l]; cbn [npargmin]; [discriminate|]. intros H. inversion H; subst i. clear H.
  change (x :: l) with ([x] ++ l). apply argmin_from_spec; [reflexivity|reflexivity| |].
  - intros _ j w Lj. lia.
  - intros Nx. split.
    + intros [|[|j]] w Hj; try discriminate. inversion Hj; subst. now apply (nle_refl O).
    + intros j w Lj. lia.
Qed.

Theorem by_history_ok X Y x y :
  get_best_acquisition_by_history N X Y = Ok (x, y) ->
  exists i, nth_error (mrows X) i = Some x /\ nth_error Y i = Some y /\
    ((forall w, In w Y -> nisnan N w = false) ->
       (forall w, In w Y -> nle N y w = true) /\
       (forall j w, (j < i)%nat -> nth_error Y j = Some w -> nle N w y = false)) /\
    ((exists w, In w Y /\ nisnan N w = true) ->
       nisnan N y = true /\ forall j w, (j < i)%nat -> nth_error Y j = Some w -> nisnan N w = false).
Proof.
  unfold get_best_acquisition_by_history. destruct (Nat.eqb_spec (nrows X) (List.length Y)) as [L|]; cbn [assert_ rbind]; [|discriminate].
  destruct (npargmin N Y) as [i|] eqn:E; cbn [rbind]; [|discriminate].
  destruct (nth_error (mrows X) i) as [x'|] eqn:Ex; [|discriminate].
  destruct (nth_error Y i) as [y'|] eqn:Ey; [|discriminate]. intros H; inversion H; subst x' y'.
  apply npargmin_spec in E as (b & Hb & H1 & H2). assert (b = y) by congruence. subst b.
  exists i. repeat split; auto.
  - intros w Hw. apply in_nth_error in Hw as [j Hj].
    assert (Ny : nisnan N y = false) by (apply H0; eapply nth_error_In; eauto).
    destruct (H2 Ny) as [A _]. eauto.
  - assert (Ny : nisnan N y = false) by (apply H0; eapply nth_error_In; eauto).
    destruct (H2 Ny) as [_ B]. exact B.
  - destruct H0 as (w & Hw & Nw). destruct (nisnan N y) eqn:Ny; [reflexivity|].
    destruct (H2 eq_refl) as [A _]. apply in_nth_error in Hw as [j Hj].
    apply A in Hj. apply (nle_true O) in Hj. destruct Hj as (_ & Hj & _). congruence.
  - destruct H0 as (w & Hw & Nw). destruct (nisnan N y) eqn:Ny; [now apply H1|].
    destruct (H2 eq_refl) as [A _]. apply in_nth_error in Hw as [j Hj].
    apply A in Hj. apply (nle_true O) in Hj. destruct Hj as (_ & Hj & _). congruence.
Qed.

Theorem by_history_total X Y : nrows X = List.length Y -> Y <> [] ->
  exists x y, get_best_acquisition_by_history N X Y = Ok (x, y).
Proof.
  intros L Ne. unfold get_best_acquisition_by_history. rewrite L, Nat.eqb_refl. cbn [assert_ rbind].
  destruct (npargmin N Y) as [i|] eqn:E.
  - cbn [rbind]. pose proof (npargmin_spec _ E) as (b & Hb & _). rewrite Hb.
    destruct (nth_error (mrows X) i) eqn:Ex; [eauto|].
    apply nth_error_None in Ex. assert (i < List.length Y)%nat by (apply nth_error_Some; congruence).
    unfold nrows in L. lia.
  - destruct Y; [congruence|discriminate].
Qed.

(** *** next best acquisition *)
Lemma drop_dups_filter evaluated : forall cands,
  drop_dups N cands evaluated =
  filter (fun pa => forallb (fun c => negb (is_dup N c (fst pa))) evaluated) cands.
Proof.
  unfold drop_dups. induction evaluated as [|c ev IH]; cbn [fold_left forallb]; intros cands.
  - induction cands as [|a l IHl]; simpl; congruence.
  - rewrite IH. clear IH. induction cands as [|a l IHl]; [reflexivity|]. cbn [filter].
    destruct (is_dup N c (fst a)); cbn [negb andb filter]; [exact IHl|].
    destruct (forallb _ ev); [f_equal|]; exact IHl.
Qed.

Definition fresh (evaluated : list (list N)) (p : list N) : Prop :=
  forall c, In c evaluated -> nlt N (nnorm N (vsub N p c)) (nlit N 1 100000000) = false.

Lemma fresh_forallb evaluated p :
  forallb (fun c => negb (is_dup N c p)) evaluated = true <-> fresh evaluated p.
Proof.
  rewrite forallb_forall. unfold fresh, is_dup, tol_dup. split; intros H c Hc; specialize (H c Hc).
  - now destruct (nlt N _ _).
  - now rewrite H.
Qed.

(** indices of the fresh candidates, in order *)
Definition fresh_pairs (evaluated : list (list N)) (cands : list (list N * N)) :=
  filter (fun pa => forallb (fun c => negb (is_dup N c (fst pa))) evaluated) cands.

Lemma filter_nth {A} (P : A -> bool) (l : list A) i x :
  nth_error (filter P l) i = Some x ->
  exists k, nth_error l k = Some x /\ P x = true /\
    (forall j y, (j < k)%nat -> nth_error l j = Some y -> P y = true ->
       exists i', (i' < i)%nat /\ nth_error (filter P l) i' = Some y).
Proof.
  revert i; induction l as [|a l IH]; intros i; simpl.
  - destruct i; discriminate.
  - destruct (P a) eqn:Pa.
    + destruct i; simpl.
      * intros H; inversion H; subst. exists 0%nat. repeat split; auto. intros j y Lj. lia.
      * intros H. destruct (IH _ H) as (k & Hk & Px & Hj). exists (S k). repeat split; auto.
        intros [|j] y Lj Hy Py; simpl in Hy.
        -- inversion Hy; subst. exists 0%nat. split; [lia|reflexivity].
        -- destruct (Hj j y) as (i' & Li' & E); auto; [lia|]. exists (S i'). split; [lia|exact E].
    + intros H. destruct (IH _ H) as (k & Hk & Px & Hj). exists (S k). repeat split; auto.
      intros [|j] y Lj Hy Py; simpl in Hy.
      * congruence.
      * destruct (Hj j y) as (i' & Li' & E); auto; [lia|]. eauto.
Qed.

Theorem next_best_fresh points acqs evaluated p :
  get_next_best_acquisition N points acqs evaluated = Ok (Some p) ->
  (exists k v, nth_error (mrows points) k = Some p /\ nth_error acqs k = Some v /\
     fresh (mrows evaluated) p /\ nltinf N v = true /\
     (forall j q w, nth_error (mrows points) j = Some q -> nth_error acqs j = Some w ->
        fresh (mrows evaluated) q -> nisnan N w = false -> nle N v w = true) /\
     (forall j q w, (j < k)%nat -> nth_error (mrows points) j = Some q -> nth_error acqs j = Some w ->
        fresh (mrows evaluated) q -> nle N w v = false))
  \/ ((forall q, In q (mrows points) -> ~ fresh (mrows evaluated) q) /\
      exists pre, mrows evaluated = pre ++ [p]).
Proof.
  unfold get_next_best_acquisition.
  destruct (Nat.eqb_spec (nrows points) (List.length acqs)) as [L|]; cbn [assert_ rbind]; [|discriminate].
  destruct (Nat.eqb (mcols points) (mcols evaluated)); cbn [assert_ rbind]; [|discriminate].
  rewrite drop_dups_filter. set (ev := mrows evaluated).
  set (P := fun pa : list N * N => forallb (fun c => negb (is_dup N c (fst pa))) ev).
  destruct (filter P (combine (mrows points) acqs)) as [|c0 cs] eqn:EF.
  - intros H. right. split.
    + intros q Hq Fq. apply in_nth_error in Hq as [k Hk].
      destruct (nth_error acqs k) as [v|] eqn:Ev.
      * assert (Hin : In (q, v) (filter P (combine (mrows points) acqs))).
        { apply filter_In. split.
          - eapply nth_error_In. apply nth_error_combine. eauto.
          - unfold P. cbn [fst]. now apply fresh_forallb. }
        rewrite EF in Hin. destruct Hin.
      * apply nth_error_None in Ev. assert (k < nrows points)%nat by (apply nth_error_Some; congruence).
        lia.
    + destruct (rev ev) as [|q r] eqn:Er; [discriminate|]. inversion H; subst q.
      exists (rev r). rewrite <- (rev_involutive ev), Er. reflexivity.
  - rewrite <- EF. intros H. inversion H as [H1]. clear H. left.
    pose proof (pick_best_Sel (filter P (combine (mrows points) acqs))) as S.
    destruct (pick_best N (filter P (combine (mrows points) acqs))) as [[p' v]|]; [|discriminate].
    cbn [option_map fst] in H1. inversion H1; subst p'. clear H1.
    destruct S as (i & Hi & Hf & Hmin & Hfst).
    destruct (filter_nth P _ i Hi) as (k & Hk & Pk & Hj).
    apply nth_error_combine in Hk as [Hk1 Hk2].
    exists k, v. repeat split; auto.
    + apply fresh_forallb. exact Pk.
    + intros j q w Hq Hw Fq Nw.
      assert (Hin : In (q, w) (filter P (combine (mrows points) acqs))).
      { apply filter_In. split.
        - eapply nth_error_In. apply nth_error_combine. eauto.
        - unfold P. cbn [fst]. now apply fresh_forallb. }
      apply in_nth_error in Hin as [i' Hi']. eauto.
    + intros j q w Lj Hq Hw Fq.
      destruct (Hj j (q, w)) as (i' & Li' & Hi'); auto.
      * apply nth_error_combine. auto.
      * unfold P. cbn [fst]. now apply fresh_forallb.
      * eauto.
Qed.

Theorem next_best_none points acqs evaluated :
  nrows points = List.length acqs -> mcols points = mcols evaluated ->
  (get_next_best_acquisition N points acqs evaluated = Ok None <->
   (exists q, In q (mrows points) /\ fresh (mrows evaluated) q) /\
   (forall j q w, nth_error (mrows points) j = Some q -> nth_error acqs j = Some w ->
      fresh (mrows evaluated) q -> nltinf N w = false)).
Proof.
  intros L1 L2. unfold get_next_best_acquisition.
  rewrite L1, L2, !Nat.eqb_refl. cbn [assert_ rbind].
  rewrite drop_dups_filter. set (ev := mrows evaluated).
  set (P := fun pa : list N * N => forallb (fun c => negb (is_dup N c (fst pa))) ev).
  pose proof (pick_best_Sel (filter P (combine (mrows points) acqs))) as S.
  assert (MEM : forall j q w, nth_error (mrows points) j = Some q -> nth_error acqs j = Some w -> fresh ev q ->
            In (q, w) (filter P (combine (mrows points) acqs))).
  { intros j q w Hq Hw Fq. apply filter_In. split.
    - eapply nth_error_In. apply nth_error_combine. eauto.
    - unfold P. cbn [fst]. now apply fresh_forallb. }
  destruct (filter P (combine (mrows points) acqs)) as [|c0 cs] eqn:EF.
  - split.
    + destruct (rev ev); discriminate.
    + intros [(q & Hq & Fq) _]. exfalso. apply in_nth_error in Hq as [k Hk].
      destruct (nth_error acqs k) as [v|] eqn:Ev.
      * exact (MEM _ _ _ Hk Ev Fq).
      * apply nth_error_None in Ev. assert (k < nrows points)%nat by (apply nth_error_Some; congruence). lia.
  - destruct (pick_best N (c0 :: cs)) as [[p v]|] eqn:EP; cbn [option_map].
    + split; [discriminate|]. intros [_ H]. exfalso.
      destruct S as (i & Hi & Hf & _).
      apply nth_error_In in Hi. rewrite <- EF in Hi. apply filter_In in Hi as [Hi Pi].
      apply in_nth_error in Hi as [j Hj]. apply nth_error_combine in Hj as [H1 H2].
      rewrite (H j p v) in Hf; auto; [discriminate|]. apply fresh_forallb. exact Pi.
    + split; [|reflexivity]. intros _. split.
      * destruct c0 as [q w]. assert (Hin : In (q, w) (filter P (combine (mrows points) acqs))) by (rewrite EF; left; reflexivity).
        apply filter_In in Hin as [Hin Pq]. exists q. split; [|apply fresh_forallb; exact Pq].
        apply in_combine_l in Hin. exact Hin.
      * intros j q w Hq Hw Fq. eapply (S q). eauto.
Qed.

(** *** bounds *)
Theorem check_points_in_bounds_iff points bounds :
  mat_wf points ->
  (check_points_in_bounds N points bounds = Ok points <->
   mcols points = List.length bounds /\
   forall p, In p (mrows points) ->
     Forall2 (fun b x => nle N (fst b) x = true /\ nle N x (snd b) = true) bounds p)
  /\ (check_points_in_bounds N points bounds <> Ok points ->
      check_points_in_bounds N points bounds = Raise AssertionError).
Proof.
  intros WF. unfold check_points_in_bounds.
  assert (G : forall (bs : list (N * N)) p, List.length bs = List.length p ->
     (forallb (fun bx => nle N (fst (fst bx)) (snd bx)) (combine bs p) = true /\
      forallb (fun bx => nle N (snd bx) (snd (fst bx))) (combine bs p) = true <->
      Forall2 (fun b x => nle N (fst b) x = true /\ nle N x (snd b) = true) bs p)).
  { induction bs as [|b bs IH]; intros [|x p] L; simpl in L; try discriminate.
    - simpl. split; intros; auto.
    - injection L as L. cbn [combine forallb fst snd]. rewrite !andb_true_iff. specialize (IH p L). split.
      + intros [[A B] [C D]]. constructor; [auto|]. apply IH; auto.
      + intros H. inversion H; subst. destruct IH as [_ IH]. destruct IH; auto. tauto. }
  destruct (Nat.eqb_spec (mcols points) (List.length bounds)) as [L|L]; cbn [assert_ rbind].
  2:{ split; [|reflexivity]. split; [discriminate|]. intros [H _]. congruence. }
  destruct (forallb _ (mrows points)) eqn:E1; cbn [assert_ rbind].
  2:{ split; [|reflexivity]. split; [discriminate|]. intros [_ H]. exfalso.
      assert (E : forallb (fun p => forallb (fun bx => nle N (fst (fst bx)) (snd bx)) (combine bounds p)) (mrows points) = true).
      { apply forallb_forall. intros p Hp. apply (G bounds p); auto. rewrite <- L. symmetry. now apply WF. }
      congruence. }
  destruct (forallb _ (mrows points)) eqn:E2 in |- *; cbn [assert_ rbind].
  2:{ split; [|reflexivity]. split; [discriminate|]. intros [_ H]. exfalso.
      assert (E : forallb (fun p => forallb (fun bx => nle N (snd bx) (snd (fst bx))) (combine bounds p)) (mrows points) = true).
      { apply forallb_forall. intros p Hp. apply (G bounds p); auto. rewrite <- L. symmetry. now apply WF. }
      congruence. }
  split; [|congruence]. split; [|reflexivity]. intros _. split; [exact L|].
  intros p Hp. rewrite forallb_forall in E1, E2. apply G; [rewrite <- L; symmetry; now apply WF|]. auto.
Qed.
End Select.
