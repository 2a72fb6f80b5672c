(** Sums grouped by input; kernels of inputs with the same mutual distances; inputs without a constant coordinate. *)
From Verif Require Import Base Num UtilsSpec UtilsRProofs HypsModel CovModel KernelSpec CovSpec CovMx CovProofs CovProofs2 GPModel GPSpec PredSpec PredUnits RidgeSpec.
From Coq Require Import List ZArith Bool String Reals Lra Lia Arith ClassicalEpsilon.
Import ListNotations.
Open Scope R_scope.
Set Implicit Arguments.
Unset Asymmetric Patterns.

(** ** sums grouped by input *)
Lemma Rsum_cons a l : Rsum (a :: l) = a + Rsum l.
Proof. reflexivity. Qed.
Definition is_at (x : nat -> elem) (e : elem) (i : nat) : bool := if excluded_middle_informative (x i = e) then true else false.
Lemma is_at_true x e i : is_at x e i = true <-> x i = e.
Proof. unfold is_at. destruct (excluded_middle_informative _); split; congruence. Qed.
Lemma sum_split (p : nat -> bool) (f : nat -> R) l :
  Rsum (map f l) = Rsum (map f (filter p l)) + Rsum (map f (filter (fun i => negb (p i)) l)).
Proof.
  induction l as [|a l IH]; [cbn; lra|]. cbn [map filter]. rewrite Rsum_cons, IH. destruct (p a); cbn [negb map]; rewrite Rsum_cons; lra.
Qed.
Lemma sum_zero (f : nat -> R) l : (forall i, In i l -> f i = 0) -> Rsum (map f l) = 0.
Proof.
  induction l as [|a l IH]; intros H; [reflexivity|]. cbn [map]. rewrite Rsum_cons, IH, (H a); [lra|now left|]. intros i I. apply H. now right.
Qed.
Lemma sum_scal c (f : nat -> R) l : Rsum (map (fun i => c * f i) l) = c * Rsum (map f l).
Proof. induction l as [|a l IH]; [cbn; lra|]. cbn [map]. rewrite !Rsum_cons, IH. lra. Qed.
Lemma filter_le (p : nat -> bool) l : (List.length (filter p l) <= List.length l)%nat.
Proof. induction l as [|a l IH]; [cbn; lia|]. cbn. destruct (p a); cbn; lia. Qed.
Lemma grouped (x : nat -> elem) (w : nat -> R) (g : elem -> R) :
  forall k l, (List.length l <= k)%nat -> (forall e, Rsum (map (fun i => if is_at x e i then w i else 0) l) = 0) ->
  Rsum (map (fun i => g (x i) * w i) l) = 0.
Proof.
  induction k as [|k IH]; intros l Hl H; [destruct l; [reflexivity|cbn in Hl; lia]|]. destruct l as [|a l]; [reflexivity|].
  set (L := a :: l) in *. rewrite (sum_split (is_at x (x a)) _ L).
  assert (E1 : Rsum (map (fun i => g (x i) * w i) (filter (is_at x (x a)) L)) = 0).
  { rewrite <- (Rmult_0_r (g (x a))), <- (H (x a)), (sum_split (is_at x (x a)) (fun i => if is_at x (x a) i then w i else 0)), (@sum_zero _ (filter (fun i => negb _) L)).
    - rewrite Rplus_0_r, <- sum_scal. apply Rsum_map_ext. intros i I. apply filter_In in I. destruct I as [_ I]. rewrite I. apply is_at_true in I. now rewrite I.
    - intros i I. apply filter_In in I. destruct I as [_ I]. now apply negb_true_iff in I; rewrite I. }
  rewrite E1, Rplus_0_l. apply IH.
  - cbn [filter]. unfold L. cbn [filter]. destruct (is_at x (x a) a) eqn:Ea; [cbn [negb]|exfalso; rewrite (proj2 (is_at_true x (x a) a) eq_refl) in Ea; discriminate].
    cbn in Hl. pose proof (filter_le (fun i => negb (is_at x (x a) i)) l). lia.
  - intros e. destruct (excluded_middle_informative (e = x a)) as [->|NE].
    + apply sum_zero. intros i I. apply filter_In in I. destruct I as [_ I]. apply negb_true_iff in I. now rewrite I.
    + eapply eq_trans; [|exact (H e)]. rewrite (sum_split (is_at x (x a)) (fun i => if is_at x e i then w i else 0) L), (@sum_zero _ (filter (is_at x (x a)) L)); [now rewrite Rplus_0_l|].
      intros i I. apply filter_In in I. destruct I as [_ I]. apply is_at_true in I. destruct (is_at x e i) eqn:Ee; [|reflexivity]. apply is_at_true in Ee. congruence.
Qed.
Lemma total_at X Y e : total_out X Y e = Rsum (map (fun i => if is_at (elem_nth X) e i then out Y i else 0) (seq 0 (alen X))).
Proof.
  unfold total_out, is_at. apply Rsum_map_ext. intros i _. destruct (excluded_middle_informative _); reflexivity.
Qed.
Lemma sum_minus (f g : nat -> R) l : Rsum (map (fun i => f i - g i) l) = Rsum (map f l) - Rsum (map g l).
Proof. induction l as [|a l IH]; [cbn; lra|]. cbn [map]. rewrite !Rsum_cons, IH. lra. Qed.
Lemma totals_sum X Y Y' (g : elem -> R) : (forall e, total_out X Y e = total_out X Y' e) ->
  Rsum (map (fun i => g (elem_nth X i) * (out Y' i - out Y i)) (seq 0 (alen X))) = 0.
Proof.
  intros H. apply (@grouped (elem_nth X) (fun i => out Y' i - out Y i) g _ _ (Nat.le_refl _)). intros e. specialize (H e). rewrite !total_at in H.
  eapply eq_trans; [|exact (Rminus_diag_eq _ _ (eq_sym H))]. rewrite <- sum_minus. apply Rsum_map_ext. intros i _. destruct (is_at _ _ _); lra.
Qed.

(** ** the same mutual distances *)
Lemma nth_list {A} (l : list A) dv : l = map (fun i => nth i l dv) (seq 0 (List.length l)).
Proof. symmetry. apply map_nth_seq. Qed.
Lemma set_average_nth {T} (k : T -> T -> R) xs ys dv : set_average k xs ys =
  Rsum (map (fun i => Rsum (map (fun j => k (nth i xs dv) (nth j ys dv)) (seq 0 (List.length ys)))) (seq 0 (List.length xs)))
  / (INR (List.length xs) * INR (List.length ys)).
Proof.
  unfold set_average. f_equal. rewrite (nth_list xs dv) at 1. rewrite map_map. apply Rsum_map_ext. intros i _.
  rewrite (nth_list ys dv) at 1. now rewrite map_map.
Qed.
Lemma is_point name X d pr : profile_of name = Some pr -> fits name X d -> forall i, (i < alen X)%nat -> exists x, elem_nth X i = EPoint x.
Proof.
  intros P [W F] i Hi. destruct X as [x|l s0 d0].
  - rewrite elem_nth_point by exact Hi. now eexists.
  - destruct F as [F _]. exfalso. apply F. destruct (set_profile_of name) as [q|] eqn:Q; [|reflexivity]. destruct (set_profile Q) as [Q' _]. congruence.
Qed.
Lemma cov_congruent name ls d ls' d' s K K' e1 e2 e1' e2' : cov_of name ls s d = Some K -> cov_of name ls' s d' = Some K' ->
  (profile_of name <> None -> exists x y x' y', e1 = EPoint x /\ e2 = EPoint y /\ e1' = EPoint x' /\ e2' = EPoint y') ->
  congruent ls d ls' d' e1 e2 e1' e2' -> K' e1' e2' = K e1 e2.
Proof.
  unfold cov_of. intros E E' HP (L1 & L2 & H). destruct (profile_of name) as [pr|] eqn:P.
  - injection E as <-. injection E' as <-. destruct (HP ltac:(discriminate)) as (x & y & x' & y' & -> & -> & -> & ->).
    cbn [points point List.length nth] in *. unfold base_kernel. specialize (H 0%nat 0%nat ltac:(lia) ltac:(lia)). cbn [nth] in H. now rewrite H.
  - destruct (set_profile_of name) as [pr|]; [|discriminate]. injection E as <-. injection E' as <-.
    rewrite !(set_average_nth _ _ _ ([] : list R)), <- L1, <- L2. f_equal. apply Rsum_map_ext. intros i Hi. apply in_seq in Hi.
    apply Rsum_map_ext. intros j Hj. apply in_seq in Hj. unfold base_kernel. rewrite (H i j) by lia. reflexivity.
Qed.
Lemma elems_length X : List.length (elems X) = alen X.
Proof. destruct X; cbn; [unfold nrows|]; now rewrite map_length. Qed.
Lemma isometric_alen ls d ls' d' X Xs X' Xs' : isometric ls d ls' d' (elems X ++ elems Xs) (elems X' ++ elems Xs') -> alen X' = alen X ->
  alen Xs' = alen Xs.
Proof. intros [H _] E. rewrite !app_length, !elems_length in H. lia. Qed.
Lemma isometric_twice ls d ls' d' l l' : isometric ls d ls' d' l l' -> isometric ls d ls' d' (l ++ l) (l' ++ l').
Proof.
  intros [L H]. split; [rewrite !app_length; lia|]. intros a b Ha Hb. rewrite app_length in Ha, Hb.
  assert (N : forall a, (a < List.length l + List.length l)%nat -> exists k, (k < List.length l)%nat /\
    nth a (l ++ l) (EPoint []) = nth k l (EPoint []) /\ nth a (l' ++ l') (EPoint []) = nth k l' (EPoint [])).
  { intros q Hq. destruct (Nat.lt_ge_cases q (List.length l)) as [Q|Q].
    - exists q. split; [exact Q|]. rewrite !app_nth1 by lia. now split.
    - exists (q - List.length l)%nat. split; [lia|]. rewrite !app_nth2 by lia. rewrite <- L. now split. }
  destruct (N a Ha) as (ka & Ka & -> & ->), (N b Hb) as (kb & Kb & -> & ->). now apply H.
Qed.
Section Iso.
Variables (name : string) (ls : pyval NumR) (d : nat) (ls' : pyval NumR) (d' : nat) (s : R) (K K' : elem -> elem -> R).
Hypotheses (EK : cov_of name ls s d = Some K) (EK' : cov_of name ls' s d' = Some K').
Lemma iso_cov X Xs X' Xs' : fits name X d -> fits name Xs d -> fits name X' d' -> fits name Xs' d' -> alen X' = alen X ->
  isometric ls d ls' d' (elems X ++ elems Xs) (elems X' ++ elems Xs') ->
  (forall i j, (i < alen X)%nat -> (j < alen X)%nat -> K' (elem_nth X' i) (elem_nth X' j) = K (elem_nth X i) (elem_nth X j)) /\
  (forall i j, (i < alen X)%nat -> (j < alen Xs)%nat -> K' (elem_nth X' i) (elem_nth Xs' j) = K (elem_nth X i) (elem_nth Xs j)) /\
  (forall i j, (i < alen Xs)%nat -> (j < alen Xs)%nat -> K' (elem_nth Xs' i) (elem_nth Xs' j) = K (elem_nth Xs i) (elem_nth Xs j)).
Proof.
  intros F Fs F' Fs' LX I. pose proof (isometric_alen _ _ _ _ I LX) as LS. destruct I as [_ I].
  assert (N1 : forall i, (i < alen X)%nat -> nth i (elems X ++ elems Xs) (EPoint []) = elem_nth X i)
    by (intros i Hi; unfold elem_nth; now rewrite app_nth1 by now rewrite elems_length).
  assert (N2 : forall i, (i < alen X)%nat -> nth i (elems X' ++ elems Xs') (EPoint []) = elem_nth X' i)
    by (intros i Hi; unfold elem_nth; now rewrite app_nth1 by (rewrite elems_length; lia)).
  assert (N3 : forall i, nth (alen X + i) (elems X ++ elems Xs) (EPoint []) = elem_nth Xs i)
    by (intros i; unfold elem_nth; rewrite app_nth2 by (rewrite elems_length; lia); f_equal; rewrite elems_length; lia).
  assert (N4 : forall i, nth (alen X + i) (elems X' ++ elems Xs') (EPoint []) = elem_nth Xs' i)
    by (intros i; unfold elem_nth; rewrite app_nth2 by (rewrite elems_length; lia); f_equal; rewrite elems_length; lia).
  rewrite app_length, !elems_length in I.
  assert (PT : forall A (B : arr NumR) dd, fits name A dd -> profile_of name <> None -> forall i, (i < alen A)%nat -> exists x, elem_nth A i = EPoint x).
  { intros A B dd FA NP. destruct (profile_of name) as [pr|] eqn:P; [|congruence]. exact (is_point P FA). }
  split; [|split]; intros i j Hi Hj.
  - apply (@cov_congruent name ls d ls' d' s K K' _ _ _ _ EK EK').
    + intros NP. destruct (PT _ X _ F NP i Hi) as [x ->], (PT _ X _ F NP j Hj) as [y ->], (PT _ X _ F' NP i ltac:(lia)) as [x' ->], (PT _ X _ F' NP j ltac:(lia)) as [y' ->].
      now exists x, y, x', y'.
    + rewrite <- (N1 i), <- (N1 j), <- (N2 i), <- (N2 j) by assumption. apply I; lia.
  - apply (@cov_congruent name ls d ls' d' s K K' _ _ _ _ EK EK').
    + intros NP. destruct (PT _ X _ F NP i Hi) as [x ->], (PT _ X _ Fs NP j Hj) as [y ->], (PT _ X _ F' NP i ltac:(lia)) as [x' ->], (PT _ X _ Fs' NP j ltac:(lia)) as [y' ->].
      now exists x, y, x', y'.
    + rewrite <- (N1 i), <- (N2 i), <- (N3 j), <- (N4 j) by assumption. apply I; lia.
  - apply (@cov_congruent name ls d ls' d' s K K' _ _ _ _ EK EK').
    + intros NP. destruct (PT _ X _ Fs NP i Hi) as [x ->], (PT _ X _ Fs NP j Hj) as [y ->], (PT _ X _ Fs' NP i ltac:(lia)) as [x' ->], (PT _ X _ Fs' NP j ltac:(lia)) as [y' ->].
      now exists x, y, x', y'.
    + rewrite <- (N3 i), <- (N3 j), <- (N4 i), <- (N4 j) by assumption. apply I; lia.
Qed.
End Iso.

(** ** a constant coordinate *)
Lemma without_len {A} k (x : list A) : (k < List.length x)%nat -> List.length (without k x) = pred (List.length x).
Proof. intros H. unfold without. rewrite app_length, firstn_length, skipn_length. lia. Qed.
Lemma nth_without {A} k (x : list A) dv i : (k < List.length x)%nat -> nth i (without k x) dv = nth (if (i <? k)%nat then i else S i) x dv.
Proof.
  intros H. unfold without. destruct (Nat.ltb_spec i k) as [L|L].
  - rewrite app_nth1 by (rewrite firstn_length; lia). clear H. revert i k L. induction x as [|a x IH]; intros i k L; [now rewrite firstn_nil|].
    destruct k; [lia|]. cbn. destruct i; [reflexivity|]. apply IH. lia.
  - rewrite app_nth2 by (rewrite firstn_length; lia). rewrite firstn_length, Nat.min_l by lia.
    transitivity (nth (S k + (i - k)) x dv); [|f_equal; lia]. generalize (S k) as q. intros q. clear. revert q. induction x as [|a x IH]; intros q.
    + rewrite skipn_nil. destruct (i - k)%nat, q; reflexivity.
    + destruct q; [reflexivity|]. cbn. apply IH.
Qed.
Lemma sum_skip (f : nat -> R) k d : (k < d)%nat -> f k = 0 ->
  Rsum (map f (seq 0 d)) = Rsum (map (fun i => f (if (i <? k)%nat then i else S i)) (seq 0 (pred d))).
Proof.
  intros H Z. replace d with (k + S (d - S k))%nat at 1 by lia. rewrite seq_app, map_app, Rsum_app. cbn [seq map]. rewrite Rsum_cons. cbn [plus]. rewrite Z.
  replace (pred d) with (k + (d - S k))%nat by lia. rewrite seq_app, map_app, Rsum_app. cbn [plus]. rewrite Rplus_0_l. f_equal.
  - apply Rsum_map_ext. intros i Hi. apply in_seq in Hi. destruct (Nat.ltb_spec i k); [reflexivity|lia].
  - rewrite <- seq_shift, map_map. apply Rsum_map_ext. intros i Hi. apply in_seq in Hi. destruct (Nat.ltb_spec i k); [lia|reflexivity].
Qed.
Lemma without_dist ls d k v x y : (k < d)%nat -> List.length x = d -> List.length y = d -> match ls with PArr _ l => List.length l = d | PFloat _ _ => True | POther _ _ => False end ->
  nth k x 0 = v -> nth k y 0 = v ->
  scaled_dist (ls_at (without_ls k ls)) (pred d) (without k x) (without k y) = scaled_dist (ls_at ls) d x y.
Proof.
  intros H Hx Hy Hl Vx Vy. unfold scaled_dist, scaled_sq. f_equal.
  symmetry. etransitivity; [apply (@sum_skip _ k d H)|symmetry].
  - cbn zeta. rewrite Vx, Vy. unfold Rdiv. rewrite Rminus_eq_0. ring.
  - apply Rsum_map_ext. intros i _. cbn zeta. rewrite !nth_without by lia.
    replace (ls_at (without_ls k ls) i) with (ls_at ls (if (i <? k)%nat then i else S i)); [reflexivity|].
    destruct ls as [| |l]; cbn; try reflexivity; try contradiction. symmetry. apply nth_without. eapply Nat.lt_le_trans; [exact H|]. apply Nat.eq_le_incl. symmetry. exact Hl.
Qed.
Lemma without_alen k X : alen (without_arr k X) = alen X.
Proof. destruct X as [x|l s0 d0]; cbn; [unfold nrows; cbn|]; now rewrite map_length. Qed.
Lemma without_elems k X : elems (without_arr k X) = map (without_elem k) (elems X).
Proof. destruct X as [x|l s0 d0]; cbn; rewrite !map_map; reflexivity. Qed.
Lemma without_fits name X d k : (k < d)%nat -> fits name X d -> fits name (without_arr k X) (pred d).
Proof.
  intros Hk [W F]. destruct X as [x|l s0 d0].
  - destruct F as [F1 F2]. split; [|split; [exact F1|exact (f_equal pred F2)]]. intros r Hr. cbn in Hr. apply in_map_iff in Hr as [x0 [<- Hx]]. cbn.
    specialize (W _ Hx). rewrite without_len; [f_equal; exact W|]. eapply Nat.lt_le_trans; [exact Hk|]. apply Nat.eq_le_incl. symmetry. etransitivity; [exact W|exact F2].
  - destruct F as (F1 & -> & F3). split; [|split; [exact F1|split; [reflexivity|exact F3]]]. intros r Hr. apply in_map_iff in Hr as [x0 [<- Hx]].
    destruct (W _ Hx) as (W1 & W2 & W3). repeat split.
    + intros q Hq. cbn in *. apply in_map_iff in Hq as [x1 [<- Hq]]. specialize (W1 _ Hq). rewrite without_len; [f_equal; exact W1|].
      eapply Nat.lt_le_trans; [exact Hk|]. apply Nat.eq_le_incl. symmetry. etransitivity; [exact W1|exact W3].
    + unfold nrows in *. cbn. now rewrite map_length.
    + cbn. now f_equal.
Qed.
Lemma fits_len name X d e x : fits name X d -> In e (elems X) -> In x (points e) -> List.length x = d.
Proof.
  intros [W F] I J. destruct X as [m|l s0 d0]; cbn in I; apply in_map_iff in I as [r [<- I]]; cbn in J.
  - destruct J as [<-|[]]. destruct F as [_ F]. etransitivity; [exact (W _ I)|exact F].
  - destruct (W _ I) as (W1 & _ & W3). destruct F as (_ & -> & _). etransitivity; [exact (W1 _ J)|exact W3].
Qed.
Lemma points_without k e : points (without_elem k e) = map (without k) (points e).
Proof. now destruct e. Qed.
Lemma isometric_without name ls d k v X Xs : (k < d)%nat -> fits name X d -> fits name Xs d ->
  match ls with PArr _ l => List.length l = d | PFloat _ _ => True | POther _ _ => False end ->
  constant_at k v (elems X ++ elems Xs) ->
  isometric ls d (without_ls k ls) (pred d) (elems X ++ elems Xs) (elems (without_arr k X) ++ elems (without_arr k Xs)).
Proof.
  intros Hk F Fs Hl C. rewrite !without_elems, <- map_app. set (l := elems X ++ elems Xs) in *.
  assert (LE : forall e x, In e l -> In x (points e) -> List.length x = d).
  { intros e x I J. apply in_app_or in I as [I|I]; [exact (@fits_len name X d e x F I J)|exact (@fits_len name Xs d e x Fs I J)]. }
  split; [now rewrite map_length|]. intros a b Ha Hb.
  rewrite !(@nth_map_in _ _ (without_elem k) l (EPoint []) (EPoint [])) by assumption.
  pose proof (nth_In l (EPoint []) Ha) as Ia. pose proof (nth_In l (EPoint []) Hb) as Ib.
  set (ea := nth a l (EPoint [])) in *. set (eb := nth b l (EPoint [])) in *. split; [|split]; rewrite ?points_without, ?map_length; try reflexivity.
  intros i j Hi Hj. rewrite !(@nth_map_in _ _ (without k) _ [] []) by assumption. symmetry.
  apply (@without_dist ls d k v); try assumption; [eapply LE; [exact Ia|]|eapply LE; [exact Ib|]|eapply C; [exact Ia|]|eapply C; [exact Ib|]]; now apply nth_In.
Qed.
(** one lengthscale for all coordinates: only Euclidean distances matter *)
Lemma scaled_one (l : R) d x y : l <> 0 -> scaled_sq (ls_at (PFloat NumR l)) d x y = scaled_sq (fun _ => 1) d x y / (l * l).
Proof.
  intros N. unfold scaled_sq. transitivity (/ (l * l) * Rsum (map (fun i => let e := (nth i x 0 - nth i y 0) / 1 in e * e) (seq 0 d))); [|unfold Rdiv; ring].
  rewrite <- Rsum_map_scal. apply Rsum_map_ext. intros i _. cbn. field. exact N.
Qed.
Lemma scaled_dist_one (l : R) d x y : l <> 0 -> scaled_dist (ls_at (PFloat NumR l)) d x y = scaled_dist (ls_at (PFloat NumR 1)) d x y / Rabs l.
Proof.
  intros N. unfold scaled_dist. rewrite scaled_one by exact N. rewrite sqrt_div_alt by (apply Rsqr_pos_lt; exact N).
  f_equal. apply sqrt_Rsqr_abs.
Qed.
Lemma isometric_scaled (l : R) d d' a b : l <> 0 -> isometric (PFloat NumR 1) d (PFloat NumR 1) d' a b -> isometric (PFloat NumR l) d (PFloat NumR l) d' a b.
Proof.
  intros N [L H]. split; [exact L|]. intros i j Hi Hj. destruct (H i j Hi Hj) as (L1 & L2 & D). split; [exact L1|]. split; [exact L2|].
  intros p q Hp Hq. rewrite !(@scaled_dist_one l) by exact N. f_equal. now apply D.
Qed.
