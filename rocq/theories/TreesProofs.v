(** Growing trees: what the leaves hold, depth, routing. *)
From Verif Require Import Base Lists Num NumLaws NumFin Monad TreesModel TreesSpec.
From Coq Require Import List ZArith Bool Arith Permutation Lia.
Set Implicit Arguments. Unset Strict Implicit.

Lemma massert_inv {W E A} (b : bool) (k : unit -> M W E A) w w' t r :
  bind (lift (assert_ b)) k w = (w', t, Ok r) -> b = true /\ exists t', k tt w = (w', t', Ok r).
Proof.
  intros H. apply bind_ok in H. destruct H as (w1 & t1 & a & t2 & H1 & H2 & _).
  apply lift_ok in H1. destruct H1 as (H1 & -> & _). unfold assert_ in H1. destruct b; [|discriminate H1].
  destruct a. eauto.
Qed.

Lemma mmapM_ok {W E A B} (f : A -> M W E B) l : forall w w' t r,
  mmapM f l w = (w', t, Ok r) -> Forall2 (fun a b => exists w1 w2 t', f a w1 = (w2, t', Ok b)) l r.
Proof.
  induction l as [|a l IH]; cbn [mmapM]; intros w w' t r H.
  - apply ret_ok in H. destruct H as (<- & _). constructor.
  - apply bind_ok in H. destruct H as (w1 & t1 & b & t2 & H1 & H2 & _).
    apply bind_ok in H2. destruct H2 as (w2 & t3 & bs & t4 & H2 & H3 & _).
    apply ret_ok in H3. destruct H3 as (<- & _). constructor; eauto.
Qed.

Section Proofs.
Context (N : Num) (O : NumOrd N) (F : NumFin N) (W : Type).
Context (choice : nat -> nat -> bool -> W -> W * res (list nat)).
Context (uniform : N -> N -> W -> W * res N).
Context (trunc : N -> option Z).
Notation row := (row N).

(** ** candidates *)
Lemma insert_unique_in x l c : In c (insert_unique N x l) -> c = x \/ In c l.
Proof.
  induction l as [|y r IH]; cbn; [intros [<-|[]]; auto|].
  repeat match goal with |- context [if ?b then _ else _] => destruct b end; cbn; intuition.
Qed.
Lemma fold_unique_in l : forall acc c, In c (fold_left (fun acc x => insert_unique N x acc) l acc) -> In c l \/ In c acc.
Proof.
  induction l as [|x l IH]; cbn; intros acc c H; [auto|].
  apply IH in H. destruct H as [H|H]; [auto|]. apply insert_unique_in in H. intuition.
Qed.
Lemma np_unique_in l c : In c (np_unique N l) -> In c l.
Proof. intros H. apply fold_unique_in in H. destruct H as [H|[]]. exact H. Qed.

Lemma column_nth S d col : column N S d = Ok col -> forall r, In r S -> nth_error (fst r) d = Some (coord N d r).
Proof.
  unfold column. intros H r Hr. apply mapM_ok_iff in H. apply in_nth_error in Hr. destruct Hr as [i Hi].
  destruct (Forall2_nth_l i H Hi) as (y & _ & E). destruct (nth_error (fst r) d) as [v|] eqn:E2; [|discriminate E].
  unfold coord. erewrite nth_error_nth; eauto.
Qed.
Lemma column_in S d col v : column N S d = Ok col -> In v col -> exists r, In r S /\ nth_error (fst r) d = Some v.
Proof.
  unfold column. intros H Hv. apply mapM_ok_iff in H. apply in_nth_error in Hv. destruct Hv as [i Hi].
  destruct (Forall2_nth i H Hi) as (r & Hr & E). exists r. split; [apply in_nth_error; eauto|].
  destruct (nth_error (fst r) d); [|discriminate E]. apply Ok_inj in E. now subst.
Qed.

Context (UC : uniform_contract N uniform).

Lemma column_fin S d col v : rows_finite N F S -> column N S d = Ok col -> In v col -> fin F v.
Proof.
  intros HS HC Hv. destruct (column_in HC Hv) as (r & Hr & E).
  assert (H := HS r Hr). rewrite Forall_forall in H. apply H. eapply nth_error_In; eauto.
Qed.

(** a candidate separates the rows by a test on a coordinate that all have *)
Definition good_cand (S : list row) (c : cand N) : Prop :=
  exists i v sc col, c = (i, v, sc, split_left_right N S i v) /\ column N S i = Ok col /\ nisnan N v = false.

Lemma keep_better_good S cur c : (forall b, cur = Some b -> good_cand S b) -> good_cand S c ->
  forall b, keep_better N cur c = Some b -> good_cand S b.
Proof.
  intros HC Hc b. unfold keep_better. destruct cur as [b0|].
  - destruct (nlt N _ _); intros E; inversion E; subst; auto.
  - destruct (nltinf N _); intros E; inversion E; subst; auto.
Qed.

Lemma split_value_good S d col cands i v : rows_finite N F S -> column N S d = Ok col -> cands = np_unique N col ->
  split_value N cands col i = Ok v -> nisnan N v = false.
Proof.
  intros HS HC -> H. unfold split_value in H. destruct (Nat.ltb _ _).
  - destruct (skipn i (np_unique N col)) as [|a [|b q]] eqn:E; try discriminate H. apply Ok_inj in H. subst v.
    assert (I : forall x, In x (a :: b :: q) -> fin F x).
    { intros x Hx. eapply column_fin; eauto. apply np_unique_in. rewrite <- E in Hx.
      rewrite <- (firstn_skipn i (np_unique N col)). apply in_or_app. auto. }
    apply (fin_mid F); apply I; cbn; auto.
  - destruct col as [|x col]; [discriminate H|]. apply Ok_inj in H. subst x.
    eapply (fin_notnan F), column_fin; eauto. now left.
Qed.

Lemma split_deterministic_good S d w w' t c : rows_finite N F S ->
  split_deterministic N W choice S d w = (w', t, Ok (Some c)) -> good_cand S c.
Proof.
  intros HS H. unfold split_deterministic in H.
  apply bind_ok in H. destruct H as (w1 & t1 & col & t2 & H1 & H & _). apply lift_ok in H1. destruct H1 as (HC & -> & _).
  apply bind_ok in H. destruct H as (w2 & t3 & idx & t4 & H1 & H & _).
  apply bind_ok in H. destruct H as (w3 & t5 & vals & t6 & H2 & H & _). apply lift_ok in H2. destruct H2 as (HV & -> & _).
  apply ret_ok in H. destruct H as (H & _).
  assert (G : forall v, In v vals -> nisnan N v = false).
  { intros v Hv. apply in_nth_error in Hv. destruct Hv as [k Hk]. apply mapM_ok_iff in HV.
    destruct (Forall2_nth k HV Hk) as (i & _ & E). eapply split_value_good; eauto. }
  clear - H G HC.
  assert (L : forall vals cur, (forall v, In v vals -> nisnan N v = false) -> (forall b, cur = Some b -> good_cand S b) ->
             forall b, fold_left (fun cur v => keep_better N cur (split_at N S d v)) vals cur = Some b -> good_cand S b).
  { clear - HC. induction vals as [|v vals IH]; cbn [fold_left]; intros cur G HB b E; [auto|].
    eapply (IH _ (fun v' H' => G v' (or_intror H'))); [|exact E]. apply keep_better_good; [exact HB|].
    exists d, v, (mse N (split_left_right N S d v)), col. split; [reflexivity|]. split; [exact HC|]. apply G. now left. }
  eapply (L vals None G); [discriminate|exact H].
Qed.

Lemma split_random_good S d w w' t c : rows_finite N F S ->
  split_random N W uniform S d w = (w', t, Ok (Some c)) -> good_cand S c.
Proof.
  intros HS H. unfold split_random in H.
  apply bind_ok in H. destruct H as (w1 & t1 & col & t2 & H1 & H & _). apply lift_ok in H1. destruct H1 as (HC & -> & _).
  apply bind_ok in H. destruct H as (w2 & t3 & v & t4 & H1 & H & _).
  apply ret_ok in H. destruct H as (H & _). inversion H; subst c.
  exists d, v, (mse N (split_left_right N S d v)), col. split; [reflexivity|]. split; [exact HC|].
  destruct (Nat.ltb _ _).
  - apply bind_ok in H1. destruct H1 as (wa & ta & lo & tb & _ & H1 & _).
    apply bind_ok in H1. destruct H1 as (wb & tc & hi & td & _ & H1 & _). apply ext_ok in H1. destruct H1 as (H1 & _).
    eapply UC; eauto.
  - apply lift_ok in H1. destruct H1 as (H1 & _). destruct col as [|x col]; [discriminate H1|]. apply Ok_inj in H1. subst x.
    eapply (fin_notnan F), column_fin; eauto. now left.
Qed.

Lemma split_features_good S rl fs : rows_finite N F S -> forall cur w w' t c,
  (forall b, cur = Some b -> good_cand S b) ->
  split_features N W choice uniform S rl fs cur w = (w', t, Ok (Some c)) -> good_cand S c.
Proof.
  intros HS. induction fs as [|d fs IH]; cbn [split_features]; intros cur w w' t c HB H.
  - apply ret_ok in H. destruct H as (H & _). auto.
  - apply bind_ok in H. destruct H as (w1 & t1 & oc & t2 & H1 & H & _).
    eapply IH; [|exact H]. intros b E. destruct oc as [c'|]; cbn [better_feature] in E; [|auto].
    eapply keep_better_good; [exact HB| |exact E].
    destruct rl; [eapply split_random_good|eapply split_deterministic_good]; eauto.
Qed.

Lemma split_node_good nd S nf rl w w' t c : rows_finite N F S ->
  split_node N W choice uniform nd S nf rl w = (w', t, Ok (Some c)) -> good_cand S c /\ S <> [].
Proof.
  intros HS H. unfold split_node in H. apply massert_inv in H. destruct H as (L & t' & H).
  apply bind_ok in H. destruct H as (w1 & t1 & fs & t2 & _ & H & _). split.
  - eapply split_features_good; [exact HS| |exact H]. discriminate.
  - intros ->. discriminate L.
Qed.

(** ** the two sides *)
Lemma filter_partition (S : list row) i v col : rows_finite N F S -> column N S i = Ok col -> nisnan N v = false ->
  Permutation S (fst (split_left_right N S i v) ++ snd (split_left_right N S i v)) /\
  Forall (goes_left N i v) (fst (split_left_right N S i v)) /\ Forall (goes_right N i v) (snd (split_left_right N S i v)).
Proof.
  intros HS HC Hv. cbn [fst snd split_left_right].
  assert (D : forall r, In r S -> nth_error (fst r) i = Some (coord N i r) /\ nle N v (coord N i r) = negb (nlt N (coord N i r) v)).
  { intros r Hr. assert (E := column_nth HC Hr). split; [exact E|].
    assert (NN : nisnan N (coord N i r) = false).
    { apply (fin_notnan F). assert (G := HS r Hr). rewrite Forall_forall in G. apply G. eapply nth_error_In; eauto. }
    destruct (nlt N (coord N i r) v) eqn:L; cbn.
    - apply (nlt_not_nle O), L.
    - now apply (nle_of_nlt_false O). }
  split; [|split; apply Forall_forall; intros r Hr; apply filter_In in Hr; destruct Hr as [Hr T]; exists (coord N i r);
           (split; [apply (D r Hr)|exact T])].
  clear HS HC. induction S as [|r S IH]; [constructor|].
  destruct (D r (or_introl eq_refl)) as (_ & E). assert (P := IH (fun r' H' => D r' (or_intror H'))).
  cbn [filter]. rewrite E. destruct (nlt N (coord N i r) v); cbn.
  - now constructor.
  - rewrite P at 1. apply Permutation_middle.
Qed.

Lemma rows_finite_sub S S' : rows_finite N F S -> (forall r, In r S' -> In r S) -> rows_finite N F S'.
Proof. intros H I r Hr. apply H, I, Hr. Qed.

(** ** the grown tree *)
Definition grown_ok (m : Z) (rem : nat) (S : list row) (t : tree N) : Prop :=
  Holds N t S /\ (depth N t <= Datatypes.S rem)%nat /\ below_root N m t /\ (exists i v a b, t = TNode i v a b).

Lemma Holds_nonempty t s : Holds N t s -> s <> [].
Proof.
  intros H. induction H as [l Hl|i v a b s1 s2 s Ha IHa Hb IHb Fl Fr P|i v l s Hs D P]; auto.
  - intros ->. apply Permutation_nil in P. apply app_eq_nil in P. now destruct P.
  - intros ->. apply Permutation_nil in P. auto.
Qed.

Lemma both_sides i v (r : row) : goes_left N i v r -> goes_right N i v r -> False.
Proof.
  intros (c & E1 & L) (c' & E2 & L'). rewrite E1 in E2. inversion E2; subst c'. apply (nlt_not_nle O) in L. congruence.
Qed.

Lemma Holds_perm t s : Holds N t s -> forall s', Holds N t s' -> Permutation s s'.
Proof.
  intros H. induction H as [l Hl|i v a b s1 s2 s Ha IHa Hb IHb Fl Fr P|i v l s Hs D P]; intros s' H'.
  - inversion H'; subst. reflexivity.
  - inversion H' as [|? ? ? ? s1' s2' ? Ha' Hb' _ _ P'|? ? l ? Hs D' P']; subst.
    + rewrite P, P', (IHa _ Ha'), (IHb _ Hb'). reflexivity.
    + assert (P1 := IHa _ (H_leaf N l Hs)). assert (P2 := IHb _ (H_leaf N l Hs)).
      destruct l as [|r l]; [congruence|]. exfalso.
      rewrite Forall_forall in Fl, Fr. apply (@both_sides i v r); [apply Fl, (Permutation_in _ (Permutation_sym P1))|apply Fr, (Permutation_in _ (Permutation_sym P2))]; now left.
  - inversion H' as [|? ? ? ? s1' s2' ? Ha' Hb' Fl Fr P'|? ? l' ? Hs' D' P']; subst.
    + inversion Ha'; subst. inversion Hb'; subst. destruct s2' as [|r s2']; [congruence|]. exfalso.
      inversion Fl; inversion Fr; subst. eapply both_sides; eassumption.
    + now rewrite P, P'.
Qed.

Lemma Holds_leaf_inv l s : Holds N (TLeaf l) s -> s = l.
Proof. intros H. now inversion H. Qed.

Definition child_ok (m : Z) (rem : nat) (S : list row) (t : tree N) : Prop :=
  Holds N t S /\ (depth N t <= rem)%nat /\ below_root N m t /\
  match t with TLeaf _ => True | _ => (m < Z.of_nat (List.length S))%Z end.

Lemma child_leaf m rem S : S <> [] -> child_ok m rem S (TLeaf S).
Proof. intros H. split; [now constructor|]. cbn. auto with arith. Qed.

Lemma child_node m rem S t : grown_ok m rem S t -> (m < Z.of_nat (List.length S))%Z -> child_ok m (Datatypes.S rem) S t.
Proof.
  intros (H & D & B & i & v & a & b & E) L. subst t. split; [exact H|]. split; [exact D|]. split; [exact B|exact L].
Qed.

Lemma grown_degenerate m rem S i v l r : Permutation S (l ++ r) -> Forall (goes_left N i v) l -> Forall (goes_right N i v) r ->
  l = [] \/ r = [] -> S <> [] -> grown_ok m rem S (TNode i v (TLeaf (l ++ r)) (TLeaf (l ++ r))).
Proof.
  intros P FL FR D NE. split; [|split; [cbn; lia|split; [cbn; auto|eauto]]].
  apply H_same; [|destruct D as [-> | ->]; [right; exact FR|left; now rewrite app_nil_r]|exact P].
  intros E. rewrite E in P. apply Permutation_sym, Permutation_nil in P. auto.
Qed.

Lemma grown_node m rem S i v a b l r : Permutation S (l ++ r) -> Forall (goes_left N i v) l -> Forall (goes_right N i v) r ->
  child_ok m rem l a -> child_ok m rem r b -> grown_ok m rem S (TNode i v a b).
Proof.
  intros P FL FR (Ha & Da & Ba & La) (Hb & Db & Bb & Lb). split; [eapply H_node; eassumption|].
  split; [cbn [depth]; lia|]. split; [|eauto]. cbn [below_root].
  split; [|split; [|split; assumption]]; intros s Hs.
  - rewrite (Permutation_length (Holds_perm Hs Ha)). exact La.
  - rewrite (Permutation_length (Holds_perm Hs Hb)). exact Lb.
Qed.

Lemma split_ok nd nf rl m rem : forall S c w w' t tr, rows_finite N F S -> good_cand S c -> S <> [] ->
  grow_split N W choice uniform nd nf rl m rem (Some c) w = (w', t, Ok tr) -> grown_ok m rem S tr.
Proof.
  induction rem as [|rem IH]; intros S c w w' t tr HS (i & v & sc & col & -> & HC & Hv) NE H;
    destruct (filter_partition HS HC Hv) as (P & FL & FR); destruct (split_left_right N S i v) as [l r]; cbn [fst snd] in P, FL, FR;
    cbn [grow_split] in H; (destruct l as [|a l]; [apply ret_ok in H; destruct H as (<- & _); now apply (grown_degenerate m _ P FL FR (or_introl eq_refl))|]);
    (destruct r as [|b r]; [apply ret_ok in H; destruct H as (<- & _); now apply (grown_degenerate m _ P FL FR (or_intror eq_refl))|]).
  - apply ret_ok in H. destruct H as (<- & _). apply (grown_node P FL FR); now apply child_leaf.
  - assert (Hl : rows_finite N F (a :: l)).
    { apply (rows_finite_sub HS). intros x Hx. apply (Permutation_in _ (Permutation_sym P)), in_or_app; auto. }
    assert (Hr : rows_finite N F (b :: r)).
    { apply (rows_finite_sub HS). intros x Hx. apply (Permutation_in _ (Permutation_sym P)), in_or_app; auto. }
    apply bind_ok in H. destruct H as (w1 & t1 & ta & t2 & Ha & H & _).
    apply bind_ok in H. destruct H as (w2 & t3 & tb & t4 & Hb & H & _).
    apply ret_ok in H. destruct H as (<- & _).
    assert (G : forall s ch wa wb tt0, s <> [] -> rows_finite N F s ->
      (if (Z.of_nat (List.length s) <=? m)%Z then ret (TLeaf s)
       else bind (split_node N W choice uniform nd s nf rl) (fun c => grow_split N W choice uniform nd nf rl m rem c)) wa = (wb, tt0, Ok ch) ->
      child_ok m (Datatypes.S rem) s ch).
    { clear Ha Hb. intros s ch wa wb tt0 Ns Fs H. destruct (Z.leb_spec (Z.of_nat (List.length s)) m) as [Le|Lt].
      - apply ret_ok in H. destruct H as (<- & _). now apply child_leaf.
      - apply bind_ok in H. destruct H as (w3 & t5 & [c|] & t6 & Hc & H & _).
        + apply child_node; [|exact Lt]. destruct (split_node_good Fs Hc) as (G & _). eapply IH; eauto.
        + destruct rem; cbn [grow_split] in H; inversion H. }
    apply (grown_node P FL FR); eapply G; eauto; discriminate.
Qed.

(** ** one tree *)
Lemma take_rows_in {A} (l : list A) idx r x : take_rows l idx = Ok r -> In x r -> In x l.
Proof.
  intros H Hx. apply mapM_ok_iff in H. apply in_nth_error in Hx. destruct Hx as [k Hk].
  destruct (Forall2_nth k H Hk) as (i & _ & E). destruct (nth_error l i) eqn:E2; [|discriminate E].
  apply Ok_inj in E. subst. eapply nth_error_In; eauto.
Qed.
Lemma take_rows_nth {A} (l : list A) idx r k i : take_rows l idx = Ok r -> nth_error idx k = Some i ->
  exists x, nth_error r k = Some x /\ nth_error l i = Some x.
Proof.
  intros H Hi. apply mapM_ok_iff in H. destruct (Forall2_nth_l k H Hi) as (x & Hx & E). exists x. split; [exact Hx|].
  destruct (nth_error l i) eqn:E2; [|discriminate E]. apply Ok_inj in E. now subst.
Qed.

Lemma subsample_ok X Y ratio rep w w' t boot : subsample N W choice trunc X Y ratio rep w = (w', t, Ok boot) ->
  List.length (mrows X) = List.length Y /\ exists k idx, trunc (nmul N (nofnat N (nrows X)) ratio) = Some k /\ (0 <= k)%Z /\
    choice (nrows X) (Z.to_nat k) rep w = (w', Ok idx) /\
    List.length boot = List.length idx /\
    forall j i, nth_error idx j = Some i -> exists x y, nth_error boot j = Some (x, y) /\ nth_error (mrows X) i = Some x /\ nth_error Y i = Some y.
Proof.
  unfold subsample. intros H. apply massert_inv in H. destruct H as (E & t1 & H). apply massert_inv in H. destruct H as (_ & t2 & H).
  apply Nat.eqb_eq in E. split; [exact E|]. destruct (trunc _) as [k|]; [|inversion H].
  destruct (Z.ltb_spec k 0) as [|K]; [inversion H|].
  apply bind_ok in H. destruct H as (w1 & t3 & idx & t4 & H1 & H & _). apply ext_ok in H1. destruct H1 as (H1 & _).
  apply bind_ok in H. destruct H as (w2 & t5 & X_ & t6 & H2 & H & _). apply lift_ok in H2. destruct H2 as (H2 & -> & _).
  apply bind_ok in H. destruct H as (w3 & t7 & Y_ & t8 & H3 & H & _). apply lift_ok in H3. destruct H3 as (H3 & -> & _).
  apply ret_ok in H. destruct H as (<- & -> & _). exists k, idx. split; [reflexivity|]. split; [exact K|]. split; [exact H1|].
  split. { etransitivity; [apply combine_length|]. rewrite (mapM_ok_length _ _ H2), (mapM_ok_length _ _ H3). lia. }
  intros j i Hi. destruct (take_rows_nth H2 Hi) as (x & Hx & Ex). destruct (take_rows_nth H3 Hi) as (y & Hy & Ey).
  exists x, y. split; [|auto]. clear - Hx Hy. revert j Y_ Hx Hy. induction X_ as [|a X_ IH]; intros [|j] [|b Y_]; cbn; try discriminate.
  - intros E1 E2; inversion E1; inversion E2; reflexivity.
  - apply IH.
Qed.

Lemma subsample_drawn X Y ratio rep w w' t boot : subsample N W choice trunc X Y ratio rep w = (w', t, Ok boot) -> drawn_from N X Y boot.
Proof.
  intros H r Hr. apply subsample_ok in H. destruct H as (_ & k & idx & _ & _ & _ & L & D).
  apply in_nth_error in Hr. destruct Hr as [j Hj].
  destruct (nth_error idx j) as [i|] eqn:E.
  - destruct (D j i E) as (x & y & Hb & Hx & Hy). rewrite Hj in Hb. inversion Hb; subst. exists i. auto.
  - apply nth_error_None in E. assert (j < List.length boot)%nat by (apply nth_error_Some; congruence). lia.
Qed.

Lemma grow_tree_ok X Y dm m ratio rep nf rl w w' t boot tr :
  (forall x, In x (mrows X) -> Forall (fin F) x) ->
  grow_tree N W choice uniform trunc X Y dm m ratio rep nf rl w = (w', t, Ok (boot, tr)) ->
  drawn_from N X Y boot /\ grown_ok m (Z.to_nat (dm - 1)) boot tr.
Proof.
  intros HX H. unfold grow_tree in H.
  apply bind_ok in H. destruct H as (w1 & t1 & b & t2 & H1 & H & _).
  apply bind_ok in H. destruct H as (w2 & t3 & [c|] & t4 & H2 & H & _).
  2:{ apply bind_ok in H. destruct H as (w3 & t5 & tr' & t6 & H3 & H & _). destruct (Z.to_nat (dm - 1)); inversion H3. }
  apply bind_ok in H. destruct H as (w3 & t5 & tr' & t6 & H3 & H & _).
  apply ret_ok in H. destruct H as (H & _). inversion H; subst b tr'.
  assert (D := subsample_drawn H1). split; [exact D|].
  assert (FB : rows_finite N F boot).
  { intros r Hr. destruct (D r Hr) as (i & Hi & _). apply HX. eapply nth_error_In; eauto. }
  destruct (split_node_good FB H2) as (G & NE). eapply split_ok; eauto.
Qed.

(** ** routing *)
Lemma route_member t s : Holds N t s -> forall r, In r s -> exists l, route N (fst r) t = Some l /\ In r l.
Proof.
  intros H. induction H as [l Hl|i v a b s1 s2 s Ha IHa Hb IHb Fl Fr P|i v l s Hs D P]; intros r Hr; cbn [route].
  - eauto.
  - apply (Permutation_in _ P), in_app_or in Hr. rewrite Forall_forall in Fl, Fr. destruct Hr as [Hr|Hr].
    + destruct (Fl r Hr) as (c & -> & ->). now apply IHa.
    + destruct (Fr r Hr) as (c & -> & L). rewrite (nle_not_nlt O _ _ L). now apply IHb.
  - apply (Permutation_in _ P) in Hr.
    assert (E : exists c, nth_error (fst r) i = Some c).
    { rewrite !Forall_forall in D. destruct D as [D|D]; destruct (D r Hr) as (c & E & _); eauto. }
    destruct E as (c & ->). destruct (nlt N c v); eauto.
Qed.

Lemma route_leaf x t l : route N x t = Some l -> In l (leaves N t).
Proof.
  induction t as [q|i v a IHa b IHb]; cbn [route leaves]; intros H.
  - inversion H; subst. now left.
  - destruct (nth_error x i); [|discriminate H]. apply in_or_app. destruct (nlt N _ _); auto.
Qed.

Lemma leaves_held t s : Holds N t s -> forall l, In l (leaves N t) -> l <> [] /\ forall r, In r l -> In r s.
Proof.
  intros H. induction H as [l Hl|i v a b s1 s2 s Ha IHa Hb IHb Fl Fr P|i v l s Hs D P]; intros q Hq; cbn [leaves] in Hq.
  - destruct Hq as [<-|[]]. auto.
  - apply in_app_or in Hq. destruct Hq as [Hq|Hq]; [destruct (IHa q Hq) as (A & B)|destruct (IHb q Hq) as (A & B)];
      (split; [exact A|]; intros r Hr; apply (Permutation_in _ (Permutation_sym P)), in_or_app; auto).
  - destruct Hq as [<-|[<-|[]]]; (split; [exact Hs|]; intros r Hr; now apply (Permutation_in _ (Permutation_sym P))).
Qed.

Lemma subtree_sides t s : Holds N t s -> forall i v a b, In (TNode i v a b) (subtrees N t) ->
  (exists l, a = TLeaf l /\ b = TLeaf l /\ (Forall (goes_left N i v) l \/ Forall (goes_right N i v) l)) \/
  (Forall (Forall (goes_left N i v)) (leaves N a) /\ Forall (Forall (goes_right N i v)) (leaves N b)).
Proof.
  intros H. induction H as [l Hl|i v a b s1 s2 s Ha IHa Hb IHb Fl Fr P|i v l s Hs D P]; intros j u c d Hq; cbn [subtrees] in Hq.
  - destruct Hq as [Hq|[]]. discriminate Hq.
  - destruct Hq as [Hq|Hq].
    + inversion Hq; subst. right. rewrite Forall_forall in Fl, Fr. split; apply Forall_forall; intros l Hl; apply Forall_forall; intros r Hr.
      * apply Fl. now apply (leaves_held Ha Hl).
      * apply Fr. now apply (leaves_held Hb Hl).
    + apply in_app_or in Hq. destruct Hq; [now apply IHa|now apply IHb].
  - destruct Hq as [Hq|[Hq|[Hq|[]]]]; try discriminate Hq. inversion Hq; subst. left. eauto.
Qed.

Lemma route_some nd t s : Holds N t s -> (forall r, In r s -> List.length (fst r) = nd) -> forall x, List.length x = nd -> exists l, route N x t = Some l.
Proof.
  intros H. induction H as [l Hl|i v a b s1 s2 s Ha IHa Hb IHb Fl Fr P|i v l s Hs D P]; intros HW x Hx; cbn [route].
  - eauto.
  - assert (W1 : forall r, In r s1 -> List.length (fst r) = nd) by (intros r Hr; apply HW, (Permutation_in _ (Permutation_sym P)), in_or_app; auto).
    assert (W2 : forall r, In r s2 -> List.length (fst r) = nd) by (intros r Hr; apply HW, (Permutation_in _ (Permutation_sym P)), in_or_app; auto).
    assert (E : exists c, nth_error x i = Some c).
    { assert (NE := Holds_nonempty Ha). destruct s1 as [|r s1]; [congruence|]. inversion Fl as [|? ? (c & Ec & _) _]; subst.
      destruct (nth_error x i) eqn:E2; [eauto|]. apply nth_error_None in E2.
      assert (i < List.length (fst r))%nat by (apply nth_error_Some; congruence). specialize (W1 r (or_introl eq_refl)). lia. }
    destruct E as (c & ->). destruct (nlt N c v); auto.
  - assert (E : exists c, nth_error x i = Some c).
    { destruct l as [|r l]; [congruence|]. destruct (nth_error x i) eqn:E2; [eauto|]. apply nth_error_None in E2.
      assert (K : exists c, nth_error (fst r) i = Some c) by (destruct D as [D|D]; inversion D as [|? ? (c & Ec & _) _]; eauto). destruct K as (c & Ec).
      assert (i < List.length (fst r))%nat by (apply nth_error_Some; congruence).
      assert (List.length (fst r) = nd) by (apply HW, (Permutation_in _ (Permutation_sym P)); now left). lia. }
    destruct E as (c & ->). destruct (nlt N c v); eauto.
Qed.

Lemma predict_route x t s : Holds N t s ->
  match route N x t with
  | Some l => predict_by_tree N x t = Ok (nmean N (map snd l), nstd N 0 (map snd l))
  | None => predict_by_tree N x t = Raise IndexError
  end.
Proof.
  intros H. assert (NE : forall l, In l (leaves N t) -> l <> []) by (intros l Hl; apply (leaves_held H Hl)). clear H.
  induction t as [q|i v a IHa b IHb]; cbn [route predict_by_tree leaves] in *.
  - destruct q; [now destruct (NE [] (or_introl eq_refl))|]. reflexivity.
  - destruct (nth_error x i); [|reflexivity]. destruct (nlt N _ _); [apply IHa|apply IHb]; intros l Hl; apply NE, in_or_app; auto.
Qed.
End Proofs.
