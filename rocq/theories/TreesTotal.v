(** In exact arithmetic growing and predicting never fail, whatever the random choices. *)
From Verif Require Import Base Lists Num NumLaws NumFin Monad TreesModel TreesSpec TreesProofs.
From Coq Require Import List ZArith Bool Arith Permutation Reals Lia.
Set Implicit Arguments. Unset Strict Implicit.

Definition succeeds {W E A} (m : M W E A) (P : A -> Prop) : Prop := forall w, exists w' t a, m w = (w', t, Ok a) /\ P a.

Lemma suc_ret {W E A} (a : A) (P : A -> Prop) : P a -> succeeds (@ret W E A a) P.
Proof. intros H w. exists w, [], a. auto. Qed.
Lemma suc_lift {W E A} (r : res A) (P : A -> Prop) : (exists a, r = Ok a /\ P a) -> succeeds (@lift W E A r) P.
Proof. intros (a & -> & H) w. exists w, [], a. auto. Qed.
Lemma suc_bind {W E A B} (m : M W E A) (k : A -> M W E B) P Q : succeeds m P -> (forall a, P a -> succeeds (k a) Q) -> succeeds (bind m k) Q.
Proof.
  intros H K w. destruct (H w) as (w1 & t1 & a & E1 & Pa). destruct (K a Pa w1) as (w2 & t2 & b & E2 & Qb).
  exists w2, (t1 ++ t2), b. unfold bind. rewrite E1, E2. auto.
Qed.
Lemma suc_assert {W E A} (b : bool) (k : unit -> M W E A) Q : b = true -> succeeds (k tt) Q -> succeeds (bind (lift (assert_ b)) k) Q.
Proof. intros -> H. apply suc_bind with (P := fun u => u = tt); [apply suc_lift; cbn; eauto|]. intros ? ->. exact H. Qed.
Lemma suc_weaken {W E A} (m : M W E A) (P Q : A -> Prop) : succeeds m P -> (forall a, P a -> Q a) -> succeeds m Q.
Proof. intros H I w. destruct (H w) as (w' & t & a & E1 & Pa). exists w', t, a. auto. Qed.

Section Total.
Context (W : Type).
Context (choice : nat -> nat -> bool -> W -> W * res (list nat)).
Context (uniform : R -> R -> W -> W * res R).
Context (trunc : R -> option Z).
Context (CC : choice_contract choice) (CT : choice_total choice) (UT : uniform_total NumR uniform).
Notation N := NumR.

Lemma suc_choice E n k (rep : bool) : (0 < n)%nat -> rep = true \/ (k <= n)%nat ->
  succeeds (@ext W E _ (choice n k rep)) (fun idx => List.length idx = k /\ Forall (fun i => (i < n)%nat) idx).
Proof.
  intros H1 H2 w. destruct (CT w H1 H2) as (w' & idx & E1). exists w', [], idx. unfold ext. rewrite E1. split; [reflexivity|].
  destruct (CC E1) as (A & B & _). auto.
Qed.

Definition wide (nd : nat) (S : list (row N)) : Prop := forall r, In r S -> List.length (fst r) = nd.

Lemma column_suc nd S d : wide nd S -> (d < nd)%nat -> exists col, column N S d = Ok col /\ List.length col = List.length S.
Proof.
  intros H D. unfold column. induction S as [|r S IH]; [exists []; auto|]. cbn [mapM].
  destruct (nth_error (fst r) d) as [v|] eqn:E.
  - destruct IH as (col & -> & L); [intros q Hq; apply H; now right|]. cbn [rbind]. exists (v :: col). cbn. auto.
  - apply nth_error_None in E. rewrite (H r (or_introl eq_refl)) in E. lia.
Qed.

Lemma insert_unique_nonempty x l : insert_unique N x l <> [].
Proof. destruct l; cbn [insert_unique]; [discriminate|]. repeat match goal with |- context [if ?b then _ else _] => destruct b end; discriminate. Qed.

Lemma keep_better_some cur c : exists b, keep_better N cur c = Some b.
Proof. unfold keep_better. destruct cur as [b|]; [destruct (nlt N _ _); eauto|]. cbn. eauto. Qed.

Lemma fold_keep_some S d vals : forall cur, vals <> [] -> exists b, fold_left (fun cur v => keep_better N cur (split_at N S d v)) vals cur = Some b.
Proof.
  assert (A : forall vals cur, (exists b, cur = Some b) -> exists b, fold_left (fun cur v => keep_better N cur (split_at N S d v)) vals cur = Some b).
  { clear vals. induction vals as [|v vals IH]; cbn [fold_left]; intros cur H; [exact H|]. apply IH. apply keep_better_some. }
  destruct vals as [|v vals]; intros cur H; [congruence|]. cbn [fold_left]. apply A, keep_better_some.
Qed.

Definition is_some {A} (o : option A) : Prop := exists a, o = Some a.

Lemma split_value_suc (cands col : list N) i : (i < (if Nat.ltb 1 (List.length cands) then List.length cands - 1 else 1))%nat -> col <> [] ->
  exists v, split_value N cands col i = Ok v.
Proof.
  unfold split_value. destruct (Nat.ltb_spec 1 (List.length cands)) as [L|L]; intros H C.
  - assert (K := skipn_length i cands). destruct (skipn i cands) as [|a [|b q]]; cbn [List.length] in K; [exfalso; lia|exfalso; lia|]. eauto.
  - destruct col; [congruence|eauto].
Qed.

Lemma split_deterministic_suc nd S d : wide nd S -> (d < nd)%nat -> S <> [] -> succeeds (split_deterministic N W choice S d) is_some.
Proof.
  intros H D NE. destruct (column_suc H D) as (col & EC & LC). unfold split_deterministic.
  assert (NC : col <> []) by (intros ->; destruct S; [congruence|discriminate LC]).
  apply suc_bind with (P := fun c => c = col); [apply suc_lift; eauto|]. intros ? ->.
  set (ne := if Nat.ltb 1 (List.length (np_unique N col)) then (List.length (np_unique N col) - 1)%nat else 1%nat). assert (NP : (0 < ne)%nat) by (unfold ne; destruct (Nat.ltb_spec 1 (List.length (np_unique N col))); lia).
  apply suc_bind with (P := fun idx => List.length idx = Nat.min 20 ne /\ Forall (fun i => (i < ne)%nat) idx); [apply suc_choice; [exact NP|right; lia]|].
  intros idx (LI & FI). apply suc_bind with (P := fun vals : list R => vals <> []).
  - apply suc_lift. assert (X : exists vals, mapM (split_value N (np_unique N col) col) idx = Ok vals).
    { clear LI. induction idx as [|i idx IH]; [exists []; auto|]. inversion FI; subst. cbn [mapM].
      destruct (@split_value_suc (np_unique N col) col i) as (v & ->); [assumption|exact NC|]. cbn [rbind]. destruct IH as (vs & ->); [assumption|]. cbn. eauto. }
    destruct X as (vals & E). exists vals. split; [exact E|]. apply mapM_ok_length in E. intros ->. cbn in E. lia.
  - intros vals NV. apply suc_ret, fold_keep_some, NV.
Qed.

Lemma split_random_suc nd S d : wide nd S -> (d < nd)%nat -> S <> [] -> succeeds (split_random N W uniform S d) is_some.
Proof.
  intros H D NE. destruct (column_suc H D) as (col & EC & LC). unfold split_random.
  assert (NC : col <> []) by (intros ->; destruct S; [congruence|discriminate LC]).
  apply suc_bind with (P := fun c => c = col); [apply suc_lift; eauto|]. intros ? ->.
  apply suc_bind with (P := fun _ => True); [|intros v _; apply suc_ret; unfold is_some; eauto].
  destruct col as [|x col]; [congruence|]. destruct (Nat.ltb _ _).
  - apply suc_bind with (P := fun _ => True); [apply suc_lift; cbn; eauto|]. intros lo _.
    apply suc_bind with (P := fun _ => True); [apply suc_lift; cbn; eauto|]. intros hi _.
    intros w. destruct (UT lo hi w) as (w' & v & E). exists w', [], v. unfold ext. rewrite E. auto.
  - apply suc_lift. eauto.
Qed.

Lemma split_features_suc nd S rl fs : wide nd S -> S <> [] -> Forall (fun i => (i < nd)%nat) fs -> forall cur, fs <> [] \/ is_some cur ->
  succeeds (split_features N W choice uniform S rl fs cur) is_some.
Proof.
  intros H NE. induction fs as [|d fs IH]; intros Fd cur HC; cbn [split_features].
  - apply suc_ret. destruct HC as [HC|HC]; [congruence|exact HC].
  - inversion Fd; subst. apply suc_bind with (P := is_some).
    + destruct rl; [eapply split_random_suc|eapply split_deterministic_suc]; eauto.
    + intros c (b & ->). apply IH; [assumption|]. right. cbn [better_feature]. apply keep_better_some.
Qed.

Lemma split_node_suc nd S nf rl : wide nd S -> S <> [] -> (0 < nf <= nd)%nat -> succeeds (split_node N W choice uniform nd S nf rl) is_some.
Proof.
  intros H NE NF. unfold split_node. apply suc_assert; [destruct S; [congruence|reflexivity]|].
  apply suc_bind with (P := fun idx => List.length idx = nf /\ Forall (fun i => (i < nd)%nat) idx); [apply suc_choice; [lia|right; lia]|].
  intros fs (L & Fd). apply (@split_features_suc nd); auto. left. intros ->. cbn in L. lia.
Qed.

Context (UC : uniform_contract NumR uniform).

Lemma wide_sub nd S S' : wide nd S -> (forall r, In r S' -> In r S) -> wide nd S'.
Proof. intros H I r Hr. apply H, I, Hr. Qed.
Lemma all_finite S : rows_finite N NumR_fin S.
Proof. intros r _. apply Forall_forall. intros x _. exact I. Qed.

Lemma grow_suc nd nf rl m : (0 < nf <= nd)%nat -> forall rem S c, wide nd S -> S <> [] -> @good_cand N S c ->
  succeeds (grow_split N W choice uniform nd nf rl m rem (Some c)) (fun _ => True).
Proof.
  intros NF. induction rem as [|rem IH]; intros S c HW NE (i & v & sc & col & -> & HC & Hv);
    destruct (filter_partition NumR_ord (@all_finite S) HC Hv) as (P & _ & _); destruct (split_left_right N S i v) as [l r]; cbn [fst snd] in P;
    cbn [grow_split]; (destruct l as [|a l]; [now apply suc_ret|]); (destruct r as [|b r]; [now apply suc_ret|]).
  - now apply suc_ret.
  - assert (G : forall s, s <> [] -> (forall q, In q s -> In q S) ->
      succeeds (if (Z.of_nat (List.length s) <=? m)%Z then ret (TLeaf s)
       else bind (split_node N W choice uniform nd s nf rl) (fun c => grow_split N W choice uniform nd nf rl m rem c)) (fun _ => True)).
    { intros s Ns Is. assert (Ws := wide_sub HW Is). destruct (Z.leb _ _); [now apply suc_ret|].
      assert (SN := split_node_suc rl Ws Ns NF).
      apply suc_bind with (P := fun oc => exists c, oc = Some c /\ @good_cand N s c).
      - intros w. destruct (SN w) as (w' & t & oc & E & (c & ->)). exists w', t, (Some c). split; [exact E|]. exists c. split; [reflexivity|].
        apply (@split_node_good N NumR_fin W choice uniform trunc UC nd s nf rl w w' t c (@all_finite s) E).
      - intros oc (c & -> & Gc). now apply (IH s c). }
    assert (Il : forall q, In q (a :: l) -> In q S) by (intros q Hq; apply (Permutation_in _ (Permutation_sym P)), in_or_app; auto).
    assert (Ir : forall q, In q (b :: r) -> In q S) by (intros q Hq; apply (Permutation_in _ (Permutation_sym P)), in_or_app; auto).
    apply suc_bind with (P := fun _ => True); [apply G; [discriminate|exact Il]|]. intros ta _.
    apply suc_bind with (P := fun _ => True); [apply G; [discriminate|exact Ir]|]. intros tb _. now apply suc_ret.
Qed.

Lemma take_rows_suc {A} (l : list A) idx : Forall (fun i => (i < List.length l)%nat) idx -> exists r, take_rows l idx = Ok r /\ List.length r = List.length idx.
Proof.
  unfold take_rows. induction idx as [|i idx IH]; intros H; [exists []; auto|]. inversion H; subst. cbn [mapM].
  destruct (nth_error l i) eqn:E; [|apply nth_error_None in E; lia]. cbn [rbind]. destruct IH as (r & -> & L); [assumption|]. cbn. eexists. split; [reflexivity|]. cbn. now rewrite L.
Qed.

Definition ratio_ok (ratio : R) (rep : bool) : Prop := (0 < ratio)%R /\ (rep = false -> (ratio <= 1)%R).

Lemma ratio_test ratio rep : ratio_ok ratio rep ->
  (if rep then nlt N (nofZ N 0) ratio else nlt N (nofZ N 0) ratio && nle N ratio (nofZ N 1)) = true.
Proof.
  intros (H1 & H2). cbn [nlt nle nofZ NumR]. rewrite Raux.Rlt_bool_true by exact H1. destruct rep; [reflexivity|].
  cbn. apply Raux.Rle_bool_true. auto.
Qed.

(** the data, the bootstrap size and the number of features make sense *)
Definition data_ok (X : mat R) (Y : list R) (ratio : R) (rep : bool) (nf : nat) : Prop :=
  mat_wf X /\ List.length (mrows X) = List.length Y /\ (0 < nrows X)%nat /\ (0 < nf <= mcols X)%nat /\ ratio_ok ratio rep /\
  exists k, trunc (INR (nrows X) * ratio) = Some k /\ (0 < k)%Z /\ (rep = false -> (k <= Z.of_nat (nrows X))%Z).

Lemma subsample_suc X Y ratio rep nf : data_ok X Y ratio rep nf ->
  succeeds (subsample N W choice trunc X Y ratio rep) (fun boot => boot <> [] /\ wide (mcols X) boot).
Proof.
  intros (WF & L & NR & NF & RO & k & EK & KP & KR). unfold subsample.
  apply suc_assert; [now apply Nat.eqb_eq|]. apply suc_assert; [now apply ratio_test|].
  replace (nmul N (nofnat N (nrows (X : mat N))) ratio) with (INR (nrows X) * ratio)%R.
  2:{ unfold nofnat. cbn [nmul nofZ NumR]. now rewrite INR_IZR_INZ. }
  rewrite EK. destruct (Z.ltb_spec k 0); [lia|].
  apply suc_bind with (P := fun idx => List.length idx = Z.to_nat k /\ Forall (fun i => (i < nrows X)%nat) idx).
  { apply suc_choice; [exact NR|]. destruct rep; [now left|right]. assert (k <= Z.of_nat (nrows X))%Z by auto. lia. }
  intros idx (LI & FI). destruct (@take_rows_suc _ (mrows X) idx FI) as (X_ & EX & LX).
  assert (FI2 : Forall (fun i => (i < List.length Y)%nat) idx) by (unfold nrows in FI; rewrite L in FI; exact FI).
  destruct (@take_rows_suc _ Y idx FI2) as (Y_ & EY & LY).
  apply suc_bind with (P := fun a => a = X_); [apply suc_lift; eauto|]. intros ? ->.
  apply suc_bind with (P := fun a => a = Y_); [apply suc_lift; eauto|]. intros ? ->.
  apply suc_ret. split.
  - intros E. assert (LL := combine_length X_ Y_). apply (f_equal (@List.length (list R * R))) in E. unfold row in E. cbn [NumR car] in E, LL. rewrite LL in E. cbn in E. lia.
  - intros [x y] Hr. apply in_combine_l in Hr. cbn [fst]. apply WF. eapply take_rows_in; eauto.
Qed.

Lemma grow_tree_suc X Y dm m ratio rep nf rl : data_ok X Y ratio rep nf ->
  succeeds (grow_tree N W choice uniform trunc X Y dm m ratio rep nf rl) (fun bt => wide (mcols X) (fst bt)).
Proof.
  intros H. assert (NF : (0 < nf <= mcols X)%nat) by apply H. unfold grow_tree.
  apply suc_bind with (P := fun boot => boot <> [] /\ wide (mcols X) boot); [now apply (subsample_suc H)|]. intros boot (NE & HW).
  assert (SN := split_node_suc rl HW NE NF).
  apply suc_bind with (P := fun oc => exists c, oc = Some c /\ @good_cand N boot c).
  - intros w. destruct (SN w) as (w' & t & oc & E & (c & ->)). exists w', t, (Some c). split; [exact E|]. exists c. split; [reflexivity|].
    apply (@split_node_good N NumR_fin W choice uniform trunc UC _ boot nf rl w w' t c (@all_finite boot) E).
  - intros oc (c & -> & Gc). apply suc_bind with (P := fun _ => True); [now apply (grow_suc rl m NF (Z.to_nat (dm - 1)) HW NE Gc)|].
    intros t _. apply suc_ret. exact HW.
Qed.

Lemma mmapM_suc {E A B} (f : A -> M W E B) (P : B -> Prop) : (forall a, succeeds (f a) P) -> forall l,
  succeeds (mmapM f l) (fun r => List.length r = List.length l /\ Forall P r).
Proof.
  intros H. induction l as [|a l IH]; cbn [mmapM]; [now apply suc_ret|].
  apply suc_bind with (P := P); [apply H|]. intros b Pb.
  apply suc_bind with (P := fun r => List.length r = List.length l /\ Forall P r); [exact IH|]. intros r (L & FR). apply suc_ret. cbn. auto.
Qed.

Lemma generic_suc X Y nt dm m ratio rep nf rl : data_ok X Y ratio rep nf ->
  succeeds (get_generic_trees N W choice uniform trunc X Y nt dm m ratio rep nf rl) (fun ts => List.length ts = Z.to_nat nt).
Proof.
  intros H. unfold get_generic_trees. destruct H as (WF & L & NR & NF & RO & K) eqn:EH.
  apply suc_assert; [now apply Nat.eqb_eq|]. apply suc_assert; [now apply ratio_test|].
  eapply suc_weaken; [apply mmapM_suc; intros a; apply (grow_tree_suc dm m rl H)|]. intros r (LR & _). now rewrite LR, seq_length.
Qed.

Lemma forest_suc X Y nt dm m nf : data_ok X Y 1%R true nf ->
  succeeds (get_random_forest N W choice uniform trunc X Y nt dm m nf) (fun ts => List.length ts = Z.to_nat nt).
Proof.
  intros H. unfold get_random_forest. destruct H as (WF & L & NR & NF & RO & K) eqn:EH.
  apply suc_assert; [now apply Nat.eqb_eq|].
  eapply suc_weaken; [apply mmapM_suc; intros a; apply (grow_tree_suc dm m false H)|]. intros r (LR & _). now rewrite LR, seq_length.
Qed.
End Total.
