(** Parallel prediction: the pool's schedule does not matter; sizes of the parts. *)
From Verif Require Import Base Lists Num TreesModel.
From Coq Require Import List ZArith Bool Arith Permutation Lia.
Set Implicit Arguments. Unset Strict Implicit.

Lemma set_nth_length {A} i (x : A) l : (i < List.length l)%nat -> List.length (firstn i l ++ x :: skipn (S i) l) = List.length l.
Proof. intros H. rewrite app_length, firstn_length. cbn [List.length]. rewrite skipn_length. lia. Qed.
Lemma set_nth_same {A} i (x : A) l : (i < List.length l)%nat -> nth_error (firstn i l ++ x :: skipn (S i) l) i = Some x.
Proof.
  intros H. rewrite nth_error_app2; rewrite firstn_length; [|lia]. replace (i - Nat.min i (List.length l)) with 0 by lia. reflexivity.
Qed.
Lemma set_nth_other {A} i j (x : A) l : (i < List.length l)%nat -> j <> i -> nth_error (firstn i l ++ x :: skipn (S i) l) j = nth_error l j.
Proof.
  intros H N. destruct (Nat.lt_ge_cases j i) as [L|G].
  - rewrite nth_error_app1 by (rewrite firstn_length; lia). now apply nth_error_firstn_lt.
  - rewrite nth_error_app2; rewrite firstn_length; [|lia]. replace (j - Nat.min i (List.length l)) with (S (j - S i)) by lia.
    cbn [nth_error]. rewrite nth_error_skipn. f_equal. lia.
Qed.

Section Pool.
Context {A B : Type} (f : A -> res B).

Lemma run_tasks_ok tasks bs : Forall2 (fun a b => f a = Ok b) tasks bs -> forall sched done,
  Forall (fun i => (i < List.length tasks)%nat) sched -> List.length done = List.length tasks ->
  exists done', run_tasks f tasks sched done = Ok done' /\ List.length done' = List.length tasks /\
    forall j, nth_error done' j = if in_dec Nat.eq_dec j sched then option_map Some (nth_error bs j) else nth_error done j.
Proof.
  intros H. induction sched as [|i s IH]; intros done F L; cbn [run_tasks].
  - exists done. split; [reflexivity|]. split; [exact L|]. intros j. reflexivity.
  - inversion F as [|? ? Hi F']; subst. destruct (nth_error tasks i) as [a|] eqn:E; [|apply nth_error_None in E; lia].
    destruct (Forall2_nth_l i H E) as (b & Eb & Ef). rewrite Ef. cbn [rbind].
    destruct (IH (firstn i done ++ Some b :: skipn (S i) done) F') as (d & R & Ld & Hd); [rewrite set_nth_length; lia|].
    exists d. split; [exact R|]. split; [exact Ld|]. intros j. rewrite Hd.
    destruct (in_dec Nat.eq_dec j (i :: s)) as [I|I], (in_dec Nat.eq_dec j s) as [I2|I2]; try reflexivity.
    + destruct I as [<-|I]; [|contradiction]. rewrite set_nth_same by lia. now rewrite Eb.
    + destruct I. now right.
    + apply set_nth_other; [lia|]. intros ->. apply I. now left.
Qed.

Lemma run_tasks_fail tasks i a e : nth_error tasks i = Some a -> f a = Raise e -> forall sched done, In i sched ->
  exists e', run_tasks f tasks sched done = Raise e'.
Proof.
  intros E Ef. induction sched as [|j s IH]; intros done I; [destruct I|]. cbn [run_tasks].
  destruct (nth_error tasks j) as [a'|] eqn:E'; [|eauto]. destruct (f a') as [b|e'] eqn:Ea; cbn [rbind]; [|eauto].
  apply IH. destruct I as [->|I]; [|exact I]. congruence.
Qed.

Lemma starmap_ok tasks bs sched : mapM f tasks = Ok bs -> Permutation sched (seq 0 (List.length tasks)) -> starmap f tasks sched = Ok bs.
Proof.
  intros H P. apply mapM_ok_iff in H. unfold starmap.
  assert (F : Forall (fun i => (i < List.length tasks)%nat) sched).
  { apply Forall_forall. intros i Hi. apply (Permutation_in _ P), in_seq in Hi. lia. }
  destruct (run_tasks_ok H F (repeat_length None (List.length tasks))) as (d & -> & Ld & Hd). cbn [rbind].
  assert (E : d = map Some bs).
  { apply nth_error_ext. intros j. rewrite Hd. destruct (in_dec Nat.eq_dec j sched) as [I|I].
    - symmetry. apply nth_error_map.
    - assert (G : (List.length tasks <= j)%nat).
      { destruct (Nat.lt_ge_cases j (List.length tasks)) as [K|K]; [|exact K]. destruct I. apply (Permutation_in _ (Permutation_sym P)), in_seq. lia. }
      rewrite (proj2 (nth_error_None _ _)) by (rewrite repeat_length; lia).
      symmetry. apply nth_error_None. rewrite map_length, <- (Forall2_len H). exact G. }
  subst d. clear. induction bs as [|b bs IH]; [reflexivity|]. cbn [map mapM]. cbn [rbind]. now rewrite IH.
Qed.

Lemma starmap_fail tasks sched e : mapM f tasks = Raise e -> Permutation sched (seq 0 (List.length tasks)) -> exists e', starmap f tasks sched = Raise e'.
Proof.
  intros H P.
  assert (X : exists i a e', nth_error tasks i = Some a /\ f a = Raise e').
  { clear P. revert e H. induction tasks as [|a tasks IH]; cbn [mapM]; intros e H; [discriminate|].
    destruct (f a) as [b|e'] eqn:E; cbn [rbind] in H; [|exists 0, a, e'; auto].
    destruct (mapM f tasks) as [bs|e'] eqn:E2; [discriminate|]. destruct (IH e' eq_refl) as (i & a' & e'' & H1 & H2).
    exists (S i), a', e''. auto. }
  destruct X as (i & a & e' & Hi & Ef). unfold starmap.
  assert (I : In i sched).
  { apply (Permutation_in _ (Permutation_sym P)), in_seq. assert (i < List.length tasks)%nat by (apply nth_error_Some; congruence). lia. }
  destruct (run_tasks_fail Hi Ef (repeat None (List.length tasks)) I) as (e'' & ->). cbn. eauto.
Qed.

Lemma mapM_app l l' : mapM f (l ++ l') = do r <- mapM f l; do r' <- mapM f l'; Ok (r ++ r').
Proof.
  induction l as [|x l IH]; cbn [mapM app rbind].
  - destruct (mapM f l'); reflexivity.
  - destruct (f x) as [y|e]; cbn [rbind]; [|reflexivity]. rewrite IH. destruct (mapM f l); cbn [rbind]; [|reflexivity].
    destruct (mapM f l'); reflexivity.
Qed.
Lemma mapM_concat parts : mapM f (concat parts) = do rs <- mapM (mapM f) parts; Ok (concat rs).
Proof.
  induction parts as [|p parts IH]; [reflexivity|]. cbn [concat mapM]. rewrite mapM_app, IH.
  destruct (mapM f p); cbn [rbind]; [|reflexivity]. destruct (mapM (mapM f) parts); reflexivity.
Qed.
End Pool.

Section Parts.
Context {A : Type}.
Lemma take_parts_spec (sizes : list nat) : forall l : list A, fold_right Nat.add 0 sizes = List.length l ->
  concat (take_parts sizes l) = l /\ map (@List.length A) (take_parts sizes l) = sizes.
Proof.
  induction sizes as [|s sizes IH]; cbn [take_parts concat map fold_right]; intros l E.
  - destruct l; [auto|discriminate].
  - destruct (IH (skipn s l)) as (C & M); [rewrite skipn_length; lia|]. rewrite C, M, firstn_skipn, firstn_length. split; [reflexivity|]. f_equal. lia.
Qed.

Lemma sum_repeat a k : fold_right Nat.add 0 (repeat a k) = k * a.
Proof. induction k; cbn; [reflexivity|]. lia. Qed.
Lemma sum_app l l' : fold_right Nat.add 0 (l ++ l') = fold_right Nat.add 0 l + fold_right Nat.add 0 l'.
Proof. induction l; cbn; [reflexivity|]. lia. Qed.

Lemma array_split_spec (l : list A) k : 0 < k -> concat (array_split l k) = l /\ List.length (array_split l k) = k /\
  forall p, In p (array_split l k) -> List.length p = List.length l / k \/ (List.length p = S (List.length l / k) /\ 0 < List.length l mod k).
Proof.
  intros K. set (n := List.length l). assert (D := Nat.div_mod n k ltac:(lia)). assert (M := Nat.mod_upper_bound n k ltac:(lia)).
  destruct (@take_parts_spec (repeat (S (n / k)) (n mod k) ++ repeat (n / k) (k - n mod k)) l) as (C & LM).
  { rewrite sum_app, !sum_repeat. fold n. nia. }
  unfold array_split. fold n. split; [exact C|]. split.
  - apply (f_equal (@List.length nat)) in LM. rewrite map_length in LM. rewrite LM, app_length, !repeat_length. lia.
  - intros p Hp. apply (in_map (@List.length A)) in Hp. rewrite LM in Hp. apply in_app_or in Hp. destruct Hp as [Hp|Hp].
    + right. split; [now apply repeat_spec in Hp|]. destruct (n mod k); [destruct Hp|lia].
    + left. now apply repeat_spec in Hp.
Qed.

Lemma array_split_sizes (l : list A) : 100 < List.length l -> forall p, In p (array_split l ((List.length l + 99) / 100)) -> 1 <= List.length p <= 100.
Proof.
  intros H p Hp. set (n := List.length l) in *. set (k := (n + 99) / 100) in *.
  assert (D1 := Nat.div_mod (n + 99) 100 ltac:(lia)). assert (M1 := Nat.mod_upper_bound (n + 99) 100 ltac:(lia)). fold k in D1.
  assert (K : 0 < k) by nia.
  destruct (array_split_spec l K) as (_ & _ & S). specialize (S p Hp). fold n in S.
  assert (D := Nat.div_mod n k ltac:(lia)). assert (M := Nat.mod_upper_bound n k ltac:(lia)).
  assert (n <= 100 * k) by lia. assert (k <= n) by nia.
  assert (1 <= n / k) by (apply Nat.div_le_lower_bound; lia).
  destruct S as [->|(-> & Z)]; nia.
Qed.
End Parts.

Section Predict.
Context (N : Num).
Notation np X := ((List.length X + 99) / 100)%nat.

Lemma predict_sequential X (trees : list (tree N)) sched : (100 < List.length X)%nat -> Permutation sched (seq 0 (np X)) ->
  match unit_predict_by_trees N X trees with
  | Ok out => predict_by_trees N X trees sched = Ok out
  | Raise _ => exists e, predict_by_trees N X trees sched = Raise e
  end.
Proof.
  intros L P. assert (K : (0 < np X)%nat) by (apply Nat.div_str_pos; lia).
  destruct (array_split_spec X K) as (C & LP & _).
  assert (E : unit_predict_by_trees N X trees = do rs <- mapM (fun X => unit_predict_by_trees N X trees) (array_split X (np X)); Ok (concat rs)).
  { unfold unit_predict_by_trees at 1. rewrite <- C at 1. rewrite mapM_concat. reflexivity. }
  rewrite E. unfold predict_by_trees. rewrite (proj2 (Nat.leb_gt _ _) L).
  rewrite <- LP in P. destruct (mapM _ (array_split X (np X))) as [rs|e] eqn:EM; cbn [rbind].
  - rewrite (starmap_ok EM P). reflexivity.
  - destruct (starmap_fail EM P) as (e' & ->). cbn. eauto.
Qed.
End Predict.
