(** Facts about arrays as lists of rows (any arithmetic): shapes, entries, updates. *)
From Verif Require Import Base Lists Num UtilsModel HypsModel CovModel.
From Coq Require Import List ZArith Bool String Lia Arith.
Set Implicit Arguments.
Unset Strict Implicit.

Lemma map2_length {A B C} (f : A -> B -> C) a b : List.length (map2 f a b) = Nat.min (List.length a) (List.length b).
Proof. unfold map2. now rewrite map_length, combine_length. Qed.
Lemma map2_nth {A B C} (f : A -> B -> C) a b da db dc i :
  List.length a = List.length b -> (i < List.length a)%nat -> nth i (map2 f a b) dc = f (nth i a da) (nth i b db).
Proof.
  unfold map2. revert b i; induction a as [|x a IH]; intros [|y b] [|i] E L; cbn in *; try lia; auto.
  apply IH; lia.
Qed.
Lemma nth_map_in {A B} (f : A -> B) l da db i : (i < List.length l)%nat -> nth i (map f l) db = f (nth i l da).
Proof.
  intros L. rewrite (nth_indep _ db (f da)) by now rewrite map_length. apply map_nth.
Qed.
Lemma lset_length {A} (l : list A) i v : List.length (lset l i v) = List.length l.
Proof. revert i; induction l as [|x l IH]; intros [|i]; cbn; auto. Qed.
Lemma lset_nth {A} (l : list A) i j v d : (i < List.length l)%nat ->
  nth j (lset l i v) d = if Nat.eqb i j then v else nth j l d.
Proof.
  revert i j; induction l as [|x l IH]; intros [|i] [|j] L; cbn in *; try lia; auto.
  rewrite IH by lia. reflexivity.
Qed.
Lemma lset_nth_error {A} (l : list A) i j v : (i < List.length l)%nat ->
  nth_error (lset l i v) j = if Nat.eqb i j then Some v else nth_error l j.
Proof.
  revert i j; induction l as [|x l IH]; intros [|i] [|j] L; cbn in *; try lia; auto.
  rewrite IH by lia. reflexivity.
Qed.

Lemma foldM_app {A S} (f : S -> A -> res S) l l' s :
  foldM f (l ++ l') s = (do s' <- foldM f l s; foldM f l' s').
Proof.
  revert s; induction l as [|x l IH]; intros s; cbn; [reflexivity|].
  destruct (f s x); cbn; [apply IH|reflexivity].
Qed.
Lemma foldM_flat {A B S} (g : A -> S -> B -> res S) (h : A -> list B) l s :
  foldM (fun s i => foldM (g i) (h i) s) l s
  = foldM (fun s p => g (fst p) s (snd p)) (flat_map (fun i => map (pair i) (h i)) l) s.
Proof.
  revert s; induction l as [|x l IH]; intros s; cbn [foldM flat_map]; [reflexivity|].
  rewrite foldM_app.
  assert (E : forall s, foldM (g x) (h x) s = foldM (fun s p => g (fst p) s (snd p)) (map (pair x) (h x)) s).
  { clear. induction (h x) as [|b m IH]; intros s; cbn; [reflexivity|]. destruct (g x s b); cbn; auto. }
  rewrite <- E. destruct (foldM (g x) (h x) s); cbn; [apply IH|reflexivity].
Qed.
Lemma foldM_ext {A S} (f g : S -> A -> res S) l s :
  (forall s x, In x l -> f s x = g s x) -> foldM f l s = foldM g l s.
Proof.
  revert s; induction l as [|x l IH]; intros s H; cbn; [reflexivity|].
  rewrite H by (now left). destruct (g s x); cbn; [|reflexivity]. apply IH. intros; apply H; now right.
Qed.

Section Mx.
Context (N : Num).
Notation mx := (list (list N)).

(** [a] is an (n, m) array *)
Definition shp (n m : nat) (a : mx) : Prop := List.length a = n /\ forall r, In r a -> List.length r = m.

Lemma shp_row n m (a : mx) i : shp n m a -> (i < n)%nat -> List.length (nth i a []) = m.
Proof. intros [L H] Hi. apply H, nth_In. lia. Qed.

Lemma shp_mgen n m f : shp n m (mgen N n m f).
Proof.
  unfold mgen. split; [now rewrite map_length, seq_length|].
  intros r Hr. apply in_map_iff in Hr as [i [<- _]]. now rewrite map_length, seq_length.
Qed.
Lemma mget_mgen n m f i j : (i < n)%nat -> (j < m)%nat -> mget N (mgen N n m f) i j = f i j.
Proof.
  intros Hi Hj. unfold mget, mgen.
  rewrite (@nth_map_in _ _ _ _ 0%nat) by now rewrite seq_length.
  rewrite seq_nth by exact Hi. rewrite (@nth_map_in _ _ _ _ 0%nat) by now rewrite seq_length.
  now rewrite seq_nth.
Qed.
Lemma shp_madd n m a b : shp n m a -> shp n m b -> shp n m (madd N a b).
Proof.
  intros [La Ha] [Lb Hb]. split.
  - unfold madd. rewrite map2_length. lia.
  - intros r Hr. unfold madd in Hr. unfold map2 at 1 in Hr. apply in_map_iff in Hr as [[x y] [<- I]].
    rewrite map2_length. cbn [fst snd]. pose proof (in_combine_l _ _ _ _ I). pose proof (in_combine_r _ _ _ _ I).
    rewrite Ha, Hb by assumption. lia.
Qed.
Lemma mget_madd n m a b i j : shp n m a -> shp n m b -> (i < n)%nat -> (j < m)%nat ->
  mget N (madd N a b) i j = nadd N (mget N a i j) (mget N b i j).
Proof.
  intros A B Hi Hj. unfold mget, madd.
  rewrite (@map2_nth _ _ _ _ _ _ [] []); [|destruct A, B; lia|destruct A; lia].
  rewrite (@map2_nth _ _ _ _ _ _ (nofZ N 0) (nofZ N 0)); [reflexivity| |].
  - rewrite (shp_row A Hi), (shp_row B Hi). reflexivity.
  - now rewrite (shp_row A Hi).
Qed.
Lemma shp_mmap n m a f : shp n m a -> shp n m (mmap N f a).
Proof.
  intros [L H]. split; [unfold mmap; now rewrite map_length|].
  intros r Hr. apply in_map_iff in Hr as [x [<- I]]. rewrite map_length. auto.
Qed.
Lemma mget_mmap n m a f i j : shp n m a -> (i < n)%nat -> (j < m)%nat -> mget N (mmap N f a) i j = f (mget N a i j).
Proof.
  intros A Hi Hj. unfold mget, mmap.
  rewrite (@nth_map_in _ _ _ _ []) by (destruct A; lia).
  rewrite (@nth_map_in _ _ _ _ (nofZ N 0)); [reflexivity|]. now rewrite (shp_row A Hi).
Qed.
Lemma shp_mset n m a i j v : shp n m a -> (i < n)%nat -> shp n m (mset N a i j v).
Proof.
  intros A Hi. unfold mset. split; [rewrite lset_length; apply A|].
  intros r Hr. apply in_nth_error in Hr as [k Hk].
  rewrite lset_nth_error in Hk by (destruct A; lia).
  destruct (Nat.eqb i k).
  - assert (E : r = lset (nth i a []) j v) by congruence. subst r. rewrite lset_length. now apply (shp_row A).
  - apply A. eapply nth_error_In, Hk.
Qed.
Lemma mget_mset n m a i j v i' j' : shp n m a -> (i < n)%nat -> (j < m)%nat ->
  mget N (mset N a i j v) i' j' = if Nat.eqb i i' && Nat.eqb j j' then v else mget N a i' j'.
Proof.
  intros A Hi Hj. unfold mget, mset. rewrite lset_nth by (destruct A; lia).
  destruct (Nat.eqb_spec i i') as [<-|]; cbn [andb]; [|reflexivity].
  apply lset_nth. now rewrite (shp_row A Hi).
Qed.
Lemma shp_mtr n m a : shp m n (mtr N n m a).
Proof. apply shp_mgen. Qed.
Lemma mget_mtr n m a i j : (i < m)%nat -> (j < n)%nat -> mget N (mtr N n m a) i j = mget N a j i.
Proof. intros H H0. unfold mtr. exact (mget_mgen (fun i j => mget N a j i) H H0). Qed.
Lemma mx_ext n m a b : shp n m a -> shp n m b ->
  (forall i j, (i < n)%nat -> (j < m)%nat -> mget N a i j = mget N b i j) -> a = b.
Proof.
  intros A B H. apply nth_ext with (d := []) (d' := []); [destruct A, B; lia|].
  intros i Hi. assert (i < n)%nat by (destruct A; lia).
  apply nth_ext with (d := nofZ N 0) (d' := nofZ N 0); [now rewrite (shp_row A), (shp_row B)|].
  intros j Hj. rewrite (shp_row A) in Hj by assumption. now apply H.
Qed.
Lemma shp_eye n m : shp n m (eye N n m). Proof. apply shp_mgen. Qed.
Lemma shp_zeros n m : shp n m (zeros N n m). Proof. apply shp_mgen. Qed.

(** ** the two loops of the set branch of [cov_main] *)
Context (v : nat -> nat -> N).
Definition step1 (cov : mx) (ij : nat * nat) : res mx :=
  Ok (mset N cov (fst ij) (snd ij) (nadd N (mget N cov (fst ij) (snd ij)) (v (fst ij) (snd ij)))).
Lemma loop1 n m L : forall C, shp n m C -> NoDup L ->
  (forall p, In p L -> (fst p < n)%nat /\ (snd p < m)%nat) ->
  exists C', foldM step1 L C = Ok C' /\ shp n m C' /\
    (forall i j, (In (i, j) L -> mget N C' i j = nadd N (mget N C i j) (v i j)) /\
                 (~ In (i, j) L -> mget N C' i j = mget N C i j)).
Proof.
  induction L as [|[a b] L IH]; intros C S ND B.
  { exists C. cbn. split; [reflexivity|]. split; [exact S|]. intros i j. split; [intros []|reflexivity]. }
  inversion ND as [|? ? NI ND']; subst.
  destruct (B (a, b)) as [Ba Bb]; [now left|]. cbn [fst snd] in *.
  cbn [foldM step1 rbind fst snd]. set (C1 := mset N C a b _).
  assert (S1 : shp n m C1) by now apply shp_mset.
  destruct (IH C1 S1 ND') as (C' & E & S' & H); [intros p Hp; apply B; now right|].
  exists C'. split; [exact E|]. split; [exact S'|]. intros i j. destruct (H i j) as [H1 H2].
  unfold C1 in *. rewrite (mget_mset _ i j S Ba Bb) in *.
  destruct (Nat.eqb_spec a i) as [->|Na]; cbn [andb] in *.
  - destruct (Nat.eqb_spec b j) as [->|Nb]; cbn [andb] in *.
    + split; [intros _; now apply H2|]. intros NI'. exfalso. apply NI'. now left.
    + split; [intros [X|X]; [congruence|auto]|]. intros NI'. apply H2. intros X. apply NI'. now right.
  - split; [intros [X|X]; [congruence|auto]|]. intros NI'. apply H2. intros X. apply NI'. now right.
Qed.

Definition step2 (cov : mx) (ij : nat * nat) : res mx :=
  let cov := mset N cov (fst ij) (snd ij) (nadd N (mget N cov (fst ij) (snd ij)) (v (fst ij) (snd ij))) in
  Ok (if Nat.ltb (fst ij) (snd ij) then mset N cov (snd ij) (fst ij) (mget N cov (fst ij) (snd ij)) else cov).
Lemma loop2 n L : forall C, shp n n C -> NoDup L ->
  (forall p, In p L -> (fst p <= snd p)%nat /\ (snd p < n)%nat) ->
  exists C', foldM step2 L C = Ok C' /\ shp n n C' /\
    (forall i j, (i <= j)%nat ->
       (In (i, j) L -> mget N C' i j = nadd N (mget N C i j) (v i j) /\
                       mget N C' j i = nadd N (mget N C i j) (v i j)) /\
       (~ In (i, j) L -> mget N C' i j = mget N C i j /\ mget N C' j i = mget N C j i)).
Proof.
  induction L as [|[a b] L IH]; intros C S ND B.
  { exists C. cbn. split; [reflexivity|]. split; [exact S|]. intros i j Hij. split; [intros []|auto]. }
  inversion ND as [|? ? NI ND']; subst.
  destruct (B (a, b)) as [Ba Bb]; [now left|]. cbn [fst snd] in *.
  cbn [foldM rbind]. unfold step2 at 1. cbn [fst snd rbind].
  set (w := nadd N (mget N C a b) (v a b)). set (C0 := mset N C a b w).
  assert (Ha : (a < n)%nat) by lia.
  assert (S0 : shp n n C0) by now apply shp_mset.
  assert (W : mget N C0 a b = w).
  { unfold C0. rewrite (mget_mset _ a b S Ha Bb). now rewrite !Nat.eqb_refl. }
  rewrite W. set (C1 := if (a <? b)%nat then mset N C0 b a w else C0).
  assert (S1 : shp n n C1).
  { unfold C1. destruct (a <? b)%nat; [now apply shp_mset|exact S0]. }
  assert (G : forall i j, mget N C1 i j =
     if (Nat.eqb a i && Nat.eqb b j) || (Nat.eqb b i && Nat.eqb a j) then w else mget N C i j).
  { intros i j. unfold C1, C0. destruct (Nat.ltb_spec a b).
    - rewrite (mget_mset _ i j S0 Bb Ha). fold C0.
      destruct (Nat.eqb b i && Nat.eqb a j); [now rewrite orb_true_r|]. rewrite orb_false_r.
      apply (mget_mset _ i j S Ha Bb).
    - assert (a = b) by lia. subst b. rewrite (mget_mset _ i j S Ha Bb).
      destruct (Nat.eqb a i && Nat.eqb a j); reflexivity. }
  destruct (IH C1 S1 ND') as (C' & E & S' & H); [intros p Hp; apply B; now right|].
  exists C'. split; [exact E|]. split; [exact S'|]. intros i j Hij. destruct (H i j Hij) as [H1 H2].
  assert (D : (a = i /\ b = j) \/ (~ (a = i /\ b = j) /\
             ((Nat.eqb a i && Nat.eqb b j) || (Nat.eqb b i && Nat.eqb a j))%bool = false /\
             ((Nat.eqb a j && Nat.eqb b i) || (Nat.eqb b j && Nat.eqb a i))%bool = false)).
  { destruct (Nat.eqb_spec a i), (Nat.eqb_spec b j), (Nat.eqb_spec b i), (Nat.eqb_spec a j); cbn [andb orb];
      try lia; try (left; split; assumption); right; repeat split; try reflexivity; lia. }
  destruct D as [[-> ->]|(D & Z1 & Z2)].
  - assert (GG : mget N C1 i j = w /\ mget N C1 j i = w).
    { rewrite !G, !Nat.eqb_refl. cbn [andb orb]. now rewrite orb_true_r. }
    destruct GG as [G1 G2]. rewrite G1, G2 in H2. fold w. split; [intros _; now apply H2|].
    intros NI'. exfalso. apply NI'. now left.
  - assert (GG : mget N C1 i j = mget N C i j /\ mget N C1 j i = mget N C j i).
    { rewrite !G, Z1, Z2. now split. }
    destruct GG as [G1 G2]. rewrite G1, G2 in *.
    split; [intros [X|X]; [exfalso; apply D; split; congruence|auto]|].
    intros NI'. apply H2. intros X. apply NI'. now right.
Qed.
End Mx.
