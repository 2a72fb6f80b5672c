(** Small list lemmas missing from the standard library. *)
From Coq Require Import List Arith Lia.
Import ListNotations.
Set Implicit Arguments.

Lemma Forall2_len {A B} (P : A -> B -> Prop) l l' : Forall2 P l l' -> length l = length l'.
Proof. induction 1; simpl; congruence. Qed.

Lemma Forall2_nth {A B} (P : A -> B -> Prop) l l' i b :
  Forall2 P l l' -> nth_error l' i = Some b -> exists a, nth_error l i = Some a /\ P a b.
Proof.
  intros F; revert i; induction F as [|a' b' l l' H F IH]; intros [|i] E; simpl in *; try discriminate.
  - inversion E; subst. eauto.
  - auto.
Qed.

Lemma Forall2_nth_l {A B} (P : A -> B -> Prop) l l' i a :
  Forall2 P l l' -> nth_error l i = Some a -> exists b, nth_error l' i = Some b /\ P a b.
Proof.
  intros F; revert i; induction F as [|a' b' l l' H F IH]; intros [|i] E; simpl in *; try discriminate.
  - inversion E; subst. eauto.
  - auto.
Qed.

Lemma Forall2_of_nth {A B} (P : A -> B -> Prop) l l' :
  length l = length l' ->
  (forall i a b, nth_error l i = Some a -> nth_error l' i = Some b -> P a b) -> Forall2 P l l'.
Proof.
  revert l'; induction l as [|a l IH]; intros [|b l'] L H; simpl in *; try discriminate; constructor.
  - apply (H 0); reflexivity.
  - apply IH; [lia|]. intros i x y. apply (H (S i)).
Qed.

Lemma firstn_add {A} (l : list A) p k : firstn (p + k) l = firstn p l ++ firstn k (skipn p l).
Proof.
  revert p; induction l as [|x l IH]; intros [|p]; simpl; try reflexivity.
  - now rewrite firstn_nil.
  - now rewrite IH.
Qed.

Lemma firstn_S_snoc {A} (l : list A) n : n < length l ->
  exists y, nth_error l n = Some y /\ firstn (S n) l = firstn n l ++ [y].
Proof.
  revert n; induction l as [|x l IH]; intros [|n] H; simpl in *; try lia.
  - now exists x.
  - destruct (IH n) as [y [E1 E2]]; [lia|]. exists y. now rewrite <- E2.
Qed.

Lemma nth_error_firstn_lt {A} (l : list A) n i : i < n -> nth_error (firstn n l) i = nth_error l i.
Proof.
  revert n i; induction l as [|x l IH]; intros [|n] [|i] H; simpl; try lia; auto.
  apply IH; lia.
Qed.

Lemma nth_error_skipn {A} (l : list A) n i : nth_error (skipn n l) i = nth_error l (n + i).
Proof.
  revert n; induction l as [|x l IH]; intros [|n]; simpl; auto.
  now destruct i.
Qed.

Lemma nth_error_map_some {A B} (f : A -> B) l i b :
  nth_error (map f l) i = Some b -> exists a, nth_error l i = Some a /\ b = f a.
Proof.
  rewrite nth_error_map. destruct (nth_error l i); simpl; intros H; inversion H; eauto.
Qed.

Lemma nth_error_seq start len i j : nth_error (seq start len) i = Some j -> j = start + i /\ i < len.
Proof.
  revert start i; induction len as [|len IH]; intros start [|i] H; simpl in *; try discriminate.
  - inversion H; lia.
  - apply IH in H. lia.
Qed.

Lemma nth_error_seq_lt start len i : i < len -> nth_error (seq start len) i = Some (start + i).
Proof.
  revert start i; induction len as [|len IH]; intros start [|i] H; simpl; try lia.
  - f_equal; lia.
  - rewrite IH by lia. f_equal; lia.
Qed.

Lemma nth_error_ext {A} (l l' : list A) : (forall i, nth_error l i = nth_error l' i) -> l = l'.
Proof.
  revert l'; induction l as [|x l IH]; intros [|y l'] H.
  - reflexivity.
  - specialize (H 0); discriminate.
  - specialize (H 0); discriminate.
  - pose proof (H 0) as H0; inversion H0. f_equal. apply IH. intros i. apply (H (S i)).
Qed.

Lemma nth_error_rev {A} (l : list A) i : i < length l ->
  nth_error (rev l) i = nth_error l (length l - S i).
Proof.
  revert i; induction l as [|x l IH]; intros i H; simpl in *; [lia|].
  destruct (Nat.eq_dec i (length l)) as [->|N].
  - rewrite nth_error_app2; rewrite rev_length; [|lia].
    rewrite Nat.sub_diag. replace (length l - length l) with 0 by lia. reflexivity.
  - rewrite nth_error_app1 by (rewrite rev_length; lia).
    rewrite IH by lia. replace (length l - i) with (S (length l - S i)) by lia. reflexivity.
Qed.

Lemma nth_error_combine {A B} (l : list A) (l' : list B) i a b :
  nth_error (combine l l') i = Some (a, b) <-> nth_error l i = Some a /\ nth_error l' i = Some b.
Proof.
  revert l' i; induction l as [|x l IH]; intros [|y l'] [|i]; simpl;
    try (split; [discriminate|intros [H1 H2]; discriminate]).
  - split; [intros H; inversion H; auto|intros [H1 H2]; congruence].
  - apply IH.
Qed.

Lemma in_nth_error {A} (l : list A) x : In x l <-> exists i, nth_error l i = Some x.
Proof. split; [apply In_nth_error|intros [i H]; eapply nth_error_In; eauto]. Qed.
