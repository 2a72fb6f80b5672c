(** State, trace and exceptions: [M W E A] threads a world [W], records events [E] and returns a
    result or an exception.  State changes made before an exception persist, as in Python. *)
From Verif Require Import Base.
From Coq Require Import List.

Section Monad.
Context {W E : Type}.
Definition M (A : Type) : Type := W -> W * list E * res A.

Definition ret {A} (a : A) : M A := fun w => (w, [], Ok a).
Definition raise {A} (e : exn) : M A := fun w => (w, [], Raise e).
Definition lift {A} (r : res A) : M A := fun w => (w, [], r).
Definition bind {A B} (m : M A) (k : A -> M B) : M B := fun w =>
  match m w with
  | (w1, t1, Ok a) => match k a w1 with (w2, t2, r) => (w2, (t1 ++ t2)%list, r) end
  | (w1, t1, Raise e) => (w1, t1, Raise e)
  end.
(** an external effect without events *)
Definition ext {A} (f : W -> W * res A) : M A := fun w => let (w', r) := f w in (w', [], r).
(** an external effect that is recorded, with its outcome *)
Definition ext_ev {A} (ev : res A -> E) (f : W -> W * res A) : M A := fun w => let (w', r) := f w in (w', [ev r], r).

Fixpoint mmapM {A B} (f : A -> M B) (l : list A) : M (list B) :=
  match l with
  | [] => ret []
  | x :: r => bind (f x) (fun y => bind (mmapM f r) (fun ys => ret (y :: ys)))
  end.
End Monad.
Arguments M : clear implicits.

Notation "'mlet' x <- m ; k" := (bind m (fun x => k)) (at level 200, x pattern, m at level 100, k at level 200).
Notation "'massert' b ; k" := (bind (lift (assert_ b)) (fun _ => k)) (at level 200, b at level 100, k at level 200).

Lemma bind_ok {W E A B} (m : M W E A) (k : A -> M W E B) w w2 t b :
  bind m k w = (w2, t, Ok b) ->
  exists w1 t1 a t2, m w = (w1, t1, Ok a) /\ k a w1 = (w2, t2, Ok b) /\ t = (t1 ++ t2)%list.
Proof.
  unfold bind. destruct (m w) as [[w1 t1] [a|e]]; [|discriminate].
  destruct (k a w1) as [[w3 t3] r] eqn:K. intros H. inversion H; subst. exists w1, t1, a, t3. auto.
Qed.

Lemma bind_raise {W E A B} (m : M W E A) (k : A -> M W E B) w w2 t e :
  bind m k w = (w2, t, Raise e) ->
  (m w = (w2, t, Raise e)) \/
  exists w1 t1 a t2, m w = (w1, t1, Ok a) /\ k a w1 = (w2, t2, Raise e) /\ t = (t1 ++ t2)%list.
Proof.
  unfold bind. destruct (m w) as [[w1 t1] [a|e']].
  - destruct (k a w1) as [[w3 t3] r] eqn:K. intros H. inversion H; subst. right. exists w1, t1, a, t3. auto.
  - intros H. inversion H; subst. now left.
Qed.

Lemma lift_ok {W E A} (r : res A) w w2 t a : @lift W E A r w = (w2, t, Ok a) -> r = Ok a /\ w2 = w /\ t = [].
Proof. unfold lift. intros H. inversion H; subst. auto. Qed.
Lemma lift_raise {W E A} (r : res A) w w2 t e : @lift W E A r w = (w2, t, Raise e) -> r = Raise e /\ w2 = w /\ t = [].
Proof. unfold lift. intros H. inversion H; subst. auto. Qed.
Lemma ret_ok {W E A} (a b : A) w w2 t : @ret W E A a w = (w2, t, Ok b) -> a = b /\ w2 = w /\ t = [].
Proof. unfold ret. intros H. inversion H; subst. auto. Qed.
Lemma ret_raise {W E A} (a : A) w w2 t e : @ret W E A a w = (w2, t, Raise e) -> False.
Proof. unfold ret. intros H. inversion H. Qed.
Lemma ext_ok {W E A} (f : W -> W * res A) w w2 t a : @ext W E A f w = (w2, t, Ok a) -> f w = (w2, Ok a) /\ t = [].
Proof. unfold ext. destruct (f w) as [w' r]. intros H. inversion H; subst. auto. Qed.
Lemma ext_raise {W E A} (f : W -> W * res A) w w2 t e : @ext W E A f w = (w2, t, Raise e) -> f w = (w2, Raise e) /\ t = [].
Proof. unfold ext. destruct (f w) as [w' r]. intros H. inversion H; subst. auto. Qed.
Lemma ext_ev_inv {W E A} (ev : res A -> E) (f : W -> W * res A) w w2 t r :
  ext_ev ev f w = (w2, t, r) -> f w = (w2, r) /\ t = [ev r].
Proof. unfold ext_ev. destruct (f w) as [w' r']. intros H. inversion H; subst. auto. Qed.

(** pick apart every monadic equation in the context *)
Ltac minv :=
  repeat match goal with
  | H : bind _ _ _ = (_, _, Ok _) |- _ =>
      let w := fresh "w" in let t := fresh "t" in let a := fresh "a" in let t2 := fresh "t" in
      let H1 := fresh "H" in let H2 := fresh "H" in
      apply bind_ok in H; destruct H as (w & t & a & t2 & H1 & H2 & ?)
  | H : lift _ _ = (_, _, Ok _) |- _ => apply lift_ok in H; destruct H as (? & ? & ?)
  | H : ret _ _ = (_, _, Ok _) |- _ => apply ret_ok in H; destruct H as (? & ? & ?)
  | H : ext _ _ = (_, _, Ok _) |- _ => apply ext_ok in H; destruct H as (? & ?)
  | H : ext_ev _ _ _ = (_, _, _) |- _ => apply ext_ev_inv in H; destruct H as (? & ?)
  end.
