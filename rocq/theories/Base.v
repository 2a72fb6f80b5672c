(** Common vocabulary of the model: Python exceptions as values, assertions,
    Python list/array primitives that several modules share. *)
From Coq Require Export List ZArith Lia Bool String.
From Coq Require Import Arith.
Export ListNotations.
Set Implicit Arguments.

(** Python exceptions that the modelled code raises or lets through.
    [TargetError]/[ModelError n] stand for an arbitrary exception of user code or of a library.
    [OutsideModel] marks inputs on which this model makes no claim. *)
Inductive exn : Type :=
| AssertionError | ValueError | TypeError | NotImplementedError | IndexError
| KeyError | LinAlgError | UnboundLocalError | ZeroDivisionError
| TargetError (n : nat) | ModelError (n : nat)
| OutsideModel.

Inductive res (A : Type) : Type :=
| Ok (a : A)
| Raise (e : exn).
Arguments Ok {A} a.
Arguments Raise {A} e.

Definition rbind {A B} (m : res A) (f : A -> res B) : res B :=
  match m with Ok a => f a | Raise e => Raise e end.
Notation "'do' x <- m ; k" := (rbind m (fun x => k)) (at level 200, x pattern, m at level 100, k at level 200).

Definition rmap {A B} (f : A -> B) (m : res A) : res B :=
  match m with Ok a => Ok (f a) | Raise e => Raise e end.

(** [assert b] of Python *)
Definition assert_ (b : bool) : res unit := if b then Ok tt else Raise AssertionError.
Notation "'assert' b ; k" := (rbind (assert_ b) (fun _ => k)) (at level 200, b at level 100, k at level 200).

Definition is_ok {A} (m : res A) : bool := match m with Ok _ => true | Raise _ => false end.

Fixpoint mapM {A B} (f : A -> res B) (l : list A) : res (list B) :=
  match l with
  | [] => Ok []
  | x :: r => do y <- f x; do ys <- mapM f r; Ok (y :: ys)
  end.

(** Python slices [l[:k]] and [l[k:]] for an arbitrary integer [k] (negative counts from the end). *)
Definition slice_pos {A} (l : list A) (k : Z) : nat :=
  if (k <? 0)%Z then Z.to_nat (Z.of_nat (List.length l) + k) else Nat.min (Z.to_nat k) (List.length l).
Definition slice_to {A} (l : list A) (k : Z) : list A := firstn (slice_pos l k) l.
Definition slice_from {A} (l : list A) (k : Z) : list A := skipn (slice_pos l k) l.

(** A two-dimensional array of shape [(length mrows, mcols)]. *)
Record mat (A : Type) : Type := mkmat { mrows : list (list A); mcols : nat }.
Arguments mkmat {A} mrows mcols.
Definition nrows {A} (m : mat A) : nat := List.length (mrows m).
Definition mat_wf {A} (m : mat A) : Prop := forall r, In r (mrows m) -> List.length r = mcols m.

Fixpoint cumsum_from {A} (add : A -> A -> A) (acc : A) (l : list A) : list A :=
  match l with
  | [] => []
  | x :: r => let a := add acc x in a :: cumsum_from add a r
  end.

Lemma slice_split {A} (l : list A) k : slice_to l k ++ slice_from l k = l.
Proof. apply firstn_skipn. Qed.

Lemma slice_pos_le {A} (l : list A) k : (slice_pos l k <= List.length l)%nat.
Proof.
  unfold slice_pos. destruct (Z.ltb_spec k 0); lia.
Qed.

Lemma mapM_ok_length {A B} (f : A -> res B) l r : mapM f l = Ok r -> List.length r = List.length l.
Proof.
  revert r; induction l as [|x l IH]; simpl; intros r H.
  - now inversion H.
  - destruct (f x) as [y|]; simpl in H; [|discriminate].
    destruct (mapM f l) as [ys|]; simpl in H; [|discriminate].
    inversion H; simpl. now rewrite (IH ys).
Qed.

Lemma mapM_ok_iff {A B} (f : A -> res B) l r :
  mapM f l = Ok r <-> Forall2 (fun x y => f x = Ok y) l r.
Proof.
  revert r; induction l as [|x l IH]; intros r; simpl; split; intros H.
  - inversion H; constructor.
  - now inversion H.
  - destruct (f x) as [y|] eqn:E; simpl in H; [|discriminate].
    destruct (mapM f l) as [ys|]; simpl in H; [|discriminate].
    inversion H; subst. constructor; [exact E|]. now apply IH.
  - inversion H as [|? y ? ys E F]; subst. rewrite E; simpl.
    apply IH in F. now rewrite F.
Qed.

Lemma Ok_inj {A} (a b : A) : Ok a = Ok b -> a = b.
Proof. congruence. Qed.
