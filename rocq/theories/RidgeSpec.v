(** Vocabulary: penalised least squares over kernel expansions, totals of the outputs per distinct input,
    inputs with the same mutual distances, coordinates that are constant.  Only the data types of the model and the
    kernels of [CovSpec] are used. *)
From Verif Require Import Base Num UtilsSpec HypsModel CovModel KernelSpec CovSpec GPModel GPSpec.
From Coq Require Import List Reals String ClassicalEpsilon.
Import ListNotations.
Open Scope R_scope.
Set Implicit Arguments.

(** the function sum_i c_i K (x_i, .) of [n] centres [x 0 .. x (n - 1)] *)
Definition expansion (K : elem -> elem -> R) (n : nat) (x : nat -> elem) (c : nat -> R) (e : elem) : R :=
  Rsum (map (fun i => c i * K (x i) e) (seq 0 n)).
(** its squared norm in the space of the kernel: sum_ij c_i c_j K (x_i, x_j) *)
Definition roughness (K : elem -> elem -> R) (n : nat) (x : nat -> elem) (c : nat -> R) : R :=
  Rsum (map (fun i => Rsum (map (fun j => c i * c j * K (x i) (x j)) (seq 0 n))) (seq 0 n)).
(** the sum of the squared errors of prior mean + expansion at the measured inputs, plus [t] times the roughness *)
Definition penalised (K : elem -> elem -> R) (m : elem -> R) (t : R) (X : arr NumR) (Y : mat NumR) (c : nat -> R) : R :=
  Rsum (map (fun i => let e := out Y i - (m (elem_nth X i) + expansion K (alen X) (elem_nth X) c (elem_nth X i)) in e * e) (seq 0 (alen X)))
  + t * roughness K (alen X) (elem_nth X) c.

(** the sum of the outputs measured at the input [e] *)
Definition total_out (X : arr NumR) (Y : mat NumR) (e : elem) : R :=
  Rsum (map (fun i => if excluded_middle_informative (elem_nth X i = e) then out Y i else 0) (seq 0 (alen X))).

(** the points of [e1] and [e2] are at the same scaled distances as those of [e1'] and [e2'] *)
Definition congruent (ls : pyval NumR) (d : nat) (ls' : pyval NumR) (d' : nat) (e1 e2 e1' e2' : elem) : Prop :=
  List.length (points e1) = List.length (points e1') /\ List.length (points e2) = List.length (points e2') /\
  forall i j, (i < List.length (points e1))%nat -> (j < List.length (points e2))%nat ->
    scaled_dist (ls_at ls) d (nth i (points e1) []) (nth j (points e2) []) = scaled_dist (ls_at ls') d' (nth i (points e1') []) (nth j (points e2') []).
(** two lists of inputs with the same mutual distances *)
Definition isometric (ls : pyval NumR) (d : nat) (ls' : pyval NumR) (d' : nat) (l l' : list elem) : Prop :=
  List.length l = List.length l' /\
  forall a b, (a < List.length l)%nat -> (b < List.length l)%nat ->
    congruent ls d ls' d' (nth a l (EPoint [])) (nth b l (EPoint [])) (nth a l' (EPoint [])) (nth b l' (EPoint [])).

(** a list without its entry [k], inputs without coordinate [k] *)
Definition without {A : Type} (k : nat) (x : list A) : list A := firstn k x ++ skipn (S k) x.
Definition without_ls (k : nat) (ls : pyval NumR) : pyval NumR :=
  match ls with PArr _ l => PArr NumR (without k l) | v => v end.
Definition without_mat (k : nat) (x : mat NumR) : mat NumR := mkmat (map (without k) (mrows x)) (pred (mcols x)).
Definition without_arr (k : nat) (X : arr NumR) : arr NumR :=
  match X with
  | A2 _ x => A2 NumR (without_mat k x)
  | A3 _ l s d => A3 NumR (map (without_mat k) l) s (pred d)
  end.
Definition without_elem (k : nat) (e : elem) : elem :=
  match e with EPoint x => EPoint (without k x) | ESet xs => ESet (map (without k) xs) end.
(** coordinate [k] is [v] at every point of every input *)
Definition constant_at (k : nat) (v : R) (l : list elem) : Prop := forall e x, In e l -> In x (points e) -> nth k x 0 = v.
