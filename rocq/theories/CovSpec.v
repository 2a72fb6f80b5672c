(** What covariance matrices should contain (exact reals), written with the textbook kernels of
    [KernelSpec] and the data types of the model only. *)
From Verif Require Import Base Num UtilsSpec HypsModel CovModel KernelSpec.
From Coq Require Import List Reals String.
Import ListNotations.
Open Scope R_scope.
Local Open Scope string_scope.
Set Implicit Arguments.

(** a dictionary of hyperparameters for [d]-dimensional inputs *)
Definition has_hyps (h : dict NumR) (d : nat) (ls : pyval NumR) (signal noise : R) : Prop :=
  dget h "noise" = Some (PFloat NumR noise) /\ dget h "signal" = Some (PFloat NumR signal) /\
  dget h "lengthscales" = Some ls /\
  match ls with PArr _ l => List.length l = d | PFloat _ _ => True | POther _ _ => False end.
(** the lengthscale of coordinate [i] *)
Definition ls_at (ls : pyval NumR) (i : nat) : R :=
  match ls with PArr _ l => nth i l 0 | PFloat _ l => l | POther _ _ => 1 end.
Definition ls_nonzero (ls : pyval NumR) (d : nat) : Prop := forall i, (i < d)%nat -> ls_at ls i <> 0.

(** kernel names *)
Definition profile_of (name : string) : option (R -> R) :=
  if (name =? "eq") || (name =? "se") then Some se_profile
  else if name =? "matern32" then Some matern32_profile
  else if name =? "matern52" then Some matern52_profile
  else None.
Definition set_profile_of (name : string) : option (R -> R) :=
  if (name =? "set_eq") || (name =? "set_se") then Some se_profile
  else if name =? "set_matern32" then Some matern32_profile
  else if name =? "set_matern52" then Some matern52_profile
  else None.

(** the base kernel: signal^2 times the profile of the scaled distance *)
Definition base_kernel (p : R -> R) (ls : pyval NumR) (signal : R) (d : nat) (x y : list R) : R :=
  signal * signal * p (scaled_dist (ls_at ls) d x y).

(** inputs: points, or finite sets of points *)
Inductive elem : Type := EPoint (x : list R) | ESet (xs : list (list R)).
Definition elems (a : arr NumR) : list elem :=
  match a with
  | A2 _ m => map EPoint (mrows m)
  | A3 _ l _ _ => map (fun m => ESet (mrows m)) l
  end.
Definition point (e : elem) : list R := match e with EPoint x => x | ESet _ => [] end.
Definition points (e : elem) : list (list R) := match e with EPoint x => [x] | ESet xs => xs end.
Definition elem_nth (a : arr NumR) (i : nat) : elem := nth i (elems a) (EPoint []).

(** the covariance of two inputs under the named kernel *)
Definition cov_of (name : string) (ls : pyval NumR) (signal : R) (d : nat) : option (elem -> elem -> R) :=
  match profile_of name, set_profile_of name with
  | Some p, _ => Some (fun e e' => base_kernel p ls signal d (point e) (point e'))
  | None, Some p => Some (fun e e' => set_average (base_kernel p ls signal d) (points e) (points e'))
  | None, None => None
  end.

(** inputs suitable for the named kernel: rectangular, [d]-dimensional, sets non-empty *)
Definition fits (name : string) (a : arr NumR) (d : nat) : Prop :=
  arr_wf a /\
  match a with
  | A2 _ m => profile_of name <> None /\ mcols m = d
  | A3 _ l s d' => set_profile_of name <> None /\ d' = d /\ (0 < s)%nat
  end.

(** (n, m) arrays: sizes and entries *)
Definition is_mx (n m : nat) (c : list (list R)) : Prop :=
  List.length c = n /\ forall r, In r c -> List.length r = m.
Definition at_ (c : list (list R)) (i j : nat) : R := nth j (nth i c []) 0.

(** quadratic form of the leading (n, n) part *)
Definition quad (n : nat) (c : list (list R)) (w : nat -> R) : R :=
  Rsum (map (fun i => Rsum (map (fun j => w i * w j * at_ c i j) (seq 0 n))) (seq 0 n)).
Definition symmetric (n : nat) (c : list (list R)) : Prop :=
  forall i j, (i < n)%nat -> (j < n)%nat -> at_ c i j = at_ c j i.
Definition semidefinite (n : nat) (c : list (list R)) : Prop := forall w, 0 <= quad n c w.
Definition definite (n : nat) (c : list (list R)) : Prop :=
  forall w, (exists i, (i < n)%nat /\ w i <> 0) -> 0 < quad n c w.

(** matrix product and identity, as entries *)
Definition prod_at (m : nat) (a b : list (list R)) (i j : nat) : R :=
  Rsum (map (fun k => at_ a i k * at_ b k j) (seq 0 m)).
Definition is_inverse (n : nat) (a b : list (list R)) : Prop :=
  is_mx n n b /\
  (forall i j, (i < n)%nat -> (j < n)%nat -> prod_at n a b i j = if Nat.eqb i j then 1 else 0) /\
  (forall i j, (i < n)%nat -> (j < n)%nat -> prod_at n b a i j = if Nat.eqb i j then 1 else 0).
(** l is lower triangular with positive diagonal and l l^T = a *)
Definition is_cholesky (n : nat) (a l : list (list R)) : Prop :=
  is_mx n n l /\
  (forall i j, (i < n)%nat -> (j < n)%nat -> (i < j)%nat -> at_ l i j = 0) /\
  (forall i, (i < n)%nat -> 0 < at_ l i i) /\
  (forall i j, (i < n)%nat -> (j < n)%nat -> at_ a i j = Rsum (map (fun k => at_ l i k * at_ l j k) (seq 0 n))).

(** contracts of the numerical libraries in exact arithmetic *)
Definition inv_contract (inv : list (list R) -> res (list (list R))) : Prop :=
  forall n a, is_mx n n a ->
    ((exists b, is_inverse n a b) -> exists b, inv a = Ok b /\ is_inverse n a b) /\
    (~ (exists b, is_inverse n a b) -> inv a = Raise LinAlgError).
Definition chol_contract (chol : list (list R) -> res (list (list R))) : Prop :=
  forall n a, is_mx n n a -> symmetric n a ->
    ((exists l, is_cholesky n a l) -> exists l, chol a = Ok l /\ is_cholesky n a l) /\
    (~ (exists l, is_cholesky n a l) -> chol a = Raise LinAlgError).

(** moving both points by the same axis-wise reflection and translation *)
Definition moved (sg tr : nat -> R) (x : list R) : list R :=
  map (fun i => sg i * nth i x 0 + tr i) (seq 0 (List.length x)).

(** one value, through the public function on single-row inputs *)
Definition kernel_value (name : string) (h : dict NumR) (x y : list R) (v : R) : Prop :=
  forall jit : R, @cov_main NumR exp name (A2 NumR (mkmat [x] (List.length x))) (A2 NumR (mkmat [y] (List.length y))) h false jit
  = Ok [[v]].

(** the value of cov_set *)
Definition set_value (b : string) (d : nat) (ls : pyval NumR) (s : R) (xs ys : list (list R)) (v : R) : Prop :=
  @cov_set NumR exp b (mkmat xs d) (mkmat ys d) ls s = Ok v.
Definition all_dim (d : nat) (xs : list (list R)) : Prop := forall x, In x xs -> List.length x = d.

(** is there one lengthscale per coordinate (automatic relevance determination)? *)
Definition is_arr (ls : pyval NumR) : bool := match ls with PArr _ _ => true | _ => false end.
(** entry (i, j) of the training covariance when component [p] of the hyperparameter vector is [t] *)
Definition cov_at (name : string) (X : arr NumR) (fx ard : bool) (n0 : R) (th : list R) (p i j : nat) (t : R) : R :=
  match (do h' <- @restore_hyps NumR name (lset th p t) true ard fx n0; @train_cov NumR exp X h' name) with
  | Ok c => at_ c i j
  | Raise _ => 0
  end.
