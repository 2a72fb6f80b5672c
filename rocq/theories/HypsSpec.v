(** Specification vocabulary for hyperparameter dictionaries. *)
From Verif Require Import Base Num HypsModel UtilsSpec.
From Coq Require Import List ZArith Bool String Reals.
Set Implicit Arguments.
Local Open Scope string_scope.

(** the eight covariance names the library documents *)
Definition cov_names : list string :=
  ["eq"; "se"; "matern32"; "matern52"; "set_eq"; "set_se"; "set_matern32"; "set_matern52"].

Section Spec.
Context (N : Num).
(** a complete set of hyperparameters *)
Record hypset : Type := mkhyps {
  h_noise : N; h_dof : option N; h_signal : N; h_ls : list N + N }.

(** dictionary [d] binds exactly these entries *)
Definition binds (d : dict N) (h : hypset) : Prop :=
  dget d "noise" = Some (PFloat N (h_noise h)) /\
  dget d "dof" = option_map (PFloat N) (h_dof h) /\
  dget d "signal" = Some (PFloat N (h_signal h)) /\
  dget d "lengthscales" = Some (match h_ls h with inl l => PArr N l | inr x => PFloat N x end).

(** the vector layout: [noise] [dof] signal lengthscales *)
Definition layout (fix_noise : bool) (h : hypset) : list N :=
  ((if fix_noise then [] else [h_noise h]) ++
   (match h_dof h with Some nu => [nu] | None => [] end) ++
   [h_signal h] ++ (match h_ls h with inl l => l | inr x => [x] end))%list.
(** well-formed dictionary: what the documentation of validate_hyps_dict asks for *)
Definition is_float (o : option (pyval N)) : Prop := exists x, o = Some (PFloat N x).

Definition wellformed (d : dict N) (dim : Z) (use_gp : bool) : Prop :=
  is_float (dget d "noise") /\ is_float (dget d "signal") /\
  (use_gp = false -> is_float (dget d "dof")) /\
  (is_float (dget d "lengthscales") \/
   exists l, dget d "lengthscales" = Some (PArr N l) /\ Z.of_nat (List.length l) = dim).


(** clamping: infinite noise becomes +inf; dof at most 2 becomes 2.00001 *)
Definition clamp_noise (x : N) : N :=
  match ninf N with Some inf => if nle N inf (nabs N x) then inf else x | None => x end.
Definition clamp_dof (x : N) : N := if nle N x (nofZ N 2) then nlit N 200001 100000 else x.

End Spec.

(** admissible vector lengths *)
Definition admissible (use_gp use_ard fix_noise : bool) (n : nat) : Prop :=
  let base := ((if fix_noise then 0 else 1) + (if use_gp then 0 else 1) + 1)%nat in
  if use_ard then (base <= n)%nat else n = S base.

(** Euclidean distance and norm *)
Definition dist2 (a b : list R) : R := sqrt (Rsum (map (fun p => (fst p - snd p) * (fst p - snd p))%R (combine a b))).
Definition norm2 (a : list R) : R := sqrt (Rsum (map (fun x => x * x)%R a)).

Definition base_names : list string := ["eq"; "se"; "matern32"; "matern52"].
Definition set_names : list string := ["set_eq"; "set_se"; "set_matern32"; "set_matern52"].

Arguments mkhyps {N}.
Arguments clamp_noise N x : clear implicits. Arguments clamp_dof N x : clear implicits.
