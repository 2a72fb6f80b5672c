(** Vocabulary for the effect of an increasing affine change of the responses. *)
From Verif Require Import Base Num HypsModel WrapperModel BOModel.
From Coq Require Import List Reals ZArith.

(** the responses in another unit and with another origin *)
Definition affine (a b : R) (y : R) : R := (a * y + b)%R.
Definition affine_target {W} (a b : R) (f : list NumR -> W -> W * res NumR) (x : list NumR) (w : W) : W * res NumR :=
  let (w', r) := f x w in (w', rmap (affine a b) r).
(** dict_info with other original responses *)
Definition set_gp_responses (K : Type) (Y : list NumR) (g : gp_info NumR K) : gp_info NumR K :=
  mkgpi NumR K (gi_points NumR K g) (gi_acqs NumR K g) Y (gi_Ynorm NumR K g) (gi_cov NumR K g) (gi_inv NumR K g) (gi_hyps NumR K g)
    (gi_tsur NumR K g) (gi_tacq NumR K g) (gi_tall NumR K g).
Definition set_rf_responses {T : Type} (Y : list NumR) (g : rf_info NumR T) : rf_info NumR T :=
  mkrfi NumR T (ri_points NumR T g) (ri_acqs NumR T g) Y (ri_Ynorm NumR T g) (ri_trees NumR T g) (ri_tsur NumR T g) (ri_tacq NumR T g) (ri_tall NumR T g).
(** the same run, seen in the other unit: only the responses differ *)
Definition affine_event (a b : R) (e : event NumR) : event NumR :=
  match e with
  | EvModel X Y r => EvModel X (map (affine a b) Y) r
  | EvTarget x r => EvTarget x (rmap (affine a b) r)
  end.
Definition affine_run (a b : R) (r : run_out NumR) : run_out NumR :=
  mkrun (ro_X r) (map (affine a b) (ro_Y r)) (ro_tall r) (ro_tsur r) (ro_tacq r).
(** the responses of the initial points of a run of num_iter iterations *)
Definition first_responses (num_iter : Z) (r : run_out NumR) : list NumR := firstn (List.length (ro_Y r) - Z.to_nat num_iter) (ro_Y r).
