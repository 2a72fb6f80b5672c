(** Bayesian optimisation in other units of the inputs: one increasing affine map for each coordinate of the search space. *)
From Verif Require Import Base Num Monad TreesModel TreesUnitsSpec SamplingModel WrapperModel BOModel.
From Coq Require Import List ZArith Bool Reals String.
Import ListNotations.
Local Open Scope R_scope.

(** the search space in the new units *)
Fixpoint conv_range (ax : axes) (r : list (R * R)) : list (R * R) :=
  match ax, r with ac :: ax, b :: r => (on_axis ac (fst b), on_axis ac (snd b)) :: conv_range ax r | _, _ => [] end.
(** only the origins of the coordinates differ *)
Definition translation (ax : axes) : Prop := Forall (fun ac => fst ac = 1) ax.

(** what BOwTrees.optimize reports besides the next point; acquisition values, responses and times are not converted *)
Definition conv_rf_info (ax : axes) (g : rf_info NumR (list (tree NumR))) : rf_info NumR (list (tree NumR)) :=
  mkrfi NumR _ (conv_mat ax (ri_points NumR _ g)) (ri_acqs NumR _ g) (ri_Yorig NumR _ g) (ri_Ynorm NumR _ g)
    (map (conv_tree ax (1, 0)) (ri_trees NumR _ g)) (ri_tsur NumR _ g) (ri_tacq NumR _ g) (ri_tall NumR _ g).
Definition conv_fitev (ax : axes) (e : fitev NumR) : fitev NumR := let '(s, X, Y) := e in (s, conv_mat ax X, Y).

Definition conv_info (ax : axes) (g : info NumR) : info NumR := mkinfo (conv_mat ax (in_points g)) (in_acqs g) (in_tsur g) (in_tacq g).
Definition conv_proposal (ax : axes) (p : list NumR * info NumR) : list NumR * info NumR := (conv_in ax (fst p), conv_info ax (snd p)).
(** what the surrogate and the target are asked *)
Definition conv_event (ax : axes) (e : event NumR) : event NumR :=
  match e with EvModel X Y r => EvModel (conv_mat ax X) Y (rmap (conv_proposal ax) r) | EvTarget x r => EvTarget (conv_in ax x) r end.
(** what a run returns *)
Definition conv_run (ax : axes) (r : run_out NumR) : run_out NumR := mkrun (conv_mat ax (ro_X r)) (ro_Y r) (ro_tall r) (ro_tsur r) (ro_tacq r).

(** the same world; events and results converted *)
Definition converted {W E E' A B} (fe : E -> E') (f : A -> B) (m : W * list E * res A) : W * list E' * res B := let '(w, t, r) := m in (w, map fe t, rmap f r).

(** the constructor's arguments with another search space *)
Definition with_range (r : list (R * R)) (a : bo_args NumR) : bo_args NumR :=
  mkargs NumR r (a_num_iter NumR a) (a_surrogate NumR a) (a_cov NumR a) (a_acq NumR a) (a_norm NumR a) (a_ard NumR a) (a_init NumR a) (a_samp NumR a)
    (a_opt_gp NumR a) (a_opt_tp NumR a) (a_opt_bo NumR a) (a_mlm NumR a) (a_msel NumR a) (a_num_samples NumR a).

(** scipy's quasi-random engines return rows with as many entries as asked for *)
Definition qmc_rows {W} (q : qmc_kind -> nat -> option Z -> Z -> W -> W * res (list (list NumR))) : Prop :=
  forall k d seed num w w' s, q k d seed num w = (w', Ok s) -> Forall (fun r => List.length r = d) s.
(** the same target in the new units *)
Definition same_target {W} (ax : axes) (f f' : list NumR -> W -> W * res NumR) : Prop :=
  forall x w, List.length x = List.length ax -> f' (conv_in ax x) w = f x w.
