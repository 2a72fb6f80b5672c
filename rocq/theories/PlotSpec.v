(** What the figures should show, in terms of the arrays handed to the plotting functions. *)
From Verif Require Import Base Num UtilsSpec PlotModel.
From Coq Require Import List ZArith Bool String Reals.
Import ListNotations.
Local Open Scope R_scope.

Definition smallest (seen : list R) (v : R) : Prop := In v seen /\ forall y, In y seen -> v <= y.
Definition is_mean (bs : list R) (m : R) : Prop := m * INR (List.length bs) = Rsum bs.
(** sample standard deviation about the mean [m]; 0 for a single value *)
Definition is_std (bs : list R) (m s : R) : Prop :=
  0 <= s /\ s * s * (INR (List.length bs) - 1) = Rsum (map (fun b => (b - m) * (b - m)) bs) /\ (List.length bs = 1%nat -> s = 0).

(** a curve with its band *)
Record shown : Type := mkshown { sh_x : list R; sh_y : list R; sh_lo : list R; sh_hi : list R }.

(** point j of the curve is the mean over the rounds of the best of the first num_init + j values, the band has half-width shade times their
    standard deviation, and there is a point for every iteration and one for the initial values *)
Definition shows_best (num_init n : nat) (range_shade : R) (rounds : list (list R)) (c : shown) : Prop :=
  List.length (sh_x c) = S (n - num_init) /\ List.length (sh_y c) = S (n - num_init) /\ List.length (sh_lo c) = S (n - num_init) /\ List.length (sh_hi c) = S (n - num_init) /\
  forall j y l u, nth_error (sh_y c) j = Some y -> nth_error (sh_lo c) j = Some l -> nth_error (sh_hi c) j = Some u ->
    exists bs s, Forall2 (fun row b => smallest (firstn (num_init + j) row) b) rounds bs /\ is_mean bs y /\ is_std bs y s /\
      l = y - range_shade * s /\ u = y + range_shade * s.
(** the horizontal axis counts iterations *)
Definition counts (xs : list R) : Prop := forall j x, nth_error xs j = Some x -> x = INR j.
(** the horizontal axis is the mean over the rounds of the time spent on the first j iterations; [kept] selects the times of the iterations *)
Definition elapsed (kept : list R -> list R) (rounds : list (list R)) (xs : list R) : Prop :=
  forall j x, nth_error xs j = Some x -> x * INR (List.length rounds) = Rsum (map (fun row => Rsum (firstn j (kept row))) rounds).

(** the drawing commands for one curve per experiment, in order, with labels, colours and markers in turn *)
Fixpoint figure (k ncolors nmarkers : nat) (draw_std include_marker : bool) (labels : list string) (cs : list shown) : list (draw NumR) :=
  match labels, cs with
  | label :: labels', c :: cs' =>
      Line 0 (sh_x c : list NumR) (sh_y c) (Some label) (Palette (k mod ncolors)) (if include_marker then Some (k mod nmarkers)%nat else None)
      :: (if draw_std then [Band 0 (sh_x c : list NumR) (sh_lo c) (sh_hi c) (Palette (k mod ncolors))] else [])
      ++ figure (S k) ncolors nmarkers draw_std include_marker labels' cs'
  | _, _ => []
  end.
(** what follows the curves: the legend, the files (if a path and a name are given) and the display *)
Definition closing {N : Num} (prefix : string) (labels : list string) (draw_std include_legend : bool) (path_save str_postfix : option string) : list (draw N) :=
  (if include_legend then [Legend] else []) ++
  match path_save, str_postfix with
  | Some p, Some s => [SaveFigure p ((prefix ++ (if draw_std then "mean_std_" else "mean_only_") ++ s) ++ ".pdf")%string; SaveLegend p ("legend_" ++ s ++ ".pdf")%string labels]
  | _, _ => []
  end ++ [Show].

(** the points marked in a figure, with their colours, in drawing order *)
Definition marked {N : Num} (t : list (draw N)) : list (N * N * paint) :=
  flat_map (fun d => match d with Marks _ xs ys p => map (fun q => (q, p)) (combine xs ys) | _ => [] end) t.
(** colours of the points of a step: the first [k] are initial, the last one is the latest unless all are initial *)
Definition step_colours (num_init : option Z) (n : nat) : list paint :=
  match num_init with
  | Some k => if (k <? Z.of_nat n)%Z
              then let i := if (k <? 0)%Z then Z.to_nat (Z.of_nat n + k) else Z.to_nat k in
                   repeat (Named "saddlebrown") i ++ repeat (Named "r") (n - 1 - i) ++ [Named "orange"]
              else repeat (Named "saddlebrown") n
  | None => repeat (Named "r") (n - 1) ++ [Named "orange"]
  end.
Definition largest (seen : list R) (v : R) : Prop := In v seen /\ forall y, In y seen -> y <= v.
