(** utils_plotting.py: what the six plotting functions draw.

    A figure is the list of drawing commands issued so far; commands issued before an exception stay.  Kept of a command: the axes
    it goes to, the coordinates, the label, which entry of the palette or which named colour, and which entry of the markers.  Not
    modelled: fonts (_set_font_config, lines 25-41), axis labels, ticks, box and grid (_set_ax_config, 43-95, of which only the
    limits are kept), line widths, transparency, tight_layout, and how long a figure is shown (_show_figure, 121-143; one event).
    isinstance checks and [len(shape)] checks are expressed by the types. *)
From Verif Require Import Base Num Monad UtilsModel.
From Coq Require Import List ZArith Bool String Arith.
Import ListNotations.
Local Open Scope string_scope.

(** a three-dimensional array of shape (length cexps, crounds, ccols) *)
Record cube (A : Type) : Type := mkcube { cexps : list (list (list A)); crounds : nat; ccols : nat }.
Arguments mkcube {A}. Arguments cexps {A}. Arguments crounds {A}. Arguments ccols {A}.
Definition cube_wf {A} (c : cube A) : Prop :=
  forall e, In e (cexps c) -> List.length e = crounds c /\ forall r, In r e -> List.length r = ccols c.

(** a[i:j] *)
Definition slice_range {A} (l : list A) (i j : Z) : list A := skipn (slice_pos l i) (slice_to l j).
(** a[-1] *)
Definition last_item {A} (l : list A) : res A := match rev l with x :: _ => Ok x | [] => Raise IndexError end.

Inductive paint : Type := Palette (k : nat) | Named (s : string).

Section Plot.
Context (N : Num).

Inductive draw : Type :=
| Line (ax : nat) (xs ys : list N) (label : option string) (colour : paint) (marker : option nat)  (** ax.plot, a line *)
| Marks (ax : nat) (xs ys : list N) (colour : paint)                                               (** ax.plot, points *)
| Band (ax : nat) (xs lower upper : list N) (colour : paint)                                       (** ax.fill_between *)
| Xlim (ax : nat) (lo hi : N)                                                                      (** ax.set_xlim *)
| Legend                                                                                           (** plt.legend *)
| SaveFigure (path name : string)                                                                  (** plt.savefig *)
| SaveLegend (path name : string) (labels : list string)                                           (** fig_legend.savefig *)
| Show.                                                                                            (** plt.pause or plt.show *)

Notation D := (M unit draw).
Definition emit (d : draw) : D unit := fun w => (w, [d], Ok tt).

(** matplotlib: ax.plot raises ValueError unless x and y have the same first dimension *)
Definition line (ax : nat) (xs ys : list N) label colour marker : D unit :=
  if Nat.eqb (List.length xs) (List.length ys) then emit (Line ax xs ys label colour marker) else raise ValueError.
Definition marks (ax : nat) (xs ys : list N) colour : D unit :=
  if Nat.eqb (List.length xs) (List.length ys) then emit (Marks ax xs ys colour) else raise ValueError.

(** [y - range_shade * std] and [y + range_shade * std]; the two arrays have the same shape wherever this is used *)
Definition shade (op : N -> N -> N) (range_shade : N) (ys ss : list N) : list N :=
  map (fun p => op (fst p) (nmul N range_shade (snd p))) (combine ys ss).
(** ax.fill_between(x, y - range_shade * std, y + range_shade * std); ValueError unless the arrays have the same length *)
Definition band (ax : nat) (xs ys ss : list N) (range_shade : N) colour : D unit :=
  if Nat.eqb (List.length xs) (List.length ys) then emit (Band ax xs (shade (nsub N) range_shade ys ss) (shade (nadd N) range_shade ys ss) colour) else raise ValueError.

(** colors[k]; [ncolors] = len(colors) *)
Definition palette (ncolors k : nat) : D paint := if Nat.ltb k ncolors then ret (Palette k) else raise IndexError.
(** [k % len(a)] *)
Definition index_mod (k len : nat) : D nat := match len with O => raise ZeroDivisionError | _ => ret (Nat.modulo k len) end.

(** xlim_min=np.min(a), xlim_max=np.max(a) and set_xlim (lines 87-88) *)
Definition xlim_of (ax : nat) (l : list N) : D unit :=
  mlet lo <- lift (npmin N l); mlet hi <- lift (npmax N l); emit (Xlim ax lo hi).

(** lines 226-227 and alike; 97-118 *)
Definition save_figure (path_save str_postfix : option string) (prefix : string) : D unit :=
  match path_save, str_postfix with
  | Some p, Some s => emit (SaveFigure p (prefix ++ s ++ ".pdf"))
  | _, _ => ret tt
  end.

Definition flatten (m : mat N) : list N := List.concat (mrows m).

(** lines 146-228 *)
Definition plot_gp_via_sample (lib : bool) (ncolors : nat) (X Ys : mat N) (path_save str_postfix : option string) : D unit :=
  massert (Nat.eqb (mcols X) 1); massert (Nat.eqb (nrows X) (mcols Ys));
  if negb lib then ret tt else
  mlet _ <- mmapM (fun Y => mlet c <- palette ncolors 0; line 0 (flatten X) Y None c None) (mrows Ys);
  mlet _ <- xlim_of 0 (flatten X);
  mlet _ <- save_figure path_save str_postfix "gp_sampled_";
  emit Show.

(** lines 231-357 *)
Definition plot_gp_via_distribution (lib : bool) (ncolors : nat) (X_train Y_train X_test mean_test std_test : mat N) (Y_test : option (mat N))
    (path_save str_postfix : option string) (range_shade : N) : D unit :=
  massert (Nat.eqb (mcols X_train) (mcols X_test) && Nat.eqb (mcols X_test) 1);
  massert (Nat.eqb (mcols Y_train) 1);
  massert (Nat.eqb (nrows X_train) (nrows Y_train));
  massert (Nat.eqb (mcols mean_test) 1);
  massert (Nat.eqb (mcols std_test) 1);
  massert (Nat.eqb (nrows X_test) (nrows mean_test) && Nat.eqb (nrows mean_test) (nrows std_test));
  massert (match Y_test with Some Y => Nat.eqb (mcols Y) 1 && Nat.eqb (nrows X_test) (nrows Y) | None => true end);
  if negb lib then ret tt else
  mlet _ <- match Y_test with
            | Some Y => mlet c <- palette ncolors 1; line 0 (flatten X_test) (flatten Y) None c None
            | None => ret tt
            end;
  mlet c <- palette ncolors 2; mlet _ <- line 0 (flatten X_test) (flatten mean_test) None c None;
  mlet c <- palette ncolors 2; mlet _ <- band 0 (flatten X_test) (flatten mean_test) (flatten std_test) range_shade c;
  mlet c <- palette ncolors 0; mlet _ <- marks 0 (flatten X_train) (flatten Y_train) c;
  mlet _ <- xlim_of 0 (flatten X_test);
  mlet _ <- save_figure path_save str_postfix "gp_";
  emit Show.

(** lines 456-479 and 602-632: the curve of one experiment *)
Definition curve (ind_color ind_marker ncolors : nat) (label : string) (xs : list N) (o : minima_out N) (draw_std include_marker : bool) (range_shade : N) : D unit :=
  mlet c <- palette ncolors ind_color;
  mlet _ <- line 0 xs (mo_mean o) (Some label) c (if include_marker then Some ind_marker else None);
  if draw_std then band 0 xs (mo_mean o) (mo_std o) range_shade c else ret tt.

(** lines 484-502 and 640-658: legend, files, display *)
Definition finish (prefix : string) (labels : list string) (draw_std include_legend : bool) (path_save str_postfix : option string) : D unit :=
  mlet _ <- (if include_legend then emit Legend else ret tt);
  mlet _ <- match path_save, str_postfix with
            | Some p, Some s =>
                mlet _ <- emit (SaveFigure p ((prefix ++ (if draw_std then "mean_std_" else "mean_only_") ++ s) ++ ".pdf"));
                emit (SaveLegend p ("legend_" ++ s ++ ".pdf") labels)
            | _, _ => ret tt
            end;
  emit Show.

(** lines 360-502.  [mean_min] after the loop is that of the last experiment, or unbound. *)
Definition plot_minimum_vs_iter (lib : bool) (ncolors nmarkers : nat) (minima : cube N) (labels : list string) (num_init : Z) (draw_std include_marker include_legend : bool)
    (path_save str_postfix : option string) (range_shade : N) : D unit :=
  massert (Nat.eqb (List.length (cexps minima)) (List.length labels));
  massert (num_init <=? Z.of_nat (ccols minima))%Z;
  if negb lib then ret tt else
  mlet lens <- mmapM (fun e : nat * (list (list N) * string) =>
      let '(k, (rounds, label)) := e in
      mlet ind_color <- index_mod k ncolors; mlet ind_marker <- index_mod k nmarkers;
      mlet o <- lift (get_minimum N (mkmat rounds (ccols minima)) num_init);
      mlet _ <- curve ind_color ind_marker ncolors label (map (nofnat N) (seq 0 (List.length (mo_mean o)))) o draw_std include_marker range_shade;
      ret (List.length (mo_mean o)))
    (combine (seq 0 (List.length (cexps minima))) (combine (cexps minima) labels));
  mlet n <- match rev lens with [] => raise UnboundLocalError | n :: _ => ret n end;
  mlet _ <- emit (Xlim 0 (nofZ N 0) (nofZ N (Z.of_nat n - 1)));
  finish "minimum_" labels draw_std include_legend path_save str_postfix.

(** lines 505-658.  np.min of a list of arrays of equal length is the minimum of all entries. *)
Definition plot_minimum_vs_time (lib : bool) (ncolors nmarkers : nat) (times minima : cube N) (labels : list string) (num_init : Z) (draw_std include_marker include_legend : bool)
    (path_save str_postfix : option string) (range_shade : N) : D unit :=
  massert (Nat.eqb (List.length (cexps times)) (List.length (cexps minima)) && Nat.eqb (List.length (cexps minima)) (List.length labels));
  massert (Nat.eqb (crounds times) (crounds minima));
  massert (num_init <=? Z.of_nat (ccols minima))%Z;
  massert (Nat.eqb (ccols times) (ccols minima) || (Z.of_nat (ccols times) + num_init =? Z.of_nat (ccols minima))%Z);
  if negb lib then ret tt else
  mlet xss <- mmapM (fun e : nat * (list (list N) * (list (list N) * string)) =>
      let '(k, (trounds, (rounds, label))) := e in
      mlet ind_color <- index_mod k ncolors; mlet ind_marker <- index_mod k nmarkers;
      mlet o <- lift (get_minimum N (mkmat rounds (ccols minima)) num_init);
      mlet xs <- lift (get_time N (mkmat trounds (ccols times)) num_init (Nat.eqb (ccols times) (ccols minima)));
      mlet _ <- curve ind_color ind_marker ncolors label xs o draw_std include_marker range_shade;
      ret xs)
    (combine (seq 0 (List.length (cexps minima))) (combine (cexps times) (combine (cexps minima) labels)));
  mlet _ <- xlim_of 0 (List.concat xss);
  finish "minimum_time_" labels draw_std include_legend path_save str_postfix.

(** the training points of lines 764-781 and 900-916; 'saddlebrown' marks initial points, 'r' later ones, 'orange' the latest *)
Definition train_marks (X_train Y_train : mat N) (num_init : option Z) : D unit :=
  let X := flatten X_train in let Y := flatten Y_train in
  let latest := mlet x <- lift (last_item X); mlet y <- lift (last_item Y); marks 0 [x] [y] (Named "orange") in
  match num_init with
  | Some k =>
      if (k <? Z.of_nat (nrows X_train))%Z then
        mlet _ <- marks 0 (slice_to X k) (slice_to Y k) (Named "saddlebrown");
        mlet _ <- marks 0 (slice_range X k (-1)) (slice_range Y k (-1)) (Named "r");
        latest
      else marks 0 X Y (Named "saddlebrown")
  | None =>
      mlet _ <- marks 0 (slice_to X (-1)) (slice_to Y (-1)) (Named "r");
      latest
  end.

(** lines 661-791 ([acq_test = None]) and 794-934 ([acq_test = Some _]).  The two functions have the same checks and draw the same
    on their first axes. *)
Definition plot_bo_step_gen (lib : bool) (X_train Y_train X_test Y_test mean_test std_test : mat N) (acq_test : option (mat N)) (path_save str_postfix : option string)
    (num_init : option Z) (range_shade : N) : D unit :=
  massert (Nat.eqb (mcols X_train) (mcols X_test) && Nat.eqb (mcols X_test) 1);
  massert (Nat.eqb (mcols Y_train) (mcols Y_test) && Nat.eqb (mcols Y_test) 1);
  massert (Nat.eqb (nrows X_train) (nrows Y_train));
  massert (Nat.eqb (mcols mean_test) 1);
  massert (Nat.eqb (mcols std_test) 1);
  massert (match acq_test with Some a => Nat.eqb (mcols a) 1 | None => true end);
  massert (Nat.eqb (nrows X_test) (nrows Y_test) && Nat.eqb (nrows Y_test) (nrows mean_test) && Nat.eqb (nrows mean_test) (nrows std_test) &&
           match acq_test with Some a => Nat.eqb (nrows std_test) (nrows a) | None => true end);
  massert (match num_init with Some k => (k <=? Z.of_nat (nrows X_train))%Z | None => true end);
  if negb lib then ret tt else
  let X := flatten X_test in
  mlet _ <- line 0 X (flatten Y_test) None (Named "g") None;
  mlet _ <- line 0 X (flatten mean_test) None (Named "b") None;
  mlet _ <- band 0 X (flatten mean_test) (flatten std_test) range_shade (Named "b");
  mlet _ <- train_marks X_train Y_train num_init;
  mlet _ <- xlim_of 0 X;
  mlet _ <- match acq_test with
            | Some a => mlet _ <- line 1 X (flatten a) None (Named "b") None; xlim_of 1 X
            | None => ret tt
            end;
  mlet _ <- save_figure path_save str_postfix (match acq_test with Some _ => "bo_step_acq_" | None => "bo_step_" end);
  emit Show.
Definition plot_bo_step lib X_train Y_train X_test Y_test mean_test std_test path_save str_postfix num_init range_shade :=
  plot_bo_step_gen lib X_train Y_train X_test Y_test mean_test std_test None path_save str_postfix num_init range_shade.
Definition plot_bo_step_with_acq lib X_train Y_train X_test Y_test mean_test std_test acq_test path_save str_postfix num_init range_shade :=
  plot_bo_step_gen lib X_train Y_train X_test Y_test mean_test std_test (Some acq_test) path_save str_postfix num_init range_shade.
End Plot.
Arguments Line {N}. Arguments Marks {N}. Arguments Band {N}. Arguments Xlim {N}. Arguments Legend {N}. Arguments SaveFigure {N}. Arguments SaveLegend {N}. Arguments Show {N}.
