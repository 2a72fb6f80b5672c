(** Changing the units of the inputs: what the random forest proposes, and whole runs. *)
From Verif Require Import Base Lists Num NumLaws UtilsModel UtilsRProofs Monad HypsModel CovModel GPModel LikModel HypOptModel AcqModel TreesModel TreesSpec TreesUnitsSpec TreesUnits
  SamplingModel WrapperModel BOModel BOAcqModel BOFullModel BOProgram RelProofs MoveSpec MoveProofs.
From Coq Require Import List ZArith Bool String Lia Lra Arith Reals.
From Flocq Require Import Core.Raux.
Import ListNotations.
Unset Asymmetric Patterns.
Set Bullet Behavior "Strict Subproofs".
Local Open Scope R_scope.
Notation N := NumR.

(** from relations to equalities *)
Lemma rel_converted {W E E' A B} (fe : E -> E') (fa : A -> B) (Q : A -> Prop) (m : M W E A) (m' : M W E' B) :
  rel eq (fun e e' => e' = fe e) (fun a b => b = fa a /\ Q a) m m' -> forall w, m' w = converted fe fa (m w) /\ (forall w' t a, m w = (w', t, Ok a) -> Q a).
Proof.
  intros H w. specialize (H w w eq_refl). destruct (m w) as [[w1 t1] r1], (m' w) as [[w2 t2] r2]. destruct H as (-> & HT & HR).
  assert (ET : t2 = map fe t1) by (clear HR; induction HT as [|? ? ? ? -> _ IH]; [reflexivity|cbn; now rewrite IH]). subst t2.
  destruct r1 as [a|e], r2 as [b|e']; cbn in HR; try contradiction.
  - destruct HR as (-> & HQ). split; [reflexivity|]. intros w' t a' Q'. injection Q' as _ _ <-. exact HQ.
  - subst e'. split; [reflexivity|]. discriminate.
Qed.
Ltac st := eapply rel_bind with (RA := eq); [|let a := fresh "a" in let b := fresh "b" in let E := fresh "E" in intros a b E; subst b].

Section Axes.
Context (ax : axes) (HA : sound_axes ax).
Notation nd := (List.length ax).
Notation ci := (conv_in ax).
Notation cm := (conv_mat ax).
Notation sizedm := (sizedm ax).

Lemma out_id (y : R) : conv_out (1, 0) y = y.
Proof. unfold conv_out. cbn [fst snd]. match goal with |- @eq _ ?u ?v => change (@eq R u v) end. ring. Qed.
Lemma outs_id (Y : list R) : map (conv_out (1, 0)) Y = Y.
Proof. rewrite <- (map_id Y) at 2. apply map_ext. apply out_id. Qed.
Lemma pred_id (l : list (N * N)) : map (conv_pred (1, 0)) l = l.
Proof. rewrite <- (map_id l) at 2. apply map_ext. intros [m s]. unfold conv_pred. cbn [fst snd]. rewrite out_id, (Rmult_1_l s). reflexivity. Qed.
Lemma nrows_conv X : nrows (cm X) = nrows X.
Proof. unfold nrows. cbn. apply map_length. Qed.

Lemma array_conv (l : list (list N)) : Forall (fun x => List.length x = nd) l -> np_array_rows (map ci l) = rmap cm (np_array_rows l).
Proof.
  intros F. unfold np_array_rows. destruct l as [|x l]; [reflexivity|]. cbn [map].
  assert (E : forall l : list (list N), Forall (fun x => List.length x = nd) l -> forallb (fun y => Nat.eqb (List.length y) nd) l = true).
  { clear. induction 1 as [|x l H _ IH]; [reflexivity|]. cbn [forallb]. apply andb_true_intro. split; [now apply Nat.eqb_eq|exact IH]. }
  assert (F' : Forall (fun x => List.length x = nd) (map ci (x :: l))).
  { apply Forall_forall. intros y Hy. apply in_map_iff in Hy as (z & <- & Hz). apply conv_in_len. exact (proj1 (Forall_forall _ _) F z Hz). }
  assert (L : List.length x = nd) by (inversion F; assumption). assert (L' : List.length (ci x) = nd) by now apply conv_in_len.
  rewrite L, L'. pose proof (E _ F) as E1. pose proof (E _ F') as E2. cbn [map] in E2. setoid_rewrite E1. setoid_rewrite E2. reflexivity.
Qed.
Lemma array_sized {A} (l : list (list A)) X : np_array_rows l = Ok X -> mrows X = l.
Proof. unfold np_array_rows. destruct l as [|x l]; [intros H; injection H as <-; reflexivity|]. destruct (forallb _ _); [|discriminate]. intros H; injection H as <-; reflexivity. Qed.

(** ** bounds *)
Lemma bounds_lo : forall ax, sound_axes ax -> forall r p, List.length r = List.length ax -> List.length p = List.length ax ->
  forallb (fun bx : (N * N) * N => nle N (fst (fst bx)) (snd bx)) (combine (conv_range ax r) (conv_in ax p)) = forallb (fun bx : (N * N) * N => nle N (fst (fst bx)) (snd bx)) (combine r p).
Proof.
  clear. intros ax. induction ax as [|ac l IH]; intros HA [|[lo hi] r] [|v p] H1 H2; try discriminate; [reflexivity|]. inversion HA as [|? ? P Q]; subst. injection H1 as H1. injection H2 as H2.
  cbn [conv_range conv_in combine forallb fst snd]. f_equal; [exact (axis_le (ac := ac) P lo v)|]. exact (IH Q r p H1 H2).
Qed.
Lemma bounds_hi : forall ax, sound_axes ax -> forall r p, List.length r = List.length ax -> List.length p = List.length ax ->
  forallb (fun bx : (N * N) * N => nle N (snd bx) (snd (fst bx))) (combine (conv_range ax r) (conv_in ax p)) = forallb (fun bx : (N * N) * N => nle N (snd bx) (snd (fst bx))) (combine r p).
Proof.
  clear. intros ax. induction ax as [|ac l IH]; intros HA [|[lo hi] r] [|v p] H1 H2; try discriminate; [reflexivity|]. inversion HA as [|? ? P Q]; subst. injection H1 as H1. injection H2 as H2.
  cbn [conv_range conv_in combine forallb fst snd]. f_equal; [exact (axis_le (ac := ac) P v hi)|]. exact (IH Q r p H1 H2).
Qed.
Lemma forallb_conv (p q : list N -> bool) l : Forall (fun x => List.length x = nd) l -> (forall x, List.length x = nd -> q (ci x) = p x) -> forallb q (map ci l) = forallb p l.
Proof. intros F H. induction F as [|x l Hx F IH]; [reflexivity|]. cbn [map forallb]. f_equal; [now apply H|exact IH]. Qed.
Lemma bounds_conv (r : list (R * R)) X : List.length r = nd -> sizedm X -> check_points_in_bounds N (cm X) (conv_range ax r) = rmap cm (check_points_in_bounds N X r).
Proof.
  intros H S. unfold check_points_in_bounds. rewrite conv_range_len by exact H. cbn [mcols mrows conv_mat].
  rewrite (forallb_conv (fun p => forallb (fun bx : (N * N) * N => nle N (fst (fst bx)) (snd bx)) (combine r p)) _ (mrows X) S (fun x Hx => bounds_lo ax HA r x H Hx)).
  rewrite (forallb_conv (fun p => forallb (fun bx : (N * N) * N => nle N (snd bx) (snd (fst bx))) (combine r p)) _ (mrows X) S (fun x Hx => bounds_hi ax HA r x H Hx)).
  destruct (Nat.eqb _ _); [|reflexivity]. cbn [assert_ rbind]. destruct (forallb _ _); [|reflexivity]. cbn [assert_ rbind]. destruct (forallb _ _); reflexivity.
Qed.
Lemma bounds_same (r : list (R * R)) X X' : check_points_in_bounds N X r = Ok X' -> X' = X.
Proof. unfold check_points_in_bounds. do 3 (destruct (assert_ _); [|discriminate]; cbn [rbind]). intros H; injection H as <-. reflexivity. Qed.

(** ** the forest and its acquisition values *)
Section Forest.
Context (cdf pdf nlog : N -> N) (W : Type).
Context (choice : nat -> nat -> bool -> W -> W * res (list nat)) (uniform : N -> N -> W -> W * res N) (trunc : N -> option Z) (schedule : nat -> list nat).
Context (HU : uniform_affine uniform).

Lemma forest_conv d X Y w : sizedm X ->
  rf_trees_full N choice uniform trunc d (cm X) Y w = let (w', r) := rf_trees_full N choice uniform trunc d X Y w in (w', rmap (map (conv_tree ax (1, 0))) r).
Proof.
  intros S. unfold rf_trees_full, bo_get_trees. unfold bind, lift. rewrite nrows_conv. destruct (Nat.eqb _ _); [|reflexivity]. cbn [assert_].
  pose proof (random_forest_conv (be := (1, 0)) HA Rlt_0_1 choice trunc HU (X := X) (Y := Y) (proj1 (Forall_forall _ _) S) (or_introl eq_refl) 100 5 1 (Nat.sqrt d) w) as E.
  rewrite outs_id in E. rewrite E. destruct (get_random_forest _ _ _ _ _ X Y _ _ _ _ w) as [[w1 t] [l|e]]; cbn; [|reflexivity]. do 2 f_equal. rewrite !map_map. reflexivity.
Qed.
Lemma acq_conv d acq X Y trees pts : Forall (fun x => List.length x = nd) pts ->
  rf_acquisitions cdf pdf nlog d acq schedule (cm X) Y (map (conv_tree ax (1, 0)) trees) (map ci pts) = rf_acquisitions cdf pdf nlog d acq schedule X Y trees pts.
Proof.
  intros F. unfold rf_acquisitions. assert (EB : batch N (map ci pts) = rmap cm (batch N pts)) by (destruct pts as [|p l]; [reflexivity|exact (array_conv (p :: l) F)]).
  rewrite EB. destruct (batch N pts) as [Xs|e] eqn:EX; [|reflexivity]. cbn [rmap rbind]. rewrite nrows_conv. destruct (Nat.eqb (nrows X) _); [|reflexivity]. cbn [assert_ rbind mcols conv_mat].
  destruct (_ && _); [|reflexivity]. cbn [assert_ rbind]. destruct (choose_fun_acquisition _ _ _ _ _ _) as [f|e]; [|reflexivity]. cbn [rbind].
  unfold rf_posteriors. cbn [mcols conv_mat]. destruct (Nat.eqb (mcols Xs) d); [|reflexivity]. cbn [assert_ rbind]. rewrite nrows_conv. cbn [mrows conv_mat].
  assert (FX : Forall (fun x => List.length x = nd) (mrows Xs)) by (destruct pts as [|p l]; [discriminate|]; cbn [batch] in EX; now rewrite (array_sized _ _ EX)).
  rewrite (predict_conv (be := (1, 0)) HA Rlt_0_1 trees (schedule ((nrows Xs + 99) / 100)%nat) FX).
  destruct (predict_by_trees _ _ _ _) as [l|e]; [|reflexivity]. cbn [rmap rbind]. now rewrite pred_id.
Qed.

(** ** BOwTrees.optimize *)
Context (gs gs' : string -> Z -> option Z -> W -> W * res (list (list N))) (time_ : W -> W * N).
Context (HG : forall m num seed w, gs' m num seed w = let (w', r) := gs m num seed w in (w', rmap (map ci) r)).
Context (HS : forall m num seed w w' l, gs m num seed w = (w', Ok l) -> Forall (fun x => List.length x = nd) l).
Notation RE := (fun e e' => e' = conv_fitev ax e).
Lemma tick_rel : rel (@eq (unit * W)) RE eq (tick N W time_ unit) (tick N W time_ unit).
Proof. apply rel_ext. intros w ? <-. split; [reflexivity|apply rres_refl]. Qed.
Lemma samples_rel m num seed : rel (@eq (unit * W)) RE (fun l l' => l' = map ci l /\ Forall (fun x => List.length x = nd) l) (onW N W unit (gs m num seed)) (onW N W unit (gs' m num seed)).
Proof.
  apply rel_ext. intros [u w] ? <-. cbn [fst snd]. rewrite HG. destruct (gs m num seed w) as [w1 [l|e]] eqn:E; cbn; [|auto]. split; [reflexivity|]. split; [reflexivity|]. eapply HS; eassumption.
Qed.
Lemma rf_conv (r : list (R * R)) acq nrm X Y samp num seed : List.length r = nd -> sizedm X ->
  rel (@eq (unit * W)) RE (fun p p' => p' = (ci (fst p), conv_rf_info ax (snd p)) /\ (List.length (fst p) = nd /\ sizedm (ri_points N _ (snd p))))
    (rf_optimize_full nlog cdf pdf gs time_ choice uniform trunc schedule (mkrfo N r acq nrm) X Y samp num seed)
    (rf_optimize_full nlog cdf pdf gs' time_ choice uniform trunc schedule (mkrfo N (conv_range ax r) acq nrm) (cm X) Y samp num seed).
Proof.
  intros H S. unfold rf_optimize_full, rf_optimize. cbn [ro_range ro_acq ro_norm]. rewrite conv_range_len by exact H. rewrite nrows_conv. cbn [mcols conv_mat].
  do 4 (st; [apply rel_lift_eq|]). st; [apply tick_rel|]. st; [apply rel_lift_eq|]. rename a4 into Yn. st; [apply tick_rel|].
  eapply rel_bind with (RA := eq); [intros w ? <-; cbn; split; [reflexivity|]; split; [constructor; [reflexivity|constructor]|reflexivity]|]. intros ? ? _.
  eapply rel_bind with (RA := fun t t' => t' = map (conv_tree ax (1, 0)) t).
  { apply rel_ext. intros [u w] ? <-. cbn [fst snd]. rewrite (forest_conv _ X Yn w S). destruct (rf_trees_full N _ _ _ _ X Yn w) as [w1 [l|e]]; cbn; auto. }
  intros ts ? ->. st; [apply tick_rel|]. st; [apply tick_rel|].
  eapply rel_bind; [apply samples_rel|]. intros pts ? (-> & FP).
  eapply rel_bind with (RA := fun P P' => P' = cm P /\ sizedm P).
  { apply rel_lift. rewrite (array_conv pts FP). destruct (np_array_rows pts) as [P|e] eqn:EP; cbn; [|reflexivity]. split; [reflexivity|]. unfold MoveProofs.sizedm. now rewrite (array_sized _ _ EP). }
  intros P ? (-> & SP). eapply rel_bind with (RA := fun P P' => P' = cm P /\ sizedm P).
  { apply rel_lift. rewrite (bounds_conv r P H SP). destruct (check_points_in_bounds N P r) as [P'|e] eqn:EP; cbn; [|reflexivity]. split; [reflexivity|]. apply bounds_same in EP. now subst P'. }
  clear P SP. intros P ? (-> & SP). eapply rel_bind with (RA := eq).
  { apply rel_lift. cbn [mrows conv_mat]. rewrite (acq_conv _ acq X Yn ts (mrows P) SP). apply rres_refl. }
  intros av ? <-. st; [apply rel_lift_eq|]. eapply rel_bind with (RA := fun p p' => p' = ci p /\ List.length p = nd).
  { apply rel_lift. cbn [mrows conv_mat]. rewrite nth_error_map. destruct (nth_error (mrows P) _) as [p|] eqn:EP; cbn; [|reflexivity]. split; [reflexivity|].
    apply nth_error_In in EP. exact (proj1 (Forall_forall _ _) SP p EP). }
  intros p ? (-> & LP). st; [apply tick_rel|]. st; [apply tick_rel|]. apply rel_ret. cbn. auto.
Qed.
End Forest.

(** ** whole runs of the class *)
Section Run.
Context (HT : translation ax).
Lemma sub_conv : forall ax, translation ax -> forall x y, List.length x = List.length ax -> List.length y = List.length ax -> vsub N (conv_in ax x) (conv_in ax y) = vsub N x y.
Proof.
  clear. intros ax. induction ax as [|[s o] l IH]; intros HT [|u x] [|v y] H1 H2; try discriminate; [reflexivity|]. inversion HT as [|? ? P Q]; subst. injection H1 as H1. injection H2 as H2.
  pose proof (IH Q x y H1 H2) as E. unfold vsub in *. cbn in *. rewrite E. f_equal. cbn in P. subst s. unfold on_axis. cbn. ring.
Qed.
Lemma dup_conv x y : List.length x = nd -> List.length y = nd -> is_dup N (ci x) (ci y) = is_dup N x y.
Proof. intros H1 H2. unfold is_dup. now rewrite (sub_conv ax HT y x H2 H1). Qed.
Notation cpa := (fun pa : list N * N => (ci (fst pa), snd pa)).
Lemma drop_conv ev : Forall (fun x => List.length x = nd) ev -> forall cs, Forall (fun pa : list N * N => List.length (fst pa) = nd) cs ->
  drop_dups N (map cpa cs) (map ci ev) = map cpa (drop_dups N cs ev) /\ Forall (fun pa : list N * N => List.length (fst pa) = nd) (drop_dups N cs ev).
Proof.
  unfold drop_dups. induction 1 as [|x l Hx F IH]; intros cs FC; [split; [reflexivity|exact FC]|]. cbn [map fold_left].
  rewrite (filter_map_comm (g := cpa) (p := fun pa => negb (is_dup N x (fst pa)))).
  - apply IH. apply Forall_forall. intros pa Hp. apply filter_In in Hp as (Hp & _). exact (proj1 (Forall_forall _ _) FC pa Hp).
  - intros pa Hp. cbn [fst]. f_equal. apply dup_conv; [exact Hx|exact (proj1 (Forall_forall _ _) FC pa Hp)].
Qed.
Lemma pick_conv cs : pick_best N (map cpa cs) = option_map cpa (pick_best N cs).
Proof.
  unfold pick_best. change (@None (list N * N)) with (option_map cpa None) at 1. generalize (@None (list N * N)). induction cs as [|pa cs IH]; intros b; [reflexivity|]. cbn [map fold_left].
  rewrite <- IH. f_equal. assert (E : option_map snd (option_map cpa b) = option_map snd b) by (destruct b; reflexivity). rewrite E. cbn [snd]. destruct (better _ _ _); reflexivity.
Qed.
Lemma pick_in cs pa : pick_best N cs = Some pa -> In pa cs.
Proof.
  unfold pick_best. assert (G : forall (cs : list (list N * N)) b, fold_left (fun b pa => if better N (snd pa) (option_map snd b) then Some pa else b) cs b = Some pa -> In pa cs \/ b = Some pa).
  { clear. induction cs as [|p cs IH]; intros b H; [now right|]. cbn [fold_left] in H. apply IH in H as [H|H]; [left; now right|]. destruct (better _ _ _); [left; left; congruence|now right]. }
  intros H. apply G in H as [H|H]; [exact H|discriminate].
Qed.
Definition cpo (o : option (list N)) : option (list N) := option_map ci o.
Definition sizedo (o : option (list N)) : Prop := match o with Some p => List.length p = nd | None => True end.
Lemma best_conv P av X : sizedm P -> sizedm X ->
  rres (fun o o' => o' = cpo o /\ sizedo o) (get_next_best_acquisition N P av X) (get_next_best_acquisition N (cm P) av (cm X)).
Proof.
  intros SP SX. unfold get_next_best_acquisition. rewrite nrows_conv. destruct (Nat.eqb (nrows P) _); [|reflexivity]. cbn [assert_ rbind mcols conv_mat].
  destruct (Nat.eqb _ _); [|reflexivity]. cbn [assert_ rbind mrows conv_mat].
  assert (EC : combine (map ci (mrows P)) av = map cpa (combine (mrows P) av)).
  { clear. revert av. induction (mrows P) as [|x l IH]; intros [|a av]; try reflexivity. cbn. now rewrite IH. }
  assert (FC : Forall (fun pa : list N * N => List.length (fst pa) = nd) (combine (mrows P) av)).
  { apply Forall_forall. intros [x a] Hx. apply in_combine_l in Hx. exact (proj1 (Forall_forall _ _) SP x Hx). }
  setoid_rewrite EC. destruct (drop_conv (mrows X) SX _ FC) as (E1 & E2). setoid_rewrite E1.
  destruct (drop_dups N (combine (mrows P) av) (mrows X)) as [|c cs] eqn:ED.
  - cbn [map]. rewrite <- map_rev. destruct (rev (mrows X)) as [|p l] eqn:ER; cbn; [reflexivity|]. split; [reflexivity|]. apply (proj1 (Forall_forall _ _) SX). apply in_rev. rewrite ER. now left.
  - pose proof (pick_conv (c :: cs)) as EK. cbn [map] in EK |- *. rewrite EK. destruct (pick_best N (c :: cs)) as [pa|] eqn:EP; cbn; [|split; [reflexivity|exact Logic.I]].
    split; [reflexivity|]. apply pick_in in EP. exact (proj1 (Forall_forall _ _) E2 pa EP).
Qed.
Lemma next_conv p P av X : List.length p = nd -> sizedm P -> sizedm X ->
  rres (fun o o' => o' = cpo o /\ sizedo o) (get_next_best_sample N p X P av) (get_next_best_sample N (ci p) (cm X) (cm P) av).
Proof.
  intros LP SP SX. unfold get_next_best_sample. cbn [mcols conv_mat mrows]. rewrite (conv_in_len ax p LP), LP. destruct (negb _); [reflexivity|].
  assert (E : existsb (fun x => nlt N (nnorm N (vsub N (ci p) x)) (tol_dup N)) (map ci (mrows X)) = existsb (fun x => nlt N (nnorm N (vsub N p x)) (tol_dup N)) (mrows X)).
  { unfold MoveProofs.sizedm in SX. induction SX as [|x l Hx F IH]; [reflexivity|]. cbn [map existsb]. rewrite IH. f_equal. rewrite (sub_conv ax HT p x LP Hx). reflexivity. }
  setoid_rewrite E. destruct (existsb (fun x => nlt N (nnorm N (vsub N p x)) (tol_dup N)) (mrows X)); [exact (best_conv P av X SP SX)|]. cbn. auto.
Qed.
Lemma vstack_conv X o : sizedm X -> sizedo o ->
  rres (fun q q' => q' = (cm (fst q), ci (snd q)) /\ sizedm (fst q) /\ List.length (snd q) = nd) (vstack_row N X o) (vstack_row N (cm X) (cpo o)).
Proof.
  intros SX SO. unfold vstack_row, cpo. cbn [mcols conv_mat]. destruct o as [p|]; cbn [option_map].
  - cbn in SO. setoid_rewrite (conv_in_len ax p SO). setoid_rewrite SO. destruct (Nat.eqb nd (mcols X)); [|reflexivity]. cbn. split; [|split; [|exact SO]].
    + unfold conv_mat. cbn. now rewrite map_app.
    + apply Forall_app. split; [exact SX|]. constructor; [exact SO|constructor].
  - destruct (Nat.eqb _ _); reflexivity.
Qed.

Context (W : Type) (f f' : list N -> W -> W * res N) (time_ : W -> W * N) (HF : same_target ax f f').
Context (single single' : mat N -> list N -> W -> W * res (list N * info N)) (initials initials' : string -> Z -> option Z -> W -> W * res (mat N)).
Context (HI : forall X Y w, sizedm X -> single' (cm X) Y w = (let (w', r) := single X Y w in (w', rmap (conv_proposal ax) r)) /\
  (forall w' p, single X Y w = (w', Ok p) -> List.length (fst p) = nd /\ sizedm (in_points (snd p)))).
Context (HG : forall m n s w, initials' m n s w = (let (w', r) := initials m n s w in (w', rmap cm r)) /\ (forall w' X, initials m n s w = (w', Ok X) -> sizedm X)).
Notation RE := (fun e e' => e' = conv_event ax e).
Lemma clock_rel : rel (@eq W) RE eq (clock N W time_) (clock N W time_).
Proof. apply rel_ext. intros w ? <-. split; [reflexivity|apply rres_refl]. Qed.
Lemma target_rel x : List.length x = nd -> rel (@eq W) RE eq (call_target N W f x) (call_target N W f' (ci x)).
Proof.
  intros L. apply rel_ext_ev.
  - intros w ? <-. rewrite (HF x w L). split; [reflexivity|apply rres_refl].
  - intros r r' Q. apply rres_eq in Q. now subst r'.
Qed.
Definition step_to (q q' : mat N * list N * N * N * N) : Prop := let '(X, Y, a, s, c) := q in q' = (cm X, Y, a, s, c) /\ sizedm X.
Lemma step_conv X Y : sizedm X -> rel (@eq W) RE step_to (class_step N W f time_ single X Y) (class_step N W f' time_ single' (cm X) Y).
Proof.
  intros SX. unfold class_step. st; [apply clock_rel|].
  eapply rel_bind with (RA := fun p p' => p' = conv_proposal ax p /\ List.length (fst p) = nd /\ sizedm (in_points (snd p))).
  { intros w ? <-. unfold ext_ev. destruct (HI X Y w SX) as (E & S). rewrite E. destruct (single X Y w) as [w1 [p|e]]; cbn.
    - split; [reflexivity|]. split; [constructor; [reflexivity|constructor]|]. split; [reflexivity|]. exact (S w1 p eq_refl).
    - split; [reflexivity|]. split; [constructor; [reflexivity|constructor]|]. reflexivity. }
  intros [p di] ? (-> & LP & SP). unfold conv_proposal. cbn [fst snd] in *. cbn [in_points in_acqs in_tsur in_tacq conv_info].
  eapply rel_bind; [apply rel_lift; apply next_conv; [exact LP|exact SP|exact SX]|]. intros o ? (-> & SO).
  eapply rel_bind; [apply rel_lift; apply vstack_conv; [exact SX|exact SO]|]. intros [X' x] ? (-> & SX' & LX). cbn [fst snd] in *.
  st; [apply clock_rel|]. st; [now apply target_rel|]. st; [apply clock_rel|]. st; [apply clock_rel|]. apply rel_ret. cbn. auto.
Qed.
Lemma loop_conv n : forall X Y ta ts tq, sizedm X -> rel (@eq W) RE (fun r r' => r' = conv_run ax r /\ True) (class_loop N W f time_ single n X Y ta ts tq) (class_loop N W f' time_ single' n (cm X) Y ta ts tq).
Proof.
  induction n as [|n IH]; intros X Y ta ts tq SX; cbn [class_loop]; [apply rel_ret; split; [reflexivity|exact Logic.I]|].
  eapply rel_bind; [now apply step_conv|]. intros [[[[X' Y'] a] s] c] ? (-> & SX'). now apply IH.
Qed.
Lemma all_initial_conv num_iter X Y : sizedm X -> rel (@eq W) RE (fun r r' => r' = conv_run ax r /\ True) (class_all_initial N W f time_ single num_iter X Y) (class_all_initial N W f' time_ single' num_iter (cm X) Y).
Proof.
  intros SX. unfold class_all_initial. rewrite nrows_conv. st; [apply rel_lift_eq|]. st; [apply clock_rel|]. eapply rel_bind; [now apply loop_conv|]. intros r ? (-> & _). st; [apply clock_rel|]. apply rel_ret. auto.
Qed.
Lemma initial_conv x : List.length x = nd -> rel (@eq W) RE eq (class_initial N W f time_ x) (class_initial N W f' time_ (ci x)).
Proof. intros L. unfold class_initial. st; [apply clock_rel|]. st; [now apply target_rel|]. st; [apply clock_rel|]. now apply rel_ret. Qed.
Lemma inputs_conv num_iter X : sizedm X -> rel (@eq W) RE (fun r r' => r' = conv_run ax r /\ True) (class_initial_inputs N W f time_ single num_iter X) (class_initial_inputs N W f' time_ single' num_iter (cm X)).
Proof.
  intros SX. unfold class_initial_inputs. eapply rel_bind with (RA := eq).
  { eapply rel_weaken; [apply rel_mmapM with (RA := fun x x' => x' = ci x /\ List.length x = nd) (RB := eq)|].
    - cbn [mrows conv_mat]. unfold MoveProofs.sizedm in SX. induction SX as [|x l Hx F IH]; constructor; auto.
    - intros x ? (-> & L). now apply initial_conv.
    - intros l l' Q. now apply Forall2_eq_list. }
  intros l ? <-. eapply rel_bind; [now apply all_initial_conv|]. intros r ? (-> & _). apply rel_ret. auto.
Qed.
Lemma optimize_conv meth num_iter num_init seed : rel (@eq W) RE (fun r r' => r' = conv_run ax r /\ True)
  (class_optimize N W f time_ single initials meth num_iter num_init seed) (class_optimize N W f' time_ single' initials' meth num_iter num_init seed).
Proof.
  unfold class_optimize. st; [apply rel_lift_eq|]. st; [apply clock_rel|]. eapply rel_bind with (RA := fun X X' => X' = cm X /\ sizedm X).
  { apply rel_ext. intros w ? <-. destruct (HG meth num_init seed w) as (E & S). rewrite E. destruct (initials meth num_init seed w) as [w1 [X|e]]; cbn; [|auto]. split; [reflexivity|]. split; [reflexivity|]. eapply S. reflexivity. }
  intros X ? (-> & SX). eapply rel_bind; [now apply inputs_conv|]. intros r ? (-> & _). st; [apply clock_rel|]. apply rel_ret. auto.
Qed.
End Run.
End Axes.

(** ** BOwTrees.optimize with the samplers of the code *)
Theorem proposal_conv (ax : axes) : sound_axes ax ->
  forall (cdf pdf lg : N -> N) W G mkstate (unit_draw gauss_draw : G -> G * N) qmc choice uniform trunc schedule (time_ : W -> W * N), qmc_rows qmc -> uniform_affine uniform ->
  forall (r : list (R * R)) acq norm X Y method num seed w, List.length r = List.length ax -> (forall x, In x (mrows X) -> List.length x = List.length ax) ->
  rf_optimize_full lg cdf pdf (get_samples N mkstate unit_draw gauss_draw qmc (conv_range ax r)) time_ choice uniform trunc schedule
    (mkrfo N (conv_range ax r) acq norm) (conv_mat ax X) Y method num seed w =
  converted (conv_fitev ax) (fun p => (conv_in ax (fst p), conv_rf_info ax (snd p)))
    (rf_optimize_full lg cdf pdf (get_samples N mkstate unit_draw gauss_draw qmc r) time_ choice uniform trunc schedule (mkrfo N r acq norm) X Y method num seed w).
Proof.
  intros HA cdf pdf lg W G mk ud gd qmc choice uniform trunc schedule time_ HQ HU r acq norm X Y m num seed w H HX.
  assert (SX : sizedm ax X) by now apply Forall_forall.
  set (gs := get_samples N mk ud gd qmc r). set (gs' := get_samples N mk ud gd qmc (conv_range ax r)).
  assert (HGS : forall m num seed w, gs' m num seed w = let (w', r) := gs m num seed w in (w', rmap (map (conv_in ax)) r)) by (intros; now apply samples_conv).
  assert (HSZ : forall m num seed w w' l, gs m num seed w = (w', Ok l) -> Forall (fun x => List.length x = List.length ax) l) by (intros m0 n s w0 w' l Q; eapply samples_sized; eassumption).
  clearbody gs gs'.
  exact (proj1 (rel_converted (conv_fitev ax) (fun p => (conv_in ax (fst p), conv_rf_info ax (snd p))) (fun p => List.length (fst p) = List.length ax /\ sizedm ax (ri_points N _ (snd p))) _ _
    (rf_conv ax HA cdf pdf lg W choice uniform trunc schedule HU gs gs' time_ HGS HSZ r acq norm X Y m num seed H SX) w)).
Qed.

(** ** BayesianOptimization(..., str_surrogate='rf').optimize *)
Section Program.
Context (ax : axes) (HT : translation ax).
Lemma translation_sound : sound_axes ax.
Proof. clear -HT. unfold translation, sound_axes in *. eapply Forall_impl; [|exact HT]. intros a H. cbn in *. lra. Qed.
Notation HA := translation_sound.
Context (nexp nlog cdf pdf : N -> N) (npi : N) (inv chol : list (list N) -> res (list (list N))) (cho_solve : list (list N) -> list (list N) -> res (list (list N))) (slogdet : list (list N) -> N * N)
  (ngamma ndigamma : N -> N) (W G : Type) (mkstate : option Z -> W -> W * res G) (unit_draw gauss_draw : G -> G * N) (qmc : qmc_kind -> nat -> option Z -> Z -> W -> W * res (list (list N))).
Context (lbfgsb : (list N -> res N) -> list N -> list (N * N) -> W -> W * res (list N)) (direct : (list N -> res N) -> list (N * N) -> W -> W * res (list N))
  (cma : (list N -> res N) -> list N -> list (N * N) -> W -> W * res (list N)) (time_ : W -> W * N) (minimize : W -> minimizer N) (aft : mat N -> list N -> string -> W -> W) (prior_mu : prior N).
Context (choice : nat -> nat -> bool -> W -> W * res (list nat)) (uniform : N -> N -> W -> W * res N) (trunc : N -> option Z) (schedule : nat -> list nat).
Context (f f' : list N -> W -> W * res N).
Context (HU : uniform_affine uniform) (HQ : qmc_rows qmc) (HF : same_target ax f f').
Definition program (g : list N -> W -> W * res N) (da ca : bool) (a : bo_args N) :=
  bo_program N nexp nlog cdf pdf npi inv chol cho_solve slogdet ngamma ndigamma W (get_samples N mkstate unit_draw gauss_draw qmc (a_range N a)) lbfgsb direct cma time_ minimize aft prior_mu
    choice uniform trunc schedule g da ca a.

Lemma rf_init_conv da ca (r : list (R * R)) s q nrm ob : List.length r = List.length ax ->
  rf_init N da ca (conv_range ax r) s q nrm ob = rmap (fun o => mkrfo N (conv_range ax (ro_range N o)) (ro_acq N o) (ro_norm N o)) (rf_init N da ca r s q nrm ob) /\
  (forall o, rf_init N da ca r s q nrm ob = Ok o -> ro_range N o = r).
Proof.
  intros H. unfold rf_init, base_init. rewrite (range_ok_conv ax HA r H). replace (@List.length (N * N) (conv_range ax r)) with (@List.length (N * N) r) by (symmetry; exact (conv_range_len ax r H)). destruct (range_ok N r); [|split; [reflexivity|discriminate]]. cbn [assert_ rbind].
  do 3 (destruct (str_in _ _); [|split; [reflexivity|discriminate]]; cbn [assert_ rbind]). do 2 (match goal with |- context [assert_ ?b] => destruct b end; [|split; [reflexivity|discriminate]]; cbn [assert_ rbind]).
  destruct (check_optimizer_method_bo _ _ _ _); [|split; [reflexivity|discriminate]]. cbn [rbind rmap]. split; [reflexivity|]. intros o Q. injection Q as <-. reflexivity.
Qed.
Lemma bo_init_conv da ca a : str_in (a_surrogate N a) ALLOWED_SURROGATE_TREES = true -> List.length (a_range N a) = List.length ax ->
  (exists e, bo_init N da ca a = Raise e /\ bo_init N da ca (with_range (conv_range ax (a_range N a)) a) = Raise e) \/
  (exists acq nrm, bo_init N da ca a = Ok (MRF N (mkrfo N (a_range N a) acq nrm)) /\ bo_init N da ca (with_range (conv_range ax (a_range N a)) a) = Ok (MRF N (mkrfo N (conv_range ax (a_range N a)) acq nrm))).
Proof.
  intros HS H. unfold bo_init. cbn [with_range a_range a_num_iter a_surrogate a_cov a_acq a_norm a_ard a_init a_samp a_opt_gp a_opt_tp a_opt_bo a_mlm a_msel a_num_samples].
  rewrite (range_ok_conv ax HA _ H), HS. replace (@List.length (N * N) (conv_range ax (a_range N a))) with (@List.length (N * N) (a_range N a)) by (symmetry; exact (conv_range_len ax _ H)).
  repeat (match goal with |- context [assert_ ?b] => destruct b end; [cbn [assert_ rbind]|left; eexists; split; reflexivity]).
  destruct (check_optimizer_method_bo _ _ _ _) as [ob|e]; cbn [rbind]; [|left; eexists; split; reflexivity].
  destruct (rf_init_conv da ca (a_range N a) (a_surrogate N a) (a_acq N a) (a_norm N a) ob H) as (E & R). rewrite E.
  destruct (rf_init N da ca (a_range N a) _ _ _ _) as [o|e]; cbn [rmap]; [|left; eexists; split; reflexivity]. right. specialize (R o eq_refl). destruct o as [r acq nrm]. cbn in *. subst r.
  exists acq, nrm. split; reflexivity.
Qed.
Lemma forget_conv (m m' : M (unit * W) (event N) (run_out N)) : rel eq (fun e e' => e' = conv_event ax e) (fun r r' => r' = conv_run ax r /\ True) m m' ->
  forall w, forget W m' tt w = converted (conv_event ax) (conv_run ax) (forget W m tt w).
Proof.
  intros Q w. destruct (rel_converted (conv_event ax) (conv_run ax) (fun _ => True) m m' Q (tt, w)) as (E & _). unfold forget. rewrite E. destruct (m (tt, w)) as [[sw t] r]. reflexivity.
Qed.
Theorem program_conv da ca a num_init seed w : str_in (a_surrogate N a) ALLOWED_SURROGATE_TREES = true -> List.length (a_range N a) = List.length ax ->
  program f' da ca (with_range (conv_range ax (a_range N a)) a) num_init seed w = converted (conv_event ax) (conv_run ax) (program f da ca a num_init seed w).
Proof.
  intros HS H. unfold program, bo_program. destruct (bo_init_conv da ca a HS H) as [(e & E1 & E2)|(acq & nrm & E1 & E2)]; rewrite E1, E2; [reflexivity|].
  cbn [with_range a_range a_num_iter a_init a_samp a_num_samples]. 
  set (gs := get_samples N mkstate unit_draw gauss_draw qmc (a_range N a)). set (gs' := get_samples N mkstate unit_draw gauss_draw qmc (conv_range ax (a_range N a))).
  assert (HGS : forall m num seed w, gs' m num seed w = let (w', r) := gs m num seed w in (w', rmap (map (conv_in ax)) r)) by (intros; now apply samples_conv; [exact HA|]).
  assert (HSZ : forall m num seed w w' l, gs m num seed w = (w', Ok l) -> Forall (fun x => List.length x = List.length ax) l) by (intros m n s w0 w' l Q; eapply samples_sized; eassumption).
  clearbody gs gs'.
  apply forget_conv. unfold run_class. apply (optimize_conv ax HT).
    - intros x [u w0] L. unfold onsnd. cbn [snd fst]. now rewrite (HF x w0 L).
    - intros X Y [u w0] SX. unfold rf_single, untraced.
      destruct (rel_converted (conv_fitev ax) (fun p => (conv_in ax (fst p), conv_rf_info ax (snd p))) (fun p => List.length (fst p) = List.length ax /\ sizedm ax (ri_points N _ (snd p))) _ _ (rf_conv ax HA cdf pdf nlog W choice uniform trunc schedule HU gs gs' time_ HGS HSZ (a_range N a) acq nrm X Y (a_samp N a) (a_num_samples N a) None H SX) (u, w0)) as (E & S).
      rewrite E. destruct (rf_optimize_full nlog cdf pdf gs time_ choice uniform trunc schedule (mkrfo N (a_range N a) acq nrm) X Y (a_samp N a) (a_num_samples N a) None (u, w0)) as [[sw t] [p|e]] eqn:EO; cbn [converted rmap].
      + split; [reflexivity|]. intros w' q Q. injection Q as _ <-. exact (S _ _ _ eq_refl).
      + split; [reflexivity|discriminate].
    - intros m n s [u w0]. unfold onsnd, BOModel.get_initials. cbn [fst snd]. rewrite HGS. destruct (gs m n s w0) as [w1 [l|e]] eqn:EG; cbn [rmap rbind].
      + pose proof (HSZ _ _ _ _ _ _ EG) as F. rewrite (array_conv ax l F). split; [reflexivity|]. intros w' X Q. injection Q as _ Q. unfold sizedm. now rewrite (array_sized l X Q).
      + split; [reflexivity|discriminate].
Qed.
End Program.
