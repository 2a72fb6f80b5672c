(** Properties C106 and C107: trees and forests in other units. *)
From Verif Require Import Base Num Monad UtilsRProofs TreesModel TreesSpec TreesRProofs TreesUnitsSpec TreesUnits.
From Coq Require Import List ZArith Bool Arith Reals Lra Lia.
From Flocq Require Import Core.Raux.
Import ListNotations.
Unset Asymmetric Patterns.
Set Bullet Behavior "Strict Subproofs".
Local Open Scope R_scope.

(** C106: other units for each input coordinate (offset and positive factor) and another zero for the responses: the same random numbers
    grow the same trees, with tests, leaves and bootstrap samples in the new units, and fail in the same cases *)
Theorem C106_generic_trees (ax : axes) (e : R) : sound_axes ax ->
  forall W choice (uniform : NumR -> NumR -> W -> W * res NumR) trunc, uniform_affine uniform ->
  forall X Y, (forall x, In x (mrows X) -> List.length x = List.length ax) ->
  forall num_trees depth_max size_min_leaf ratio replace num_features random_location w,
  get_generic_trees NumR W choice uniform trunc (conv_mat ax X) (map (conv_out (1, e)) Y) num_trees depth_max size_min_leaf ratio replace num_features random_location w
  = after (map (fun p => (map (conv_row ax (1, e)) (fst p), conv_tree ax (1, e) (snd p))))
      (get_generic_trees NumR W choice uniform trunc X Y num_trees depth_max size_min_leaf ratio replace num_features random_location w).
Proof. intros HA W choice uniform trunc HU X Y HX nt dm m ratio rep nf rloc w. exact (generic_trees_conv (be := (1, e)) HA Rlt_0_1 choice trunc HU HX (or_introl eq_refl) nt dm m ratio rep nf rloc w). Qed.
Print Assumptions C106_generic_trees.

Theorem C106_random_forest (ax : axes) (e : R) : sound_axes ax ->
  forall W choice (uniform : NumR -> NumR -> W -> W * res NumR) trunc, uniform_affine uniform ->
  forall X Y, (forall x, In x (mrows X) -> List.length x = List.length ax) ->
  forall num_trees depth_max size_min_leaf num_features w,
  get_random_forest NumR W choice uniform trunc (conv_mat ax X) (map (conv_out (1, e)) Y) num_trees depth_max size_min_leaf num_features w
  = after (map (fun p => (map (conv_row ax (1, e)) (fst p), conv_tree ax (1, e) (snd p))))
      (get_random_forest NumR W choice uniform trunc X Y num_trees depth_max size_min_leaf num_features w).
Proof. intros HA W choice uniform trunc HU X Y HX nt dm m nf w. exact (random_forest_conv (be := (1, e)) HA Rlt_0_1 choice trunc HU HX (or_introl eq_refl) nt dm m nf w). Qed.
Print Assumptions C106_random_forest.

(** predictions of any converted forest at converted queries are the converted predictions, for any positive unit of the responses,
    also when the worker pool is used *)
Theorem C106_predictions (ax : axes) (be : R * R) : sound_axes ax -> 0 < fst be ->
  forall Xq trees schedule, Forall (fun x => List.length x = List.length ax) Xq ->
  predict_by_trees NumR (map (conv_in ax) Xq) (map (conv_tree ax be) trees) schedule = rmap (map (conv_pred be)) (predict_by_trees NumR Xq trees schedule).
Proof. intros HA HB Xq trees schedule F. now apply predict_conv. Qed.
Print Assumptions C106_predictions.

(** C107: another unit for the responses as well: the same, as long as the responses differ by at most 10^4 in both units *)
Theorem C107_generic_trees_partial (ax : axes) (be : R * R) : sound_axes ax -> 0 < fst be ->
  forall W choice (uniform : NumR -> NumR -> W -> W * res NumR) trunc, uniform_affine uniform ->
  forall X Y, (forall x, In x (mrows X) -> List.length x = List.length ax) -> span 10000 Y -> span 10000 (map (conv_out be) Y) ->
  forall num_trees depth_max size_min_leaf ratio replace num_features random_location w,
  get_generic_trees NumR W choice uniform trunc (conv_mat ax X) (map (conv_out be) Y) num_trees depth_max size_min_leaf ratio replace num_features random_location w
  = after (map (fun p => (map (conv_row ax be) (fst p), conv_tree ax be (snd p))))
      (get_generic_trees NumR W choice uniform trunc X Y num_trees depth_max size_min_leaf ratio replace num_features random_location w).
Proof.
  intros HA HB W choice uniform trunc HU X Y HX S1 S2 nt dm m ratio rep nf rloc w.
  exact (generic_trees_conv HA HB choice trunc HU HX (or_intror (span_both HB S1 S2)) nt dm m ratio rep nf rloc w).
Qed.
Print Assumptions C107_generic_trees_partial.

Theorem C107_random_forest_partial (ax : axes) (be : R * R) : sound_axes ax -> 0 < fst be ->
  forall W choice (uniform : NumR -> NumR -> W -> W * res NumR) trunc, uniform_affine uniform ->
  forall X Y, (forall x, In x (mrows X) -> List.length x = List.length ax) -> span 10000 Y -> span 10000 (map (conv_out be) Y) ->
  forall num_trees depth_max size_min_leaf num_features w,
  get_random_forest NumR W choice uniform trunc (conv_mat ax X) (map (conv_out be) Y) num_trees depth_max size_min_leaf num_features w
  = after (map (fun p => (map (conv_row ax be) (fst p), conv_tree ax be (snd p))))
      (get_random_forest NumR W choice uniform trunc X Y num_trees depth_max size_min_leaf num_features w).
Proof.
  intros HA HB W choice uniform trunc HU X Y HX S1 S2 nt dm m nf w.
  exact (random_forest_conv HA HB choice trunc HU HX (or_intror (span_both HB S1 S2)) nt dm m nf w).
Qed.
Print Assumptions C107_random_forest_partial.

(** a concrete case: two coordinates (say, seconds to minutes and Celsius to Fahrenheit), a forest of 10 trees on three rows *)
Definition ex_axes : axes := [(/ 60, 0); (9 / 5, 32)].
Definition ex_choice (n k : nat) (rep : bool) (w : unit) : unit * res (list nat) := (w, Ok (seq 0 k)).
Definition ex_uniform (lo hi : NumR) (w : unit) : unit * res NumR := (w, Ok (lo + (hi - lo) / 3)).
Definition ex_trunc (x : NumR) : option Z := Some (Zfloor x).
Lemma ex_axes_sound : sound_axes ex_axes.
Proof. unfold sound_axes, ex_axes. repeat constructor; cbn; lra. Qed.
Lemma ex_uniform_affine : uniform_affine ex_uniform.
Proof. intros a c lo hi w H. unfold ex_uniform. cbn [rmap]. assert (E : a * lo + c + (a * hi + c - (a * lo + c)) / 3 = a * (lo + (hi - lo) / 3) + c) by field. rewrite E. reflexivity. Qed.
Definition ex_X : mat NumR := mkmat [[0; 0]; [0; 1]; [0; 2]] 2.
Definition ex_Y (t : R) : list NumR := [0; t; 0].
Lemma ex_X_sized : forall x, In x (mrows ex_X) -> List.length x = 2%nat.
Proof. cbn. intros x [<-|[<-|[<-|[]]]]; reflexivity. Qed.
Lemma ex_span (t : R) : 0 <= t <= 10000 -> span 10000 (ex_Y t).
Proof. intros H. exists 0. unfold ex_Y. apply Forall_cons; [lra|]. apply Forall_cons; [lra|]. apply Forall_cons; [lra|]. apply Forall_nil. Qed.

(** the tree grown on these rows: the response in the middle is t, the others are 0 *)
Definition row0 : row NumR := ([0; 0], 0).
Definition row1 (t : R) : row NumR := ([0; 1], t).
Definition row2 : row NumR := ([0; 2], 0).
Notation rows t := [row0; row1 t; row2].
Ltac bools := repeat first [rewrite Rlt_bool_true by lra|rewrite Rlt_bool_false by lra|rewrite Rle_bool_true by lra|rewrite Rle_bool_false by lra|rewrite Req_bool_true by lra|rewrite Req_bool_false by lra].
Lemma lr_const t : split_left_right NumR (rows t) 0 0 = ([], rows t).
Proof. unfold split_left_right, coord, row0, row1, row2. cbn [filter nth fst nlt nle NumR nofZ]. bools. reflexivity. Qed.
Lemma lr_half t : split_left_right NumR (rows t) 1 (/ 2) = ([row0], [row1 t; row2]).
Proof. unfold split_left_right, coord, row0, row1, row2. cbn [filter nth fst nlt nle NumR nofZ]. bools. reflexivity. Qed.
Lemma lr_more t : split_left_right NumR (rows t) 1 (3 / 2) = ([row0; row1 t], [row2]).
Proof. unfold split_left_right, coord, row0, row1, row2. cbn [filter nth fst nlt nle NumR nofZ]. bools. reflexivity. Qed.
Lemma cost_const t : c_score NumR (split_at NumR (rows t) 0 0) = 100000000 + 2 * (t * t) / 9.
Proof. rewrite score_cost, lr_const. unfold cost, impurity, Ravg, row0, row1, row2. cbn. unfold Rsqr. field. Qed.
Lemma cost_half t : c_score NumR (split_at NumR (rows t) 1 (/ 2)) = t * t / 4.
Proof. rewrite score_cost, lr_half. unfold cost, impurity, Ravg, row0, row1, row2. cbn. unfold Rsqr. field. Qed.
Lemma cost_more t : c_score NumR (split_at NumR (rows t) 1 (3 / 2)) = t * t / 4.
Proof. rewrite score_cost, lr_more. unfold cost, impurity, Ravg, row0, row1, row2. cbn. unfold Rsqr. field. Qed.
Lemma unique0 : np_unique NumR [0; 0; 0] = [0].
Proof. unfold np_unique. cbn [fold_left insert_unique nisnan NumR nlt neqb]. bools. cbn [insert_unique nisnan NumR nlt neqb]. bools. reflexivity. Qed.
Lemma unique1 : np_unique NumR [0; 1; 2] = [0; 1; 2].
Proof. unfold np_unique. cbn [fold_left insert_unique nisnan NumR nlt neqb]. bools. cbn [insert_unique nisnan NumR nlt neqb]. bools. reflexivity. Qed.
Lemma deterministic_is (S : list (row NumR)) d col cands vals w : column NumR S d = Ok col -> np_unique NumR col = cands ->
  mapM (split_value NumR cands col) (seq 0 (Nat.min 20 (if Nat.ltb 1 (List.length cands) then List.length cands - 1 else 1))) = Ok vals ->
  split_deterministic NumR unit ex_choice S d w = (w, [], Ok (fold_left (fun cur v => keep_better NumR cur (split_at NumR S d v)) vals None)).
Proof. intros E1 E2 E3. unfold split_deterministic, bind, lift, ext, ex_choice. rewrite E1, E2, E3. reflexivity. Qed.
Lemma feature0 t w : split_deterministic NumR unit ex_choice (rows t) 0 w = (w, [], Ok (Some (split_at NumR (rows t) 0 0))).
Proof. rewrite (deterministic_is (rows t) 0 [0; 0; 0] [0] [0] w eq_refl unique0 eq_refl). reflexivity. Qed.
Lemma feature1 t w : split_deterministic NumR unit ex_choice (rows t) 1 w = (w, [], Ok (Some (split_at NumR (rows t) 1 (/ 2)))).
Proof.
  assert (E1 : nmean NumR [0; 1] = / 2) by (rewrite nmean_Ravg; unfold Ravg; cbn; field). assert (E2 : nmean NumR [1; 2] = 3 / 2) by (rewrite nmean_Ravg; unfold Ravg; cbn; field).
  rewrite (deterministic_is (rows t) 1 [0; 1; 2] [0; 1; 2] [/ 2; 3 / 2] w eq_refl unique1).
  - cbn [fold_left]. unfold keep_better at 2. cbn [nltinf NumR]. unfold keep_better. rewrite cost_half, cost_more. cbn [nlt NumR]. rewrite Rlt_bool_false by lra. reflexivity.
  - rewrite <- E1, <- E2. reflexivity.
Qed.
Lemma ex_forest t w : get_random_forest NumR unit ex_choice ex_uniform ex_trunc ex_X (ex_Y t) 1 1 1 2 w =
  (w, [], Ok [(rows t, if Rlt_bool (t * t / 4) (100000000 + 2 * (t * t) / 9) then TNode 1 (/ 2 : NumR) (TLeaf [row0]) (TLeaf [row1 t; row2]) else TNode 0 (0 : NumR) (TLeaf (rows t)) (TLeaf (rows t)))]).
Proof.
  unfold get_random_forest. cbn [Z.to_nat Pos.to_nat Pos.iter_op seq mmapM].
  assert (EG : grow_tree NumR unit ex_choice ex_uniform ex_trunc ex_X (ex_Y t) 1 1 (nofZ NumR 1) true 2 false w =
    (w, [], Ok (rows t, if Rlt_bool (t * t / 4) (100000000 + 2 * (t * t) / 9) then TNode 1 (/ 2 : NumR) (TLeaf [row0]) (TLeaf [row1 t; row2]) else TNode 0 (0 : NumR) (TLeaf (rows t)) (TLeaf (rows t))))).
  { assert (ES : subsample NumR unit ex_choice ex_trunc ex_X (ex_Y t) (nofZ NumR 1) true w = (w, [], Ok (rows t))).
    { unfold subsample. cbn [nlt NumR nofZ nmul]. rewrite Rlt_bool_true by lra. unfold ex_trunc. change (nofnat NumR (nrows ex_X)) with (IZR 3). rewrite Rmult_1_r, Zfloor_IZR. reflexivity. }
    unfold grow_tree. unfold bind at 1. rewrite ES. cbv beta iota. unfold bind at 1.
    assert (EN : split_node NumR unit ex_choice ex_uniform (mcols ex_X) (rows t) 2 false w =
      (w, [], Ok (if Rlt_bool (t * t / 4) (100000000 + 2 * (t * t) / 9) then Some (split_at NumR (rows t) 1 (/ 2)) else Some (split_at NumR (rows t) 0 0)))).
    { unfold split_node, bind, lift, ext, ex_choice. cbn [List.length Nat.ltb Nat.leb assert_ app seq]. cbn [split_features]. fold ex_choice. unfold bind. rewrite feature0. cbv beta iota. cbn [better_feature keep_better nltinf NumR].
      rewrite feature1. cbv beta iota. cbn [better_feature]. unfold keep_better. rewrite cost_half, cost_const. cbn [nlt NumR]. destruct (Rlt_bool _ _); reflexivity. }
    rewrite EN. cbv beta iota. destruct (Rlt_bool _ _); unfold split_at.
    - rewrite lr_half. reflexivity.
    - rewrite lr_const. reflexivity. }
  unfold bind, lift. change (Nat.eqb (nrows ex_X) (List.length (ex_Y t))) with true. cbn [assert_]. change (seq 0 (Pos.to_nat 1)) with [0%nat]. cbn [mmapM]. unfold bind. rewrite EG. reflexivity.
Qed.

(** C106 and C107, non-trivially: the tree splits, and is the same in the new units *)
Example C106_example : exists l l', 
  get_random_forest NumR unit ex_choice ex_uniform ex_trunc ex_X (ex_Y 1) 1 1 1 2 tt = (tt, [], Ok l) /\
  get_random_forest NumR unit ex_choice ex_uniform ex_trunc (conv_mat ex_axes ex_X) (map (conv_out (1, 100)) (ex_Y 1)) 1 1 1 2 tt = (tt, [], Ok l') /\
  l = [(rows 1, TNode 1 (/ 2 : NumR) (TLeaf [row0]) (TLeaf [row1 1; row2]))] /\
  forall sched, predict_by_trees NumR [conv_in ex_axes [0; 1]] (map snd l') sched = rmap (map (conv_pred (1, 100))) (predict_by_trees NumR [[0; 1]] (map snd l) sched).
Proof.
  pose proof (ex_forest 1 tt) as E. rewrite Rlt_bool_true in E by lra. eexists _, _. split; [exact E|]. split; [|split].
  - rewrite (C106_random_forest ex_axes 100 ex_axes_sound unit ex_choice ex_uniform ex_trunc ex_uniform_affine ex_X (ex_Y 1) ex_X_sized). rewrite E. reflexivity.
  - reflexivity.
  - intros sched. apply (C106_predictions ex_axes (1, 100) ex_axes_sound Rlt_0_1 [[0; 1]] [TNode 1 (/ 2 : NumR) (TLeaf [row0]) (TLeaf [row1 1; row2])] sched). repeat constructor.
Qed.
Example C107_example : exists l', 
  get_random_forest NumR unit ex_choice ex_uniform ex_trunc (conv_mat ex_axes ex_X) (map (conv_out (1000, 5)) (ex_Y 1)) 1 1 1 2 tt = (tt, [], Ok l') /\
  map snd l' = [conv_tree ex_axes (1000, 5) (TNode 1 (/ 2 : NumR) (TLeaf [row0]) (TLeaf [row1 1; row2]))].
Proof.
  pose proof (ex_forest 1 tt) as E. rewrite Rlt_bool_true in E by lra. eexists. split.
  - rewrite (C107_random_forest_partial ex_axes (1000, 5)) with (1 := ex_axes_sound) (3 := ex_uniform_affine) (4 := ex_X_sized).
    + rewrite E. reflexivity.
    + cbn. lra.
    + apply ex_span. lra.
    + exists 5. unfold ex_Y, conv_out. cbn [map fst snd]. apply Forall_cons; [lra|]. apply Forall_cons; [lra|]. apply Forall_cons; [lra|]. apply Forall_nil.
  - reflexivity.
Qed.

(** C107 fails in general: a response of 1 against 0 and 0 is separated from them; in units of which it has 10^5, a coordinate in which all
    rows agree is preferred, nothing is separated, and all predictions are the overall mean *)
Theorem C107_refuted : exists (be : R * R) X Y l l' x, 0 < fst be /\
  get_random_forest NumR unit ex_choice ex_uniform ex_trunc X Y 1 1 1 2 tt = (tt, [], Ok l) /\
  get_random_forest NumR unit ex_choice ex_uniform ex_trunc X (map (conv_out be) Y) 1 1 1 2 tt = (tt, [], Ok l') /\
  exists p p', predict_by_trees NumR [x] (map snd l) [] = Ok [p] /\ predict_by_trees NumR [x] (map snd l') [] = Ok [p'] /\ p' <> conv_pred be p.
Proof.
  pose proof (ex_forest 1 tt) as E. rewrite Rlt_bool_true in E by lra. pose proof (ex_forest 100000 tt) as E'. rewrite Rlt_bool_false in E' by lra.
  assert (EY : map (conv_out (100000, 0)) (ex_Y 1) = ex_Y 100000) by (unfold ex_Y, conv_out; cbn; f_equal; [ring|f_equal; [ring|f_equal; ring]]).
  exists (100000, 0), ex_X, (ex_Y 1). eexists _, _, [0; 0]. split; [cbn; lra|]. split; [exact E|]. rewrite EY. split; [exact E'|]. eexists _, _. split; [|split].
  - unfold predict_by_trees. cbn [List.length Nat.leb map snd]. unfold unit_predict_by_trees. cbn [mapM]. unfold predict_by_trees_one. cbn [mapM predict_by_tree nth_error]. cbn [nlt NumR]. rewrite Rlt_bool_true by lra. cbn [rbind map get_outputs_from_leaf]. 
    rewrite compute_sigma_eq by (try discriminate; reflexivity). cbn [rbind]. reflexivity.
  - unfold predict_by_trees. cbn [List.length Nat.leb map snd]. unfold unit_predict_by_trees. cbn [mapM]. unfold predict_by_trees_one. cbn [mapM predict_by_tree nth_error]. cbn [nlt NumR]. rewrite Rlt_bool_false by lra. cbn [rbind map get_outputs_from_leaf].
    rewrite compute_sigma_eq by (try discriminate; reflexivity). cbn [rbind]. reflexivity.
  - unfold conv_pred, conv_out. cbn [fst snd]. intros Q. injection Q as Q _. unfold nsum in Q. cbn in Q. lra.
Qed.
Print Assumptions C107_refuted.
