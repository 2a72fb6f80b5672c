(** Property C121: trees with deterministic splits use the order of the inputs only.  Exact real arithmetic. *)
From Verif Require Import Base Num Monad UtilsRProofs TreesModel TreesSpec TreesRProofs TreesUnitsSpec TreesUnits TreesUnitsProps WarpSpec WarpProofs.
From Coq Require Import List ZArith Bool Arith Reals Lra Lia.
From Flocq Require Import Core.Raux.
Import ListNotations.
Unset Asymmetric Patterns.
Set Bullet Behavior "Strict Subproofs".
Local Open Scope R_scope.

(** ** C121: after replacing every coordinate by a strictly increasing function of it, the same random numbers lead to the same exception or
    to trees with the same tests, the same rows in the same leaves and the same predictions at the rows they were grown from *)
Theorem C121_generic_trees : forall gs W choice (uniform : NumR -> NumR -> W -> W * res NumR) trunc X Y,
  sound_warps gs -> (forall x, In x (mrows X) -> List.length x = List.length gs) ->
  forall num_trees depth_max size_min_leaf ratio replace num_features w,
  outcomes (Forall2 (grown_alike gs))
    (get_generic_trees NumR W choice uniform trunc X Y num_trees depth_max size_min_leaf ratio replace num_features false w)
    (get_generic_trees NumR W choice uniform trunc (warp_mat gs X) Y num_trees depth_max size_min_leaf ratio replace num_features false w).
Proof. intros gs W choice uniform trunc X Y HG HX nt dm m ratio rep nf w. exact (generic_trees_warped HG choice uniform trunc Y HX nt dm m ratio rep nf w). Qed.
Print Assumptions C121_generic_trees.
Theorem C121_random_forest : forall gs W choice (uniform : NumR -> NumR -> W -> W * res NumR) trunc X Y,
  sound_warps gs -> (forall x, In x (mrows X) -> List.length x = List.length gs) ->
  forall num_trees depth_max size_min_leaf num_features w,
  outcomes (Forall2 (grown_alike gs))
    (get_random_forest NumR W choice uniform trunc X Y num_trees depth_max size_min_leaf num_features w)
    (get_random_forest NumR W choice uniform trunc (warp_mat gs X) Y num_trees depth_max size_min_leaf num_features w).
Proof. intros gs W choice uniform trunc X Y HG HX nt dm m nf w. exact (random_forest_warped HG choice uniform trunc Y HX nt dm m nf w). Qed.
Print Assumptions C121_random_forest.
(** the forest's mean and deviation at an input that every tree has seen *)
Theorem C121_predictions : forall gs l l' x, Forall2 (grown_alike gs) l l' -> (forall p, In p l -> exists r, In r (fst p) /\ fst r = x) ->
  predict_by_trees_one NumR (warp gs x) (map snd l') = predict_by_trees_one NumR x (map snd l).
Proof. intros gs l l' x. exact (@forest_warped gs l l' x). Qed.
Print Assumptions C121_predictions.

(** a forest of one tree on three rows, of which the third is not drawn *)
Definition wx_choice (n k : nat) (rep : bool) (w : unit) : unit * res (list nat) := (w, Ok (if rep then [0; 1; 1]%nat else seq 0 k)).
Definition wx_X (h m : R) : mat NumR := mkmat [[0]; [h]; [m]] 1.
Definition wx_Y : list NumR := [0; 1; 1].
Definition wx_rows (h : R) : list (row NumR) := [([0], 0); ([h], 1); ([h], 1)].
Definition wx_tree (h v : R) : tree NumR := @TNode NumR 0 v (@TLeaf NumR [([0], 0)]) (@TLeaf NumR [([h], 1); ([h], 1)]).
Lemma wx_forest h m w : 0 < h -> exists v, v = h / 2 /\ get_random_forest NumR unit wx_choice ex_uniform ex_trunc (wx_X h m) wx_Y 1 1 1 1 w = (w, [], Ok [(wx_rows h, wx_tree h v)]).
Proof.
  intros Hh. exists (nmean NumR [0; h]). assert (EV : @eq R (nmean NumR [0; h]) (h / 2)) by (rewrite nmean_Ravg; unfold Ravg; cbn; field). split; [exact EV|].
  unfold get_random_forest. cbn [Z.to_nat Pos.to_nat Pos.iter_op seq mmapM]. change (seq 0 (Pos.to_nat 1)) with [0%nat]. cbn [mmapM].
  assert (EG : grow_tree NumR unit wx_choice ex_uniform ex_trunc (wx_X h m) wx_Y 1 1 (nofZ NumR 1) true 1 false w = (w, [], Ok (wx_rows h, wx_tree h (nmean NumR [0; h])))).
  { assert (ES : subsample NumR unit wx_choice ex_trunc (wx_X h m) wx_Y (nofZ NumR 1) true w = (w, [], Ok (wx_rows h))).
    { unfold subsample. cbn [nlt NumR nofZ nmul]. rewrite Rlt_bool_true by lra. unfold ex_trunc. change (nofnat NumR (nrows (wx_X h m))) with (IZR 3). rewrite Rmult_1_r, Zfloor_IZR. reflexivity. }
    unfold grow_tree. unfold bind at 1. rewrite ES. cbv beta iota. unfold bind at 1.
    assert (LR : split_left_right NumR (wx_rows h) 0 (nmean NumR [0; h]) = ([([0], 0)], [([h], 1); ([h], 1)])).
    { unfold split_left_right, coord, wx_rows. cbn [filter nth fst nlt nle NumR nofZ]. match goal with |- context [Rlt_bool _ ?q] => assert (EQ : q = h / 2) by exact EV; rewrite EQ end. bools. reflexivity. }
    assert (UN : np_unique NumR [0; h; h] = [0; h]).
    { unfold np_unique. cbn [fold_left insert_unique nisnan NumR nlt neqb]. bools. cbn [insert_unique nisnan NumR nlt neqb]. bools. reflexivity. }
    assert (EN : split_node NumR unit wx_choice ex_uniform (mcols (wx_X h m)) (wx_rows h) 1 false w = (w, [], Ok (Some (split_at NumR (wx_rows h) 0 (nmean NumR [0; h]))))).
    { unfold split_node, bind, lift, ext. cbn [List.length Nat.ltb Nat.leb assert_ app seq wx_choice wx_rows]. cbn [split_features]. unfold split_deterministic, bind, lift, ext.
      change (column NumR _ 0) with (@Ok (list NumR) [0; h; h]). cbv beta iota. rewrite UN. reflexivity. }
    rewrite EN. cbv beta iota. unfold split_at. rewrite LR. reflexivity. }
  unfold bind, lift. change (Nat.eqb (nrows (wx_X h m)) (List.length wx_Y)) with true. cbn [assert_]. cbv beta iota. rewrite EG. reflexivity.
Qed.
Definition cubes : warps := [fun x => x * x * x].
Lemma cubes_sound : sound_warps cubes.
Proof. repeat constructor. intros u v H. assert (P : 0 < v * v + u * v + u * u) by (assert (0 <= (u + v / 2) * (u + v / 2)) by apply Rle_0_sqr; destruct (Rtotal_order v 0) as [Q|[Q|Q]]; [assert (0 < v * v) by nra; lra|subst v; assert (0 < u * u) by nra; lra|assert (0 < v * v) by nra; lra]). assert (E := Rmult_lt_0_compat _ _ (Rlt_Rminus _ _ H) P). lra. Qed.
Lemma wx_sized h m : forall x, In x (mrows (wx_X h m)) -> List.length x = List.length cubes.
Proof. cbn. intros x [<-|[<-|[<-|[]]]]; reflexivity. Qed.
Lemma wx_cubes : warp_mat cubes (wx_X 2 (3 / 2)) = wx_X 8 (27 / 8).
Proof.
  unfold warp_mat, wx_X, cubes. cbn [mrows mcols map warp]. replace (0 * 0 * 0) with 0 by ring. replace (2 * 2 * 2) with 8 by ring. replace (3 / 2 * (3 / 2) * (3 / 2)) with (27 / 8) by field. reflexivity.
Qed.
(** the two trees have different thresholds, and the drawn inputs 0 and 2 get the same predictions *)
Example C121_example : sound_warps cubes /\ exists v v' : R, v = 1 /\ v' = 4 /\
  get_random_forest NumR unit wx_choice ex_uniform ex_trunc (wx_X 2 (3 / 2)) wx_Y 1 1 1 1 tt = (tt, [], Ok [(wx_rows 2, wx_tree 2 v)]) /\
  get_random_forest NumR unit wx_choice ex_uniform ex_trunc (warp_mat cubes (wx_X 2 (3 / 2))) wx_Y 1 1 1 1 tt = (tt, [], Ok [(wx_rows 8, wx_tree 8 v')]) /\
  predict_by_trees_one NumR (warp cubes [2]) [wx_tree 8 v'] = predict_by_trees_one NumR [2] [wx_tree 2 v].
Proof.
  split; [exact cubes_sound|]. destruct (wx_forest 2 (3 / 2) tt) as (v & Ev & E); [lra|]. destruct (wx_forest 8 (27 / 8) tt) as (v' & Ev' & E'); [lra|]. rewrite <- wx_cubes in E'.
  exists v, v'. split; [lra|]. split; [lra|]. split; [exact E|]. split; [exact E'|].
  pose proof (C121_random_forest cubes unit wx_choice ex_uniform ex_trunc _ wx_Y cubes_sound (wx_sized 2 (3 / 2)) 1 1 1 1 tt) as H. rewrite E, E' in H. destruct H as (_ & _ & H). cbn [snd] in H.
  apply (C121_predictions cubes _ _ [2] H). intros p [<-|[]]. exists ([2], 1). split; [right; now left|reflexivity].
Qed.
(** it does not extend to other inputs, not even to training inputs that were not drawn: the thresholds lie half-way between inputs, which
    is not half-way between their images *)
Theorem C121_elsewhere_refuted : exists gs W choice (uniform : NumR -> NumR -> W -> W * res NumR) trunc X Y w l l' x p p',
  sound_warps gs /\ In x (mrows X) /\
  get_random_forest NumR W choice uniform trunc X Y 1 1 1 1 w = (w, [], Ok l) /\
  get_random_forest NumR W choice uniform trunc (warp_mat gs X) Y 1 1 1 1 w = (w, [], Ok l') /\
  predict_by_trees_one NumR x (map snd l) = Ok p /\ predict_by_trees_one NumR (warp gs x) (map snd l') = Ok p' /\ fst p = 1 /\ fst p' = 0.
Proof.
  destruct (wx_forest 2 (3 / 2) tt) as (v & Ev & E); [lra|]. destruct (wx_forest 8 (27 / 8) tt) as (v' & Ev' & E'); [lra|]. rewrite <- wx_cubes in E'.
  exists cubes, unit, wx_choice, ex_uniform, ex_trunc, (wx_X 2 (3 / 2)), wx_Y, tt. eexists _, _, [3 / 2], _, _. split; [exact cubes_sound|]. split; [right; right; now left|]. split; [exact E|]. split; [exact E'|].
  split; [|split; [|split]].
  - unfold predict_by_trees_one. cbn [map snd mapM predict_by_tree wx_tree nth_error nlt NumR]. rewrite Rlt_bool_false by lra. cbn [rbind map get_outputs_from_leaf]. rewrite compute_sigma_eq by (try discriminate; reflexivity). cbn [rbind]. reflexivity.
  - unfold predict_by_trees_one. cbn [map snd mapM predict_by_tree wx_tree nth_error nlt NumR warp cubes]. rewrite Rlt_bool_true by lra. cbn [rbind map get_outputs_from_leaf]. rewrite compute_sigma_eq by (try discriminate; reflexivity). cbn [rbind]. reflexivity.
  - unfold nsum. cbn. field.
  - unfold nsum. cbn. field.
Qed.
Print Assumptions C121_elsewhere_refuted.
