(** Trees and forests under changes of units. *)
From Verif Require Import Base Lists Num NumLaws Monad UtilsRProofs TreesModel TreesSpec TreesProofs TreesRProofs TreesBest RelProofs TreesUnitsSpec.
From Coq Require Import List ZArith Bool Arith Reals Lra Lia.
From Flocq Require Import Core.Raux.
Import ListNotations.
Set Implicit Arguments. Unset Strict Implicit.
Unset Asymmetric Patterns.
Set Bullet Behavior "Strict Subproofs".
Local Open Scope R_scope.
Local Notation N := NumR.
Ltac dm l := match goal with |- context [mapM ?g l] => destruct (mapM g l) end.

Lemma rmap_rres {A B} (f : A -> B) (r : res A) (r' : res B) : r' = rmap f r <-> rres (fun a b => b = f a) r r'.
Proof. destruct r, r'; cbn; split; intros H; try congruence; try contradiction. all: try (injection H as ->); reflexivity || congruence. Qed.

(** ** one axis *)
Section Axis.
Context (ac : R * R) (HA : 0 < fst ac).
Notation f := (on_axis ac).
Lemma axis_lt u v : Rlt_bool (f u) (f v) = Rlt_bool u v.
Proof. unfold on_axis. destruct (Rlt_bool_spec u v); [apply Rlt_bool_true|apply Rlt_bool_false]; nra. Qed.
Lemma axis_le u v : Rle_bool (f u) (f v) = Rle_bool u v.
Proof. unfold on_axis. destruct (Rle_bool_spec u v); [apply Rle_bool_true|apply Rle_bool_false]; nra. Qed.
Lemma axis_eqb u v : Req_bool (f u) (f v) = Req_bool u v.
Proof. unfold on_axis. destruct (Req_bool_spec u v); [apply Req_bool_true; congruence|apply Req_bool_false; nra]. Qed.
Lemma axis_insert (x : R) (l : list R) : insert_unique N (f x) (map f l) = map f (insert_unique N x l).
Proof.
  induction l as [|y l IH]; [reflexivity|]. cbn [insert_unique map]. cbn [nisnan NumR nlt neqb]. rewrite axis_lt, axis_eqb.
  destruct (Rlt_bool x y); [reflexivity|]. destruct (Req_bool x y); [reflexivity|]. cbn [map]. now rewrite <- IH.
Qed.
Lemma axis_unique (l : list R) : np_unique N (map f l) = map f (np_unique N l).
Proof.
  unfold np_unique. assert (G : forall acc : list R, fold_left (fun acc x => insert_unique N x acc) (map f l) (map f acc) = map f (fold_left (fun acc x => insert_unique N x acc) l acc)); [|exact (G [])].
  induction l as [|x l IH]; intros acc; cbn [map fold_left]; [reflexivity|]. rewrite axis_insert. apply IH.
Qed.
Lemma axis_min (l : list R) : npmin N (map f l) = rmap f (npmin N l).
Proof.
  destruct l as [|x l]; [reflexivity|]. cbn [npmin map rmap]. f_equal. revert x. induction l as [|y l IH]; intros x; [reflexivity|]. cbn [map fold_left]. rewrite <- IH. f_equal.
  unfold npmin2. cbn [nisnan NumR nlt]. rewrite axis_lt. now destruct (Rlt_bool y x).
Qed.
Lemma axis_max (l : list R) : npmax N (map f l) = rmap f (npmax N l).
Proof.
  destruct l as [|x l]; [reflexivity|]. cbn [npmax map rmap]. f_equal. revert x. induction l as [|y l IH]; intros x; [reflexivity|]. cbn [map fold_left]. rewrite <- IH. f_equal.
  unfold npmax2. cbn [nisnan NumR nlt]. rewrite axis_lt. now destruct (Rlt_bool x y).
Qed.
Lemma axis_mean (u v : R) : nmean N [f u; f v] = f (nmean N [u; v]).
Proof. rewrite !nmean_Ravg. unfold Ravg, on_axis. cbn. field. Qed.
End Axis.

(** ** responses *)
Lemma Ravg_map {A B} (g : B -> R) (h : A -> B) l : Ravg g (map h l) = Ravg (fun a => g (h a)) l.
Proof. unfold Ravg. now rewrite map_map, map_length. Qed.
Section Out.
Context (be : R * R) (HB : 0 < fst be).
Notation out := (conv_out be).
Lemma out_mean (l : list R) : l <> [] -> Ravg (fun u => u) (map out l) = out (Ravg (fun u => u) l).
Proof. intros NE. rewrite Ravg_map. unfold conv_out. rewrite Ravg_plus, Ravg_scal, Ravg_const by exact NE. reflexivity. Qed.
Lemma out_spread (l : list R) : l <> [] ->
  Ravg (fun y : R => (y - Ravg (fun u => u) (map out l))²) (map out l) = (fst be)² * Ravg (fun y : R => (y - Ravg (fun u => u) l)²) l.
Proof. intros NE. rewrite out_mean by exact NE. rewrite Ravg_map, <- Ravg_scal. apply Ravg_ext. intros y _. unfold conv_out, Rsqr. ring. Qed.
Lemma out_nmean (l : list R) : l <> [] -> nmean N (map out l) = out (nmean N l).
Proof. intros NE. rewrite !nmean_Ravg. now apply out_mean. Qed.
Lemma out_nstd (l : list R) : l <> [] -> nstd N 0 (map out l) = fst be * nstd N 0 l.
Proof.
  intros NE. assert (NE' : map out l <> []) by (destruct l; [congruence|discriminate]). destruct (nstd0_R NE) as (P & E), (nstd0_R NE') as (P' & E').
  apply Rsqr_inj; [exact P'|apply Rmult_le_pos; lra|]. rewrite Rsqr_mult, E, E'. now apply out_spread.
Qed.
End Out.

Section Units.
Context (ax : axes) (be : R * R) (HAX : sound_axes ax) (HB : 0 < fst be).
Notation nd := (List.length ax).
Notation ci := (conv_in ax). Notation out := (conv_out be). Notation cr := (conv_row ax be). Notation ct := (conv_tree ax be).
Notation f d := (on_axis (nth d ax (1, 0))).

Lemma axis_pos d : 0 < fst (nth d ax (1, 0)).
Proof.
  destruct (Nat.lt_ge_cases d nd) as [L|L]; [|rewrite nth_overflow by exact L; cbn; lra]. apply (proj1 (Forall_forall _ _) HAX). now apply nth_In.
Qed.
Lemma ci_nth d : forall x, List.length x = nd -> nth_error (ci x) d = option_map (f d) (nth_error x d).
Proof.
  clear. revert d. induction ax as [|ac a IH]; intros d [|v x] L; try discriminate; [now destruct d|]. destruct d as [|d]; [reflexivity|]. cbn [conv_in nth_error nth]. apply IH. now injection L.
Qed.
Definition sized (S : list (row N)) : Prop := forall r, In r S -> List.length (fst r) = nd.
Lemma ci_len x : List.length x = nd -> List.length (ci x) = nd.
Proof. clear. revert x. induction ax as [|ac a IH]; intros [|v x] L; try discriminate; [reflexivity|]. cbn. f_equal. apply IH. now injection L. Qed.
Lemma ci_coord d (r : row N) : List.length (fst r) = nd -> (d < nd)%nat -> coord N d (cr r) = f d (coord N d r).
Proof.
  intros L HD. unfold coord, conv_row. cbn [fst]. assert (E := ci_nth d L). destruct (nth_error (fst r) d) as [v|] eqn:EV; cbn [option_map] in E; [|apply nth_error_None in EV; unfold car in *; cbn in *; lia].
  apply nth_error_nth with (d := nofZ N 0) in EV, E. etransitivity; [exact E|]. f_equal. symmetry. exact EV.
Qed.

Lemma column_conv S d : sized S -> S <> [] -> rres (fun c c' => (d < nd)%nat /\ c' = map (f d) c) (column N S d) (column N (map cr S) d).
Proof.
  intros HS NE. destruct (Nat.lt_ge_cases d nd) as [L|L].
  - assert (G : column N (map cr S) d = rmap (map (f d)) (column N S d)).
    { clear NE. unfold column. induction S as [|r S IH]; [reflexivity|]. cbn [map mapM]. unfold conv_row at 1. cbn [fst]. rewrite (ci_nth d) by (apply HS; now left).
      destruct (nth_error (fst r) d); cbn [option_map rbind]; [|reflexivity]. setoid_rewrite IH; [|intros r' Hr; apply HS; now right]. dm S; reflexivity. }
    rewrite G. destruct (column N S d); cbn; auto.
  - destruct S as [|r S]; [congruence|]. assert (LR : List.length (fst r) = nd) by (apply HS; now left). unfold column. cbn [map mapM]. unfold conv_row at 1. cbn [fst]. rewrite (ci_nth d) by exact LR.
    assert (EN : nth_error (fst r) d = None) by (apply nth_error_None; unfold car in *; cbn in *; lia). rewrite EN. reflexivity.
Qed.

Lemma filter_map_comm {A B} (g : A -> B) (p : A -> bool) (q : B -> bool) l : (forall a, In a l -> q (g a) = p a) -> filter q (map g l) = map g (filter p l).
Proof.
  induction l as [|a l IH]; intros H; [reflexivity|]. cbn [map filter]. rewrite (H a (or_introl eq_refl)). rewrite IH by (intros; apply H; now right). now destruct (p a).
Qed.
Definition cr2 (lr : list (row N) * list (row N)) := (map cr (fst lr), map cr (snd lr)).
Lemma split_conv S d (v : R) : sized S -> (d < nd)%nat -> split_left_right N (map cr S) d (f d v) = cr2 (split_left_right N S d v).
Proof.
  intros HS HD. unfold split_left_right, cr2. cbn [fst snd]. f_equal; apply filter_map_comm; intros r Hr; rewrite (ci_coord (HS r Hr) HD).
  - apply axis_lt, axis_pos.
  - apply axis_le, axis_pos.
Qed.

(** ** comparing scores *)
Definition fair (S : list (row N)) : Prop := fst be = 1 \/ exists r : R, span r (map snd S) /\ r <= 10000 /\ fst be * r <= 10000.
Lemma fair_sub S S' : fair S -> (forall r, In r S' -> In r S) -> fair S'.
Proof.
  intros [H|(r & (lo & F) & H)] I; [now left|]. right. exists r. split; [|exact H]. exists lo. rewrite Forall_forall in *. intros y Hy. apply in_map_iff in Hy as (z & <- & Hz). apply F, in_map, I, Hz.
Qed.
Definition spread (Y : list R) : R := Ravg (fun y : R => (y - Ravg (fun u => u) Y)²) Y.
Lemma impurity_conv (l : list (row N)) : l <> [] -> impurity (map cr l) = (fst be)² * impurity l.
Proof.
  intros NE. assert (EI : forall q : list (row N), q <> [] -> impurity q = spread (map snd q)) by (intros [|z q] NQ; [congruence|reflexivity]).
  rewrite !EI by (destruct l; [congruence|discriminate]).
  assert (E : map snd (map cr l) = map out (map snd l)) by (rewrite !map_map; reflexivity). rewrite E. apply (@out_spread be (map snd l)). destruct l; [congruence|discriminate].
Qed.
Lemma impurity_nonneg l : 0 <= impurity l.
Proof. unfold impurity. destruct l; [lra|]. apply Ravg_nonneg. intros; apply Rle_0_sqr. Qed.
Lemma impurity_span (l : list (row N)) r : l <> [] -> span r (map snd l) -> impurity l <= (r / 2)².
Proof.
  intros NE (lo & F). destruct l as [|x l]; [congruence|]. unfold impurity. set (Y := map snd (x :: l)) in *. assert (NY : Y <> []) by discriminate.
  destruct (nstd0_R NY) as (_ & E). rewrite <- E. destruct (@leaf_pred Y lo (lo + r) NY) as (_ & _ & H); [rewrite Forall_forall in F; exact F|].
  pose proof (Rle_0_sqr (nmean N Y - (lo + (lo + r)) / 2)) as P. replace ((lo + r - lo) / 2) with (r / 2) in H by field. lra.
Qed.
Lemma side_cases S d (v : R) : S <> [] -> let lr := split_left_right N S d v in
  (fst lr <> [] /\ snd lr <> []) \/ (fst lr = [] /\ snd lr = S) \/ (fst lr = S /\ snd lr = []).
Proof.
  intros NE. cbn [split_left_right fst snd]. set (p := fun r => nlt N (coord N d r) v). set (q := fun r => nle N v (coord N d r)).
  assert (PQ : forall r, q r = negb (p r)) by (intros r; unfold p, q; cbn [nlt nle NumR]; destruct (Rlt_bool_spec (coord N d r) v), (Rle_bool_spec v (coord N d r)); cbn; try reflexivity; lra).
  assert (F1 : forall l, filter p l = [] -> filter q l = l).
  { induction l as [|r l IH]; [reflexivity|]. cbn [filter]. rewrite PQ. destruct (p r); [discriminate|]. cbn [negb]. intros H. now rewrite IH. }
  assert (F2 : forall l, filter q l = [] -> filter p l = l).
  { induction l as [|r l IH]; [reflexivity|]. cbn [filter]. rewrite PQ. destruct (p r); [|discriminate]. cbn [negb]. intros H. now rewrite IH. }
  destruct (filter p S) eqn:E1; [right; left; split; [reflexivity|now apply F1]|]. destruct (filter q S) eqn:E2; [right; right; split; [rewrite <- E1; now apply F2|reflexivity]|]. left. split; discriminate.
Qed.
(** the cost of a split is a spread, plus the penalty if a side is empty *)
Definition cost (lr : list (row N) * list (row N)) : R := impurity (fst lr) + impurity (snd lr).
Lemma score_cost S d v : c_score N (split_at N S d v) = cost (split_left_right N S d v).
Proof. exact (mse_R S d v). Qed.
Lemma cost_cases S d (v : R) : S <> [] -> fair S -> let lr := split_left_right N S d v in
  (exists q, 0 <= q /\ cost lr = q /\ cost (cr2 lr) = (fst be)² * q /\ (fst be = 1 \/ q < 100000000 /\ (fst be)² * q < 100000000)) \/
  (cost lr = 100000000 + impurity S /\ cost (cr2 lr) = 100000000 + (fst be)² * impurity S).
Proof.
  intros NE FS lr. pose proof (side_cases d v NE) as SC. fold lr in SC. assert (SUB : forall r, In r (fst lr) \/ In r (snd lr) -> In r S).
  { unfold lr, split_left_right. cbn [fst snd]. intros r [I|I]; apply filter_In in I; tauto. }
  clearbody lr. destruct lr as [l r]. unfold cost, cr2. cbn [fst snd] in *. destruct SC as [(N1 & N2)|[(-> & ->)|(-> & ->)]].
  - left. exists (impurity l + impurity r). pose proof (impurity_nonneg l) as P1. pose proof (impurity_nonneg r) as P2. split; [lra|]. split; [reflexivity|].
    rewrite !impurity_conv by assumption. split; [ring|]. destruct FS as [E|(s & (lo & F) & B1 & B2)]; [now left|]. right.
    assert (SP : forall l', l' <> [] -> (forall x, In x l' -> In x S) -> impurity l' <= (s / 2)²).
    { intros l' NL I. apply impurity_span; [exact NL|]. exists lo. rewrite Forall_forall in *. intros y Hy. apply in_map_iff in Hy as (z & <- & Hz). apply F, in_map, I, Hz. }
    assert (S0 : 0 <= s). { destruct S as [|z S]; [congruence|]. inversion F as [|? ? Hz _]; subst. lra. }
    pose proof (SP l N1 (fun x H => SUB x (or_introl H))) as Q1. pose proof (SP r N2 (fun x H => SUB x (or_intror H))) as Q2. unfold Rsqr in *.
    assert (C1 : s * s <= 100000000) by nra. assert (C2 : (fst be * s) * (fst be * s) <= 100000000) by (assert (0 <= fst be * s) by nra; nra). split; [lra|].
    assert (fst be * fst be * (impurity l + impurity r) <= fst be * fst be * (2 * (s / 2 * (s / 2)))) by (apply Rmult_le_compat_l; [nra|lra]). lra.
  - right. cbn [map impurity]. rewrite impurity_conv by exact NE. split; reflexivity.
  - right. cbn [map impurity]. rewrite impurity_conv by exact NE. split; ring.
Qed.
Lemma compare_conv S d1 v1 d2 v2 : S <> [] -> fair S ->
  Rlt_bool (cost (cr2 (split_left_right N S d1 v1))) (cost (cr2 (split_left_right N S d2 v2))) = Rlt_bool (cost (split_left_right N S d1 v1)) (cost (split_left_right N S d2 v2)).
Proof.
  intros NE FS. assert (B2 : 0 < (fst be)²) by (apply Rlt_0_sqr; lra). assert (B1 : fst be = 1 -> (fst be)² = 1) by (intros ->; unfold Rsqr; lra). set (bb := (fst be)²) in *.
  pose proof (impurity_nonneg S) as PI. assert (PB : 0 <= bb * impurity S) by nra.
  destruct (cost_cases d1 v1 NE FS) as [(q1 & P1 & -> & -> & C1)|(-> & ->)], (cost_cases d2 v2 NE FS) as [(q2 & P2 & -> & -> & C2)|(-> & ->)]; fold bb in C1 || idtac; fold bb in C2 || idtac; fold bb.
  - destruct (Rlt_bool_spec q1 q2); [apply Rlt_bool_true|apply Rlt_bool_false]; nra.
  - destruct C1 as [->%B1|(C1 & C1')]; [now rewrite !Rmult_1_l|]. rewrite !Rlt_bool_true by lra. reflexivity.
  - destruct C2 as [->%B1|(C2 & C2')]; [now rewrite !Rmult_1_l|]. rewrite !Rlt_bool_false by lra. reflexivity.
  - rewrite !Rlt_bool_false by lra. reflexivity.
Qed.

(** ** growing *)
Notation lr_of S d v := (split_left_right N S d v).
Definition same_cand (S : list (row N)) (o o' : option (cand N)) : Prop :=
  (o = None /\ o' = None) \/ exists d (v : R), (d < nd)%nat /\ o = Some (split_at N S d v) /\ o' = Some (split_at N (map cr S) d (f d v)).
Lemma keep_conv S o o' d (v : R) : sized S -> S <> [] -> fair S -> (d < nd)%nat -> same_cand S o o' ->
  same_cand S (keep_better N o (split_at N S d v)) (keep_better N o' (split_at N (map cr S) d (f d v))).
Proof.
  intros HS NE FS HD [(-> & ->)|(d0 & v0 & HD0 & -> & ->)].
  - right. exists d, v. cbn [keep_better nltinf NumR]. auto.
  - unfold keep_better. rewrite !score_cost. rewrite !split_conv by assumption. cbn [nlt NumR]. rewrite compare_conv by assumption.
    destruct (Rlt_bool (cost _) (cost _)); right; eauto 8.
Qed.
Lemma better_conv S o o' c c' : sized S -> S <> [] -> fair S -> same_cand S o o' -> same_cand S c c' -> same_cand S (better_feature N o c) (better_feature N o' c').
Proof.
  intros HS NE FS H [(-> & ->)|(d & v & HD & -> & ->)]; [exact H|]. cbn [better_feature]. now apply keep_conv.
Qed.

Section World.
Context (W : Type) (choice : nat -> nat -> bool -> W -> W * res (list nat)) (uniform : N -> N -> W -> W * res N) (trunc : N -> option Z).
Notation rl := (rel (W1 := W) (W2 := W) (E1 := unit) (E2 := unit) eq eq).
Lemma rl_lift {A B} (RA : A -> B -> Prop) r r' : rres RA r r' -> rl RA (lift r) (lift r').
Proof. apply rel_lift. Qed.
Lemma rl_ext {A} (g : W -> W * res A) : rl eq (ext g) (ext g).
Proof. apply rel_ext. intros w ? <-. split; [reflexivity|apply rres_refl]. Qed.

Lemma deterministic_conv S d : sized S -> S <> [] -> fair S -> rl (same_cand S) (split_deterministic N W choice S d) (split_deterministic N W choice (map cr S) d).
Proof.
  intros HS NE FS. unfold split_deterministic. eapply rel_bind; [apply rl_lift, column_conv; assumption|]. intros col ? (HD & ->). rewrite (axis_unique (axis_pos d)). rewrite !map_length.
  eapply rel_bind; [apply rl_ext|]. intros idx ? <-.
  eapply rel_bind with (RA := fun vs vs' => vs' = map (f d) vs).
  { apply rl_lift. apply rmap_rres. induction idx as [|i idx IH]; [reflexivity|]. cbn [mapM].
    assert (E : split_value N (map (f d) (np_unique N col)) (map (f d) col) i = rmap (f d) (split_value N (np_unique N col) col i)).
    { unfold split_value. rewrite map_length. destruct (Nat.ltb 1 _).
      - rewrite skipn_map. change (@skipn (car N)) with (@skipn R). destruct (@skipn R i (np_unique N col)) as [|u [|v l]]; try reflexivity. cbn [map rmap]. f_equal. apply axis_mean.
      - now destruct col. }
    setoid_rewrite E. destruct (split_value N _ col i) as [v|]; [|reflexivity]. cbn [rmap rbind]. setoid_rewrite IH. dm idx; reflexivity. }
  intros vs ? ->. apply rel_ret.
  assert (G : forall vs o o', same_cand S o o' -> same_cand S (fold_left (fun cur v => keep_better N cur (split_at N S d v)) vs o) (fold_left (fun cur v => keep_better N cur (split_at N (map cr S) d v)) (map (f d) vs) o')).
  { induction vs0 as [|v l IH]; intros o o' H; cbn [map fold_left]; [exact H|]. apply IH. now apply keep_conv. }
  apply G. now left.
Qed.

Context (HU : uniform_affine uniform).
Lemma random_conv S d : sized S -> S <> [] -> fair S -> rl (same_cand S) (split_random N W uniform S d) (split_random N W uniform (map cr S) d).
Proof.
  intros HS NE FS. unfold split_random. eapply rel_bind; [apply rl_lift, column_conv; assumption|]. intros col ? (HD & ->). rewrite (axis_unique (axis_pos d)). rewrite !map_length.
  eapply rel_bind with (RA := fun v v' => v' = f d v).
  - destruct (Nat.ltb 1 _).
    + eapply rel_bind with (RA := fun v v' => v' = f d v); [apply rl_lift; apply rmap_rres, axis_min, axis_pos|]. intros lo ? ->.
      eapply rel_bind with (RA := fun v v' => v' = f d v); [apply rl_lift; apply rmap_rres, axis_max, axis_pos|]. intros hi ? ->.
      apply rel_ext. intros w ? <-. unfold on_axis. rewrite (HU _ lo hi w (axis_pos d)). destruct (uniform lo hi w) as [w' r]. cbn [fst snd]. split; [reflexivity|]. destruct r; cbn; reflexivity.
    + apply rl_lift. destruct col; cbn; reflexivity.
  - intros v ? ->. apply rel_ret. right. exists d, v. auto.
Qed.
Lemma features_conv S rloc : sized S -> S <> [] -> fair S -> forall fs o o', same_cand S o o' ->
  rl (same_cand S) (split_features N W choice uniform S rloc fs o) (split_features N W choice uniform (map cr S) rloc fs o').
Proof.
  intros HS NE FS. induction fs as [|d fs IH]; intros o o' H; cbn [split_features]; [now apply rel_ret|].
  eapply rel_bind with (RA := same_cand S); [destruct rloc; [now apply random_conv|now apply deterministic_conv]|]. intros c c' HC. apply IH. now apply better_conv.
Qed.
Lemma node_conv n S nf rloc : sized S -> fair S -> rl (same_cand S) (split_node N W choice uniform n S nf rloc) (split_node N W choice uniform n (map cr S) nf rloc).
Proof.
  intros HS FS. unfold split_node. rewrite map_length. destruct S as [|r S]; [intros w ? <-; cbn; auto|].
  eapply rel_bind; [apply rel_lift_eq|]. intros _ _ _. eapply rel_bind; [apply rl_ext|]. intros fs ? <-. apply features_conv; [exact HS|discriminate|exact FS|now left].
Qed.
Lemma grow_conv n nf rloc m : forall rem S o o', sized S -> fair S -> same_cand S o o' ->
  rl (fun t t' => t' = ct t) (grow_split N W choice uniform n nf rloc m rem o) (grow_split N W choice uniform n nf rloc m rem o').
Proof.
  induction rem as [|rem IH]; intros S o o' HS FS [(-> & ->)|(d & v & HD & -> & ->)]; cbn [grow_split]; try apply rel_raise; unfold split_at; rewrite !split_conv by assumption;
    assert (SUB : forall r, In r (fst (lr_of S d v)) \/ In r (snd (lr_of S d v)) -> In r S) by (unfold split_left_right; cbn [fst snd]; intros r [I|I]; apply filter_In in I; tauto);
    destruct (lr_of S d v) as [l r]; unfold cr2; cbn [fst snd] in *.
  - destruct l as [|x l], r as [|y r]; apply rel_ret; cbn [conv_tree map]; rewrite ?map_app, ?app_nil_r; reflexivity.
  - destruct l as [|x l]; [apply rel_ret; cbn [conv_tree map]; rewrite ?map_app, ?app_nil_r; reflexivity|]. destruct r as [|y r]; [apply rel_ret; cbn [conv_tree map]; rewrite ?map_app, ?app_nil_r; reflexivity|].
    cbn [map]. change (cr x :: map cr l) with (map cr (x :: l)). change (cr y :: map cr r) with (map cr (y :: r)). rewrite !map_length.
    assert (SIDE : forall s, (forall z, In z s -> In z S) -> rl (fun t t' => t' = ct t)
      (if (Z.of_nat (List.length s) <=? m)%Z then ret (TLeaf s) else mlet c <- split_node N W choice uniform n s nf rloc; grow_split N W choice uniform n nf rloc m rem c)
      (if (Z.of_nat (List.length s) <=? m)%Z then ret (TLeaf (map cr s)) else mlet c <- split_node N W choice uniform n (map cr s) nf rloc; grow_split N W choice uniform n nf rloc m rem c)).
    { intros s I. destruct (Z.of_nat _ <=? m)%Z; [now apply rel_ret|]. assert (HS' : sized s) by (intros z Hz; apply HS, I, Hz). pose proof (fair_sub FS I) as FS'.
      eapply rel_bind; [now apply node_conv|]. intros c c' HC. now apply (IH s). }
    eapply rel_bind; [apply SIDE; auto|]. intros tl ? ->. eapply rel_bind; [apply SIDE; auto|]. intros tr ? ->. apply rel_ret. reflexivity.
Qed.

Lemma take_conv {A B} (g : A -> B) (l : list A) idx : rres (fun a b => b = map g a /\ forall x, In x a -> In x l) (take_rows l idx) (take_rows (map g l) idx).
Proof.
  induction idx as [|i idx IH]; cbn [take_rows mapM]; [cbn; split; [reflexivity|tauto]|]. unfold take_rows in IH. rewrite nth_error_map. destruct (nth_error l i) as [a|] eqn:E; cbn [option_map rbind]; [|reflexivity].
  match type of IH with rres _ ?a ?b => destruct a as [r|], b as [r'|] end; cbn [rres] in IH; try contradiction; cbn; [|exact IH]. destruct IH as (-> & H). split; [reflexivity|]. intros x [<-|I]; [eapply nth_error_In; eassumption|auto].
Qed.
Context (X : mat N) (Y : list N) (HX : forall x, In x (mrows X) -> List.length x = nd)
  (HY : fst be = 1 \/ exists r : R, span r Y /\ r <= 10000 /\ fst be * r <= 10000).
Lemma subsample_conv ratio rep : rl (fun a b => b = map cr a /\ sized a /\ fair a) (subsample N W choice trunc X Y ratio rep) (subsample N W choice trunc (conv_mat ax X) (map out Y) ratio rep).
Proof.
  unfold subsample, conv_mat, nrows. cbn [mrows]. rewrite !map_length. eapply rel_bind; [apply rel_lift_eq|]. intros _ _ _. eapply rel_bind; [apply rel_lift_eq|]. intros _ _ _.
  destruct (trunc _) as [k|]; [|apply rel_raise]. destruct (k <? 0)%Z; [apply rel_raise|]. eapply rel_bind; [apply rl_ext|]. intros idx ? <-.
  eapply rel_bind; [apply rl_lift, (take_conv ci)|]. intros X1 ? (-> & IX). eapply rel_bind; [apply rl_lift, (take_conv out)|]. intros Y1 ? (-> & IY). apply rel_ret. split; [|split].
  - clear. revert Y1. induction X1 as [|x X1 IH]; intros [|y Y1]; cbn; [reflexivity..|]. now rewrite IH.
  - intros [x y] I. apply HX, IX. eapply in_combine_l. exact I.
  - destruct HY as [E|(r & (lo & F) & H)]; [now left|]. right. exists r. split; [|exact H]. exists lo. rewrite Forall_forall in *. intros y Hy. apply in_map_iff in Hy as ([x y'] & <- & I). apply F, IY. eapply in_combine_r. exact I.
Qed.
Definition ctb (p : list (row N) * tree N) : list (row N) * tree N := (map cr (fst p), ct (snd p)).
Lemma tree_conv dm m ratio rep nf rloc : rl (fun a b => b = ctb a)
  (grow_tree N W choice uniform trunc X Y dm m ratio rep nf rloc) (grow_tree N W choice uniform trunc (conv_mat ax X) (map out Y) dm m ratio rep nf rloc).
Proof.
  unfold grow_tree. eapply rel_bind; [apply subsample_conv|]. intros boot ? (-> & HS & FS). cbn [conv_mat mcols].
  eapply rel_bind; [apply (node_conv _ _ _ HS FS)|]. intros c c' HC. eapply rel_bind; [apply (grow_conv _ _ _ _ _ HS FS HC)|]. intros t ? ->. now apply rel_ret.
Qed.
Lemma rel_after {A B} (g : A -> B) (m : M W unit A) (m' : M W unit B) : rl (fun a b => b = g a) m m' -> forall w, m' w = after g (m w).
Proof.
  intros H w. specialize (H w w eq_refl). destruct (m w) as [[w1 t1] r1], (m' w) as [[w2 t2] r2]. destruct H as (<- & HT & HR). apply Forall2_eq_list in HT as <-. cbn [after]. f_equal. now apply rmap_rres.
Qed.
Lemma trees_conv {A} (l : list A) dm m ratio rep nf rloc : rl (fun a b => b = map ctb a)
  (mmapM (fun _ => grow_tree N W choice uniform trunc X Y dm m ratio rep nf rloc) l) (mmapM (fun _ => grow_tree N W choice uniform trunc (conv_mat ax X) (map out Y) dm m ratio rep nf rloc) l).
Proof.
  induction l as [|a l IH]; cbn [mmapM]; [now apply rel_ret|]. eapply rel_bind; [apply tree_conv|]. intros p ? ->. eapply rel_bind; [exact IH|]. intros ps ? ->. now apply rel_ret.
Qed.
Theorem generic_trees_conv nt dm m ratio rep nf rloc w :
  get_generic_trees N W choice uniform trunc (conv_mat ax X) (map out Y) nt dm m ratio rep nf rloc w = after (map ctb) (get_generic_trees N W choice uniform trunc X Y nt dm m ratio rep nf rloc w).
Proof.
  apply rel_after. unfold get_generic_trees, conv_mat at 1, nrows. cbn [mrows]. rewrite !map_length. eapply rel_bind; [apply rel_lift_eq|]. intros _ _ _. eapply rel_bind; [apply rel_lift_eq|]. intros _ _ _. apply trees_conv.
Qed.
Theorem random_forest_conv nt dm m nf w :
  get_random_forest N W choice uniform trunc (conv_mat ax X) (map out Y) nt dm m nf w = after (map ctb) (get_random_forest N W choice uniform trunc X Y nt dm m nf w).
Proof.
  apply rel_after. unfold get_random_forest, conv_mat at 1, nrows. cbn [mrows]. rewrite !map_length. eapply rel_bind; [apply rel_lift_eq|]. intros _ _ _. apply trees_conv.
Qed.
End World.

(** ** predicting *)
Lemma predict_tree_conv x t : List.length x = nd -> predict_by_tree N (ci x) (ct t) = rmap (conv_pred be) (predict_by_tree N x t).
Proof.
  intros L. induction t as [l|i v a IHa b IHb]; cbn [conv_tree predict_by_tree].
  - destruct l as [|r l]; [reflexivity|]. cbn [map]. set (q := r :: l). change (cr r :: map cr l) with (map cr q). unfold get_outputs_from_leaf.
    assert (E : map snd (map cr q) = map out (map snd q)) by (rewrite !map_map; reflexivity). setoid_rewrite E. cbn [rmap]. unfold conv_pred. cbn [fst snd].
    assert (NE : map snd q <> []) by discriminate. f_equal. f_equal; [exact (out_nmean be NE)|exact (out_nstd HB NE)].
  - rewrite ci_nth by exact L. destruct (nth_error x i) as [u|]; cbn [option_map]; [|reflexivity]. cbn [nlt NumR]. rewrite (axis_lt (axis_pos i)). destruct (Rlt_bool u v); assumption.
Qed.
Lemma mixture_conv (mus sigmas : list R) : mus <> [] -> mixture_sigma (map out mus) (map (Rmult (fst be)) sigmas) 0 = fst be * mixture_sigma mus sigmas 0.
Proof.
  intros NE. unfold mixture_sigma. assert (E : forall v, 0 <= v -> sqrt ((fst be)² * v) = fst be * sqrt v) by (intros v Hv; rewrite sqrt_mult by (try apply Rle_0_sqr; exact Hv); rewrite sqrt_Rsqr by lra; reflexivity).
  rewrite <- E by (exact (mixture_var_nonneg mus sigmas 0)). f_equal. rewrite Rmult_plus_distr_l. f_equal.
  - rewrite Ravg_map, <- Ravg_scal. apply Ravg_ext. intros s _. replace 0 with (fst be * 0) at 1 by ring. rewrite RmaxRmult by lra. unfold Rsqr. ring.
  - exact (out_spread be NE).
Qed.
Lemma predict_one_conv x ts : List.length x = nd -> predict_by_trees_one N (ci x) (map ct ts) = rmap (conv_pred be) (predict_by_trees_one N x ts).
Proof.
  intros L. unfold predict_by_trees_one. assert (E : mapM (predict_by_tree N (ci x)) (map ct ts) = rmap (map (conv_pred be)) (mapM (predict_by_tree N x) ts)).
  { induction ts as [|t ts IH]; [reflexivity|]. cbn [map mapM]. rewrite (predict_tree_conv t L). destruct (predict_by_tree N x t); cbn [rmap rbind]; [|reflexivity]. rewrite IH. dm ts; reflexivity. }
  rewrite E. destruct (mapM (predict_by_tree N x) ts) as [ps|]; cbn [rmap rbind]; [|reflexivity]. destruct ps as [|p ps]; [reflexivity|]. cbn [map]. set (q := p :: ps).
  change (conv_pred be p :: map (conv_pred be) ps) with (map (conv_pred be) q).
  assert (E1 : map fst (map (conv_pred be) q) = map out (map fst q)) by (rewrite !map_map; reflexivity).
  assert (E2 : map snd (map (conv_pred be) q) = map (Rmult (fst be)) (map snd q)) by (rewrite !map_map; reflexivity).
  assert (NE : map fst q <> []) by discriminate. assert (NE' : map out (map fst q) <> []) by discriminate.
  transitivity (do sigma <- compute_sigma N (map out (map fst q)) (map (Rmult (fst be)) (map snd q)) (nofZ N 0); Ok (nmean N (map out (map fst q)), sigma)); [rewrite <- E1, <- E2; reflexivity|].
  change (nofZ N 0) with 0. rewrite (@compute_sigma_eq (map out (map fst q)) _ 0 NE') by (now rewrite !map_length).
  transitivity (rmap (conv_pred be) (do sigma <- compute_sigma N (map fst q) (map snd q) 0; Ok (nmean N (map fst q), sigma))); [|reflexivity].
  rewrite (@compute_sigma_eq (map fst q) (map snd q) 0 NE) by (now rewrite !map_length). cbn [rbind rmap]. unfold conv_pred. cbn [fst snd]. f_equal. f_equal; [exact (out_nmean be NE)|exact (mixture_conv (map snd q) NE)].
Qed.
Lemma unit_conv Xq ts : Forall (fun x => List.length x = nd) Xq -> unit_predict_by_trees N (map ci Xq) (map ct ts) = rmap (map (conv_pred be)) (unit_predict_by_trees N Xq ts).
Proof.
  unfold unit_predict_by_trees. induction 1 as [|x Xq L F IH]; [reflexivity|]. cbn [map mapM]. rewrite (predict_one_conv ts L). destruct (predict_by_trees_one N x ts); cbn [rmap rbind]; [|reflexivity].
  rewrite IH. dm Xq; reflexivity.
Qed.
Lemma parts_conv {A B} (g : A -> B) sizes : forall l, take_parts sizes (map g l) = map (map g) (take_parts sizes l).
Proof. induction sizes as [|s r IH]; intros l; [reflexivity|]. cbn [take_parts map]. now rewrite firstn_map, skipn_map, IH. Qed.
Lemma parts_sub {A} sizes : forall (l : list A) p x, In p (take_parts sizes l) -> In x p -> In x l.
Proof.
  induction sizes as [|s r IH]; intros l p x I J; [destruct I|]. cbn in I. destruct I as [<-|I]; [rewrite <- (firstn_skipn s l); apply in_or_app; now left|].
  rewrite <- (firstn_skipn s l). apply in_or_app. right. eapply IH; eassumption.
Qed.
Lemma tasks_conv {A A' B B'} (ga : A -> A') (gb : B -> B') (p : A -> res B) (p' : A' -> res B') tasks : (forall a, In a tasks -> p' (ga a) = rmap gb (p a)) -> forall schedule done,
  run_tasks p' (map ga tasks) schedule (map (option_map gb) done) = rmap (map (option_map gb)) (run_tasks p tasks schedule done).
Proof.
  intros H. induction schedule as [|i s IH]; intros done; [reflexivity|]. cbn [run_tasks]. rewrite nth_error_map. destruct (nth_error tasks i) as [a|] eqn:E; cbn [option_map]; [|reflexivity].
  rewrite (H a) by (eapply nth_error_In; eassumption). destruct (p a) as [b|]; cbn [rmap rbind]; [|reflexivity]. rewrite <- IH. f_equal. rewrite map_app, firstn_map. cbn [map option_map]. now rewrite skipn_map.
Qed.
Theorem predict_conv Xq ts schedule : Forall (fun x => List.length x = nd) Xq ->
  predict_by_trees N (map ci Xq) (map ct ts) schedule = rmap (map (conv_pred be)) (predict_by_trees N Xq ts schedule).
Proof.
  intros F. unfold predict_by_trees. rewrite map_length. destruct (Nat.leb (List.length Xq) 100); [now apply unit_conv|]. unfold starmap, array_split. rewrite map_length, parts_conv.
  set (parts := take_parts _ Xq). assert (FP : forall p, In p parts -> Forall (fun x => List.length x = nd) p).
  { intros p I. rewrite Forall_forall in *. intros x J. apply F. exact (parts_sub I J). }
  assert (D0 : repeat (@None (list (N * N))) (List.length (map (map ci) parts)) = map (option_map (map (conv_pred be))) (repeat None (List.length parts))).
  { rewrite map_length. generalize (List.length parts). induction n as [|n IH]; [reflexivity|]. cbn. now f_equal. }
  rewrite D0. rewrite (@tasks_conv _ _ _ _ (map ci) (map (conv_pred be)) (fun X => unit_predict_by_trees N X ts)) by (intros p I; apply unit_conv, FP, I).
  destruct (run_tasks _ parts schedule _) as [done|]; cbn [rmap rbind]; [|reflexivity].
  assert (E : mapM (fun o => match o with Some b => Ok b | None => Raise OutsideModel end) (map (option_map (map (conv_pred be))) done) =
    rmap (map (map (conv_pred be))) (mapM (fun o => match o with Some b => Ok b | None => Raise OutsideModel end) done)).
  { induction done as [|[o|] done IH]; [reflexivity| |reflexivity]. cbn [map mapM option_map rbind]. rewrite IH. dm done; reflexivity. }
  rewrite E. match goal with |- context [mapM ?g done] => destruct (mapM g done) as [r|] end; cbn [rmap rbind]; [|reflexivity]. now rewrite concat_map.
Qed.
End Units.

Lemma span_both (be : R * R) (Y : list R) : 0 < fst be -> span 10000 Y -> span 10000 (map (conv_out be) Y) -> exists r : R, span r Y /\ r <= 10000 /\ fst be * r <= 10000.
Proof.
  intros HB (lo & F) (lo' & F'). destruct Y as [|y0 Y].
  - exists 0. split; [exists 0; constructor|lra].
  - exists (Rmin 10000 (10000 / fst be)). split; [|split; [apply Rmin_l|]].
    2:{ apply Rle_trans with (fst be * (10000 / fst be)); [apply Rmult_le_compat_l; [lra|apply Rmin_r]|]. right. field. lra. }
    set (Z := y0 :: Y) in *. assert (NZ : Z <> []) by discriminate. destruct (npmin NumR Z) as [m|] eqn:EM; [|discriminate EM]. destruct (npmin_R Z m EM) as (IM & LM).
    exists m. rewrite Forall_forall in *. intros y Hy. split; [now apply LM|].
    assert (A := F y Hy). assert (A0 := F m IM). assert (B := F' (conv_out be y) (in_map _ _ _ Hy)). assert (B0 := F' (conv_out be m) (in_map _ _ _ IM)). unfold conv_out in *.
    assert (D1 : y - m <= 10000) by lra. assert (D2 : y - m <= 10000 / fst be).
    { apply Rmult_le_reg_l with (fst be); [exact HB|]. replace (fst be * (10000 / fst be)) with 10000 by (field; lra). lra. }
    unfold Rmin. destruct (Rle_dec _ _); lra.
Qed.
