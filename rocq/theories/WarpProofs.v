(** Trees with deterministic splits depend on the order of the inputs only. *)
From Verif Require Import Base Lists Num NumLaws Monad UtilsRProofs TreesModel TreesSpec TreesProofs TreesRProofs TreesBest RelProofs TreesUnits WarpSpec.
From Coq Require Import List ZArith Bool Arith Reals Lra Lia.
From Flocq Require Import Core.Raux.
Import ListNotations.
Set Implicit Arguments. Unset Strict Implicit.
Unset Asymmetric Patterns.
Set Bullet Behavior "Strict Subproofs".
Local Open Scope R_scope.
Local Notation N := NumR.

Section Axis.
Context (f : R -> R) (HF : rising f).
Lemma rise_lt u v : Rlt_bool (f u) (f v) = Rlt_bool u v.
Proof.
  destruct (Rlt_bool_spec u v) as [L|L]; [apply Rlt_bool_true; auto|apply Rlt_bool_false]. destruct (Rle_lt_or_eq_dec _ _ L) as [Q| <-]; [left; auto|lra].
Qed.
Lemma rise_eqb u v : Req_bool (f u) (f v) = Req_bool u v.
Proof.
  destruct (Req_bool_spec u v) as [->|Q]; [apply Req_bool_true; reflexivity|apply Req_bool_false]. destruct (Rtotal_order u v) as [L|[L|L]]; [|congruence|]; apply HF in L; lra.
Qed.
Lemma rise_insert (x : R) (l : list R) : insert_unique N (f x) (map f l) = map f (insert_unique N x l).
Proof.
  induction l as [|y l IH]; [reflexivity|]. cbn [insert_unique map]. cbn [nisnan NumR nlt neqb]. rewrite rise_lt, rise_eqb.
  destruct (Rlt_bool x y); [reflexivity|]. destruct (Req_bool x y); [reflexivity|]. cbn [map]. now rewrite <- IH.
Qed.
Lemma rise_unique (l : list R) : np_unique N (map f l) = map f (np_unique N l).
Proof.
  unfold np_unique. assert (G : forall acc : list R, fold_left (fun acc x => insert_unique N x acc) (map f l) (map f acc) = map f (fold_left (fun acc x => insert_unique N x acc) l acc)); [|exact (G [])].
  induction l as [|x l IH]; intros acc; cbn [map fold_left]; [reflexivity|]. rewrite rise_insert. apply IH.
Qed.
(** two thresholds that separate the values [col] in the same way *)
Definition separates (col : list R) (v v' : R) : Prop := forall c, In c col -> (Rlt_bool (f c) v' = Rlt_bool c v /\ Rle_bool v' (f c) = Rle_bool v c).
Lemma separates_iff col v v' : (forall c, In c col -> (c < v /\ f c < v') \/ (v <= c /\ v' <= f c)) -> separates col v v'.
Proof.
  intros H c Hc. destruct (H c Hc) as [(A & B)|(A & B)].
  - rewrite !Rlt_bool_true, !Rle_bool_false by assumption. auto.
  - rewrite !Rlt_bool_false, !Rle_bool_true by assumption. auto.
Qed.
Lemma increasing_split (l : list R) : TreesBest.increasing l -> forall i a b r, skipn i l = a :: b :: r -> a < b /\ forall c, In c l -> c <= a \/ b <= c.
Proof.
  induction l as [|x l IH]; intros H i a b r E; [now rewrite skipn_nil in E|].
  destruct i as [|i].
  - cbn in E. injection E as -> ->. assert (HA := increasing_head H). split; [apply HA; now left|]. intros c [<-|[<-|I]]; [left; lra|right; lra|]. right. destruct H as (_ & H). left. now apply (increasing_head H).
  - cbn in E. assert (HL : TreesBest.increasing l) by (destruct l; [exact I|apply H]). destruct (IH HL i a b r E) as (L & G). split; [exact L|]. intros c [<-|I]; [|auto].
    left. left. apply (increasing_head H). assert (J : In a (skipn i l)) by (rewrite E; now left). rewrite <- (firstn_skipn i l). apply in_or_app. now right.
Qed.
Lemma value_separates col i v : split_value N (np_unique N col) col i = Ok v ->
  exists v', split_value N (np_unique N (map f col)) (map f col) i = Ok v' /\ separates col v v'.
Proof.
  rewrite rise_unique. unfold split_value. rewrite map_length. change (@List.length R) with (@List.length (car N)). destruct (np_unique_R col) as (INC & MEM). destruct (Nat.ltb_spec 1 (List.length (np_unique N col))) as [L|L].
  - rewrite skipn_map. change (@skipn (car N)) with (@skipn R). destruct (@skipn R i (np_unique N col)) as [|a [|b r]] eqn:E; try discriminate. intros Q. injection Q as <-.
    exists (nmean N [f a; f b]). split; [reflexivity|]. destruct (increasing_split INC E) as (AB & G). apply HF in AB as FAB.
    assert (EM : forall p q : R, @eq R (nmean N [p; q]) ((p + q) / 2)) by (intros p q; rewrite nmean_Ravg; unfold Ravg; cbn; field). match goal with |- separates ?c ?p ?q => assert (E1 : p = (a + b) / 2) by apply EM; assert (E2 : q = (f a + f b) / 2) by apply EM; rewrite E1, E2 end.
    apply separates_iff. intros c Hc. apply MEM in Hc. destruct (G c Hc) as [C|C]; [left|right]; split; try lra.
    + assert (f c <= f a) by (destruct (Rle_lt_or_eq_dec _ _ C) as [Q| ->]; [left; auto|apply Rle_refl]). lra.
    + assert (f b <= f c) by (destruct (Rle_lt_or_eq_dec _ _ C) as [Q| ->]; [left; auto|apply Rle_refl]). lra.
  - destruct col as [|x col]; [discriminate|]. intros Q. injection Q as <-. cbn [map]. exists (f x). split; [reflexivity|].
    assert (ALL : forall c, In c (x :: col) -> c = x).
    { intros c Hc. apply MEM in Hc. assert (Hx : In x (np_unique N (x :: col))) by (apply MEM; now left). destruct (np_unique N (x :: col)) as [|p [|q r]]; [destruct Hx| |cbn in L; lia].
      destruct Hc as [<-|[]], Hx as [<-|[]]. reflexivity. }
    apply separates_iff. intros c Hc. apply ALL in Hc as ->. right. lra.
Qed.
Lemma value_fails col i e : split_value N (np_unique N col) col i = Raise e -> split_value N (np_unique N (map f col)) (map f col) i = Raise e.
Proof.
  rewrite rise_unique. unfold split_value. rewrite map_length. change (@List.length R) with (@List.length (car N)). destruct (Nat.ltb 1 _); [|destruct col; cbn; congruence].
  rewrite skipn_map. change (@skipn (car N)) with (@skipn R). destruct (@skipn R i (np_unique N col)) as [|a [|b r]]; cbn [map]; congruence.
Qed.
End Axis.

Section Warp.
Context (gs : warps) (HG : sound_warps gs).
Notation nd := (List.length gs).
Notation wi := (warp gs). Notation wr := (warp_row gs).
Notation f d := (nth d gs (fun v : R => v)).
Lemma warp_rising d : rising (f d).
Proof.
  destruct (Nat.lt_ge_cases d nd) as [L|L]; [|rewrite nth_overflow by exact L; intros u v H; exact H]. apply (proj1 (Forall_forall _ _) HG). now apply nth_In.
Qed.
Lemma wi_nth d : forall x, List.length x = nd -> nth_error (wi x) d = option_map (f d) (nth_error x d).
Proof.
  clear. revert d. induction gs as [|g a IH]; intros d [|v x] L; try discriminate; [now destruct d|]. destruct d as [|d]; [reflexivity|]. cbn [warp nth_error nth]. apply IH. now injection L.
Qed.
Definition wsized (S : list (row N)) : Prop := forall r, In r S -> List.length (fst r) = nd.
Lemma wi_coord d (r : row N) : List.length (fst r) = nd -> (d < nd)%nat -> coord N d (wr r) = f d (coord N d r).
Proof.
  intros L HD. unfold coord, warp_row. cbn [fst]. assert (E := wi_nth d L). destruct (nth_error (fst r) d) as [v|] eqn:EV; cbn [option_map] in E; [|apply nth_error_None in EV; unfold car in *; cbn in *; lia].
  apply nth_error_nth with (d := nofZ N 0) in EV, E. etransitivity; [exact E|]. f_equal. symmetry. exact EV.
Qed.
Lemma wcolumn S d : wsized S -> S <> [] -> rres (fun c c' => (d < nd)%nat /\ c = map (coord N d) S /\ c' = map (f d) c) (column N S d) (column N (map wr S) d).
Proof.
  intros HS NE. destruct (Nat.lt_ge_cases d nd) as [L|L].
  - assert (G : column N S d = Ok (map (coord N d) S) /\ column N (map wr S) d = Ok (map (f d) (map (coord N d) S))).
    { clear NE. unfold column. induction S as [|r S IH]; [split; reflexivity|]. cbn [map mapM]. unfold warp_row at 1. cbn [fst]. assert (LR : List.length (fst r) = nd) by (apply HS; now left). rewrite (wi_nth d) by exact LR.
      destruct IH as (I1 & I2); [intros r' Hr; apply HS; now right|]. unfold coord at 1 3.
      destruct (nth_error (fst r) d) as [v|] eqn:EV; [|apply nth_error_None in EV; unfold car in *; cbn in *; lia]. cbn [option_map rbind].
      setoid_rewrite I1. setoid_rewrite I2. cbn [rbind]. apply nth_error_nth with (d := nofZ N 0) in EV. change (nth d (fst r) (nofZ N 0)) with (@nth (car N) d (fst r) (nofZ N 0)) in EV. rewrite EV. split; reflexivity. }
    destruct G as (-> & ->). cbn. auto.
  - destruct S as [|r S]; [congruence|]. assert (LR : List.length (fst r) = nd) by (apply HS; now left). unfold column. cbn [map mapM]. unfold warp_row at 1. cbn [fst]. rewrite (wi_nth d) by exact LR.
    assert (EN : nth_error (fst r) d = None) by (apply nth_error_None; unfold car in *; cbn in *; lia). rewrite EN. reflexivity.
Qed.
Definition wr2 (lr : list (row N) * list (row N)) := (map wr (fst lr), map wr (snd lr)).
Lemma wsplit S d (v v' : R) : wsized S -> (d < nd)%nat -> separates (f d) (map (coord N d) S) v v' -> split_left_right N (map wr S) d v' = wr2 (split_left_right N S d v).
Proof.
  intros HS HD SEP. unfold split_left_right, wr2. cbn [fst snd]. f_equal; apply filter_map_comm; intros r Hr; rewrite (wi_coord (HS r Hr) HD); apply SEP; now apply in_map.
Qed.
Lemma wr_outputs (l : list (row N)) : get_outputs_from_leaf N (map wr l) = get_outputs_from_leaf N l.
Proof. unfold get_outputs_from_leaf. rewrite map_map. reflexivity. Qed.
Lemma wmse lr : mse N (wr2 lr) = mse N lr.
Proof. unfold mse, wr2. cbn [fst snd]. now rewrite !wr_outputs. Qed.

Definition wcand (S : list (row N)) (o o' : option (cand N)) : Prop :=
  (o = None /\ o' = None) \/ exists d (v v' : R), (d < nd)%nat /\ separates (f d) (map (coord N d) S) v v' /\ o = Some (split_at N S d v) /\ o' = Some (split_at N (map wr S) d v').
Lemma wscore S d (v v' : R) : wsized S -> (d < nd)%nat -> separates (f d) (map (coord N d) S) v v' -> c_score N (split_at N (map wr S) d v') = c_score N (split_at N S d v).
Proof. intros HS HD SEP. unfold split_at, c_score. cbn [fst snd]. rewrite (wsplit HS HD SEP). apply wmse. Qed.
Lemma wkeep S o o' d (v v' : R) : wsized S -> (d < nd)%nat -> separates (f d) (map (coord N d) S) v v' -> wcand S o o' ->
  wcand S (keep_better N o (split_at N S d v)) (keep_better N o' (split_at N (map wr S) d v')).
Proof.
  intros HS HD SEP [(-> & ->)|(d0 & v0 & v0' & HD0 & SEP0 & -> & ->)].
  - right. exists d, v, v'. cbn [keep_better nltinf NumR]. auto.
  - unfold keep_better. rewrite (wscore HS HD SEP), (wscore HS HD0 SEP0). destruct (nlt N _ _); right; eauto 10.
Qed.
Lemma wbetter S o o' c c' : wsized S -> wcand S o o' -> wcand S c c' -> wcand S (better_feature N o c) (better_feature N o' c').
Proof.
  intros HS H [(-> & ->)|(d & v & v' & HD & SEP & -> & ->)]; [exact H|]. cbn [better_feature]. now apply wkeep.
Qed.

(** two trees that route the rows [S] alike *)
Inductive alike : list (row N) -> tree N -> tree N -> Prop :=
| AL_leaf S l : alike S (TLeaf l) (TLeaf (map wr l))
| AL_node S i v v' a b a' b' : (i < nd)%nat -> separates (f i) (map (coord N i) S) v v' ->
    alike (filter (fun r => nlt N (coord N i r) v) S) a a' -> alike (filter (fun r => nle N v (coord N i r)) S) b b' ->
    alike S (@TNode N i v a b) (@TNode N i v' a' b').
Lemma alike_same S t t' : alike S t t' -> same_tree gs t t'.
Proof. induction 1; cbn; auto. Qed.
Lemma alike_predict S t t' : alike S t t' -> wsized S -> forall r, In r S -> predict_by_tree N (wi (fst r)) t' = predict_by_tree N (fst r) t.
Proof.
  induction 1 as [S l|S i v v' a b a' b' HI SEP H1 IH1 H2 IH2]; intros HS r Hr.
  - destruct l as [|x l]; [reflexivity|]. cbn [map predict_by_tree]. change (wr x :: map wr l) with (map wr (x :: l)). now rewrite wr_outputs.
  - cbn [predict_by_tree]. assert (LR := HS r Hr). rewrite (wi_nth i) by exact LR. destruct (nth_error (fst r) i) as [c|] eqn:EV; [|reflexivity]. cbn [option_map].
    assert (EC : coord N i r = c) by (unfold coord; now apply nth_error_nth with (d := nofZ N 0) in EV).
    destruct (SEP c) as (S1 & S2); [rewrite <- EC; apply (in_map (coord N i) _ _ Hr)|]. cbn [nlt NumR]. 
    transitivity (if Rlt_bool c v then predict_by_tree N (wi (fst r)) a' else predict_by_tree N (wi (fst r)) b'); [now rewrite <- S1|].
    destruct (Rlt_bool_spec c v) as [L|L].
    + apply IH1; [intros z Hz; apply filter_In in Hz; apply HS, (proj1 Hz)|]. apply filter_In. split; [exact Hr|]. rewrite EC. cbn [nlt NumR]. now apply Rlt_bool_true.
    + apply IH2; [intros z Hz; apply filter_In in Hz; apply HS, (proj1 Hz)|]. apply filter_In. split; [exact Hr|]. rewrite EC. cbn [nle NumR]. now apply Rle_bool_true.
Qed.

Section World.
Context (W : Type) (choice : nat -> nat -> bool -> W -> W * res (list nat)) (uniform : N -> N -> W -> W * res N) (trunc : N -> option Z).
Notation rl := (rel (W1 := W) (W2 := W) (E1 := unit) (E2 := unit) eq eq).
Lemma wdeterministic S d : wsized S -> S <> [] -> rl (wcand S) (split_deterministic N W choice S d) (split_deterministic N W choice (map wr S) d).
Proof.
  intros HS NE. unfold split_deterministic. eapply rel_bind; [apply rl_lift, wcolumn; assumption|]. intros col ? (HD & EC & ->). 
  assert (EL : List.length (np_unique N (map (f d) col)) = List.length (np_unique N col)) by (rewrite (rise_unique (warp_rising d)); apply map_length). rewrite EL.
  eapply rel_bind; [apply rl_ext|]. intros idx ? <-.
  eapply rel_bind with (RA := Forall2 (separates (f d) col)).
  { apply rl_lift. induction idx as [|i idx IH]; [constructor|]. cbn [mapM].
    destruct (split_value N (np_unique N col) col i) as [v|e] eqn:EV.
    - destruct (value_separates (warp_rising d) EV) as (v' & EV' & SEP). setoid_rewrite EV'. cbn [rbind].
      match type of IH with rres _ ?a ?b => destruct a as [vs|], b as [vs'|] end; cbn [rres rbind] in *; try contradiction; [now constructor|exact IH].
    - setoid_rewrite (value_fails (warp_rising d) EV). reflexivity. }
  intros vs vs' HV. apply rel_ret. subst col.
  assert (G : forall o o', wcand S o o' -> wcand S (fold_left (fun cur v => keep_better N cur (split_at N S d v)) vs o) (fold_left (fun cur v => keep_better N cur (split_at N (map wr S) d v)) vs' o')).
  { induction HV as [|v v' l l' SEP HV IH]; intros o o' H; cbn [fold_left]; [exact H|]. apply IH. now apply wkeep. }
  apply G. now left.
Qed.
Lemma wfeatures S : wsized S -> S <> [] -> forall fs o o', wcand S o o' ->
  rl (wcand S) (split_features N W choice uniform S false fs o) (split_features N W choice uniform (map wr S) false fs o').
Proof.
  intros HS NE. induction fs as [|d fs IH]; intros o o' H; cbn [split_features]; [now apply rel_ret|].
  eapply rel_bind with (RA := wcand S); [now apply wdeterministic|]. intros c c' HC. apply IH. now apply wbetter.
Qed.
Lemma wnode n S nf : wsized S -> rl (wcand S) (split_node N W choice uniform n S nf false) (split_node N W choice uniform n (map wr S) nf false).
Proof.
  intros HS. unfold split_node. rewrite map_length. destruct S as [|r S]; [intros w ? <-; cbn; auto|].
  eapply rel_bind; [apply rel_lift_eq|]. intros _ _ _. eapply rel_bind; [apply rl_ext|]. intros fs ? <-. apply wfeatures; [exact HS|discriminate|now left].
Qed.
Lemma wgrow n nf m : forall rem S o o', wsized S -> wcand S o o' ->
  rl (alike S) (grow_split N W choice uniform n nf false m rem o) (grow_split N W choice uniform n nf false m rem o').
Proof.
  induction rem as [|rem IH]; intros S o o' HS [(-> & ->)|(d & v & v' & HD & SEP & -> & ->)]; cbn [grow_split]; try apply rel_raise; unfold split_at; rewrite !(wsplit HS HD SEP);
    pose proof (fun a b a' b' => @AL_node S d v v' a b a' b' HD SEP) as NODE;
    unfold split_left_right, wr2; cbn [fst snd];
    set (l := filter (fun r => nlt N (coord N d r) v) S) in *; set (r := filter (fun r => nle N v (coord N d r)) S) in *;
    assert (LSUB : forall z, In z l -> In z S) by (intros z I; apply filter_In in I; tauto); assert (RSUB : forall z, In z r -> In z S) by (intros z I; apply filter_In in I; tauto);
    clearbody l r.
  - destruct l as [|x l], r as [|y r]; apply rel_ret; apply NODE; cbn [map]; rewrite ?app_nil_r; cbn [app];
      repeat first [exact (AL_leaf _ [])|exact (AL_leaf _ (x :: l))|exact (AL_leaf _ (y :: r))].
  - destruct l as [|x l]; [apply rel_ret; apply NODE; exact (AL_leaf _ r)|].
    destruct r as [|y r]; [apply rel_ret; apply NODE; cbn [map]; rewrite !app_nil_r; exact (AL_leaf _ (x :: l))|].
    cbn [map]. change (wr x :: map wr l) with (map wr (x :: l)). change (wr y :: map wr r) with (map wr (y :: r)). rewrite !map_length.
    assert (SIDE : forall s, (forall z, In z s -> In z S) -> rl (alike s)
      (if (Z.of_nat (List.length s) <=? m)%Z then ret (TLeaf s) else mlet c <- split_node N W choice uniform n s nf false; grow_split N W choice uniform n nf false m rem c)
      (if (Z.of_nat (List.length s) <=? m)%Z then ret (TLeaf (map wr s)) else mlet c <- split_node N W choice uniform n (map wr s) nf false; grow_split N W choice uniform n nf false m rem c)).
    { intros s I. destruct (Z.of_nat _ <=? m)%Z; [apply rel_ret; constructor|]. assert (HS' : wsized s) by (intros z Hz; apply HS, I, Hz).
      eapply rel_bind; [now apply wnode|]. intros c c' HC. now apply (IH s). }
    eapply rel_bind; [apply SIDE; exact LSUB|]. intros tl tl' HL. eapply rel_bind; [apply SIDE; exact RSUB|]. intros tr tr' HR. apply rel_ret. now apply NODE.
Qed.

Context (X : mat N) (Y : list N) (HX : forall x, In x (mrows X) -> List.length x = nd).
Lemma wsubsample ratio rep : rl (fun a b => b = map wr a /\ wsized a) (subsample N W choice trunc X Y ratio rep) (subsample N W choice trunc (warp_mat gs X) Y ratio rep).
Proof.
  unfold subsample, warp_mat, nrows. cbn [mrows]. rewrite !map_length. eapply rel_bind; [apply rel_lift_eq|]. intros _ _ _. eapply rel_bind; [apply rel_lift_eq|]. intros _ _ _.
  destruct (trunc _) as [k|]; [|apply rel_raise]. destruct (k <? 0)%Z; [apply rel_raise|]. eapply rel_bind; [apply rl_ext|]. intros idx ? <-.
  eapply rel_bind; [apply rl_lift, (take_conv wi)|]. intros X1 ? (-> & IX). eapply rel_bind; [apply rel_lift_eq|]. intros Y1 ? <-. apply rel_ret. split.
  - clear. revert Y1. induction X1 as [|x X1 IH]; intros [|y Y1]; cbn; [reflexivity..|]. now rewrite IH.
  - intros [x y] I. apply HX, IX. eapply in_combine_l. exact I.
Qed.
Lemma wtree dm m ratio rep nf : rl (grown_alike gs)
  (grow_tree N W choice uniform trunc X Y dm m ratio rep nf false) (grow_tree N W choice uniform trunc (warp_mat gs X) Y dm m ratio rep nf false).
Proof.
  unfold grow_tree. eapply rel_bind; [apply wsubsample|]. intros boot ? (-> & HS). cbn [warp_mat mcols].
  eapply rel_bind; [apply (wnode _ _ HS)|]. intros c c' HC. eapply rel_bind; [apply (wgrow _ _ _ _ HS HC)|]. intros t t' HT. apply rel_ret.
  split; [reflexivity|]. cbn [fst snd]. split; [exact (alike_same HT)|]. exact (alike_predict HT HS).
Qed.
Lemma wtrees {A} (l : list A) dm m ratio rep nf : rl (Forall2 (grown_alike gs))
  (mmapM (fun _ => grow_tree N W choice uniform trunc X Y dm m ratio rep nf false) l) (mmapM (fun _ => grow_tree N W choice uniform trunc (warp_mat gs X) Y dm m ratio rep nf false) l).
Proof.
  induction l as [|a l IH]; cbn [mmapM]; [apply rel_ret; constructor|]. eapply rel_bind; [apply wtree|]. intros p p' HP. eapply rel_bind; [exact IH|]. intros ps ps' HPS. apply rel_ret. now constructor.
Qed.
Lemma rel_outcomes {A B} (RA : A -> B -> Prop) (m : M W unit A) (m' : M W unit B) : rl RA m m' -> forall w, outcomes RA (m w) (m' w).
Proof.
  intros H w. specialize (H w w eq_refl). destruct (m w) as [[w1 t1] r1], (m' w) as [[w2 t2] r2]. destruct H as (<- & HT & HR). apply Forall2_eq_list in HT as <-. unfold outcomes. cbn [fst snd].
  split; [reflexivity|]. split; [reflexivity|]. destruct r1, r2; cbn in *; auto.
Qed.
Theorem generic_trees_warped nt dm m ratio rep nf w : outcomes (Forall2 (grown_alike gs))
  (get_generic_trees N W choice uniform trunc X Y nt dm m ratio rep nf false w) (get_generic_trees N W choice uniform trunc (warp_mat gs X) Y nt dm m ratio rep nf false w).
Proof.
  apply rel_outcomes. unfold get_generic_trees, warp_mat at 1, nrows. cbn [mrows]. rewrite !map_length. eapply rel_bind; [apply rel_lift_eq|]. intros _ _ _. eapply rel_bind; [apply rel_lift_eq|]. intros _ _ _. apply wtrees.
Qed.
Theorem random_forest_warped nt dm m nf w : outcomes (Forall2 (grown_alike gs))
  (get_random_forest N W choice uniform trunc X Y nt dm m nf w) (get_random_forest N W choice uniform trunc (warp_mat gs X) Y nt dm m nf w).
Proof.
  apply rel_outcomes. unfold get_random_forest, warp_mat at 1, nrows. cbn [mrows]. rewrite !map_length. eapply rel_bind; [apply rel_lift_eq|]. intros _ _ _. apply wtrees.
Qed.
End World.

Theorem forest_warped l l' x : Forall2 (grown_alike gs) l l' -> (forall p, In p l -> exists r, In r (fst p) /\ fst r = x) ->
  predict_by_trees_one N (wi x) (map snd l') = predict_by_trees_one N x (map snd l).
Proof.
  intros H HX. unfold predict_by_trees_one.
  assert (E : mapM (predict_by_tree N (wi x)) (map snd l') = mapM (predict_by_tree N x) (map snd l)); [|now rewrite E].
  induction H as [|p p' l l' (_ & _ & HP) H IH]; [reflexivity|]. cbn [map mapM]. destruct (HX p (or_introl eq_refl)) as (r & Hr & <-). rewrite (HP r Hr).
  destruct (predict_by_tree N (fst r) (snd p)); [|reflexivity]. cbn [rbind]. rewrite IH; [reflexivity|]. intros q Hq. apply HX. now right.
Qed.
End Warp.
