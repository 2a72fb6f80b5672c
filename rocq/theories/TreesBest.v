(** The split kept at a node is the best of those examined. *)
From Verif Require Import Base Lists Num NumLaws NumFin Monad UtilsSpec UtilsRProofs TreesModel TreesSpec TreesProofs TreesRProofs.
From Coq Require Import List ZArith Bool Arith Permutation Reals Lra Lia.
From Flocq Require Import Core.Raux.
Set Implicit Arguments. Unset Strict Implicit.

Section Best.
Context (N : Num) (O : NumOrd N) (W : Type).
Context (choice : nat -> nat -> bool -> W -> W * res (list nat)).
Context (uniform : N -> N -> W -> W * res N).
Notation cand := (cand N).

(** no examined score is smaller than that of the kept candidate *)
Definition best_of (b : option cand) (seen : cand -> Prop) : Prop :=
  match b with
  | None => forall c, seen c -> nltinf N (c_score N c) = false
  | Some b => nltinf N (c_score N b) = true /\ seen b /\ forall c, seen c -> nlt N (c_score N c) (c_score N b) = false
  end.

Lemma keep_better_best cur seen c : best_of cur seen -> best_of (keep_better N cur c) (fun x => seen x \/ x = c).
Proof.
  unfold keep_better. destruct cur as [b|]; cbn [best_of].
  - intros (I & Sb & M). destruct (nlt N (c_score N c) (c_score N b)) eqn:L; cbn [best_of].
    + split; [eapply (nlt_ltinf_l O); exact L|]. split; [auto|]. intros x [Hx| ->]; [|apply (nlt_irrefl O)].
      destruct (nlt N (c_score N x) (c_score N c)) eqn:L2; [|reflexivity].
      rewrite <- (M x Hx). symmetry. eapply (nlt_nle_trans O); [exact L2|]. now apply (nlt_nle O).
    + split; [exact I|]. split; [auto|]. intros x [Hx| ->]; auto.
  - intros M. destruct (nltinf N (c_score N c)) eqn:L; cbn [best_of].
    + split; [exact L|]. split; [auto|]. intros x [Hx| ->]; [|apply (nlt_irrefl O)].
      destruct (nlt N (c_score N x) (c_score N c)) eqn:L2; [|reflexivity]. apply (nlt_ltinf_l O) in L2. rewrite (M x Hx) in L2. discriminate L2.
    + intros x [Hx| ->]; auto.
Qed.

Lemma best_of_ext b (s s' : cand -> Prop) : (forall c, s c <-> s' c) -> best_of b s -> best_of b s'.
Proof. intros E. destruct b as [b|]; cbn; [intros (A & B & C); split; [exact A|]; split; [now apply E|]; intros c Hc; apply C, E, Hc|intros A c Hc; apply A, E, Hc]. Qed.

Lemma fold_best S d vals : forall cur seen, best_of cur seen ->
  best_of (fold_left (fun cur v => keep_better N cur (split_at N S d v)) vals cur) (fun c => seen c \/ exists v, In v vals /\ c = split_at N S d v).
Proof.
  induction vals as [|v vals IH]; cbn [fold_left]; intros cur seen H.
  - eapply best_of_ext; [|exact H]. intros c. split; [auto|]. intros [Hc|(v & [] & _)]. exact Hc.
  - eapply best_of_ext; [|apply (IH _ _ (keep_better_best (split_at N S d v) H))]. intros c. cbn beta. split.
    + intros [[Hc| ->]|(u & I & ->)]; [auto|right; exists v; cbn; auto|right; exists u; cbn; auto].
    + intros [Hc|(u & [<-|I] & ->)]; [auto|auto|right; eauto].
Qed.

(** merging the best of one feature into the best so far *)
Lemma better_feature_best cur seen c s : best_of cur seen -> best_of c s -> best_of (better_feature N cur c) (fun x => seen x \/ s x).
Proof.
  intros H1 H2. destruct c as [b|]; cbn [better_feature].
  - destruct H2 as (I & Sb & M). assert (K := keep_better_best b H1). destruct (keep_better N cur b) as [k|] eqn:EK; cbn [best_of] in *.
    + destruct K as (Ik & Sk & Mk). split; [exact Ik|]. split; [destruct Sk as [Sk| ->]; auto|].
      intros x [Hx|Hx]; [apply Mk; auto|].
      destruct (nlt N (c_score N x) (c_score N k)) eqn:L; [|reflexivity].
      assert (B := Mk b (or_intror eq_refl)). assert (X := M x Hx).
      (* x < k, not b < k, not x < b *)
      destruct (nlt_true O _ _ L) as (Nx & Nk & LT).
      assert (Nb := ord_ltinf_nan O _ I).
      assert (G1 := nlt_false O _ _ Nb Nk B). assert (G2 := nlt_false O _ _ Nx Nb X). exfalso. apply (Rlt_irrefl (key O (c_score N x))).
      eapply Rlt_le_trans; [exact LT|]. eapply Rle_trans; [exact G1|exact G2].
    + exfalso. unfold keep_better in EK. destruct cur as [cu|]; [destruct (nlt N _ _); discriminate|]. rewrite I in EK. discriminate.
  - destruct cur as [b|]; cbn [best_of] in *.
    + destruct H1 as (I & Sb & M). split; [exact I|]. split; [auto|]. intros x [Hx|Hx]; [auto|].
      destruct (nlt N (c_score N x) (c_score N b)) eqn:L; [|reflexivity]. apply (nlt_ltinf_l O) in L. rewrite (H2 x Hx) in L. discriminate.
    + intros x [Hx|Hx]; auto.
Qed.

Context (CC : choice_contract choice).

(** every midpoint of neighbouring distinct values is examined when there are at most 21 of them *)
Definition midpoints_in (col vals : list N) : Prop :=
  (List.length (np_unique N col) <= 21)%nat -> forall k a b, nth_error (np_unique N col) k = Some a -> nth_error (np_unique N col) (Datatypes.S k) = Some b ->
  In (nmean N [a; b]) vals.

Lemma full_choice n idx : List.length idx = n -> Forall (fun i => (i < n)%nat) idx -> NoDup idx -> forall k, (k < n)%nat -> In k idx.
Proof.
  intros L FI ND k Hk. assert (I : incl idx (seq 0 n)).
  { intros i Hi. rewrite Forall_forall in FI. apply in_seq. specialize (FI i Hi). lia. }
  assert (J := @NoDup_length_incl _ idx (seq 0 n) ND). rewrite seq_length in J. apply J; [lia|exact I|]. apply in_seq. lia.
Qed.

Lemma deterministic_best S d w w' t b : split_deterministic N W choice S d w = (w', t, Ok b) ->
  exists col vals, column N S d = Ok col /\ midpoints_in col vals /\ best_of b (fun c => exists v, In v vals /\ c = split_at N S d v).
Proof.
  unfold split_deterministic. intros H.
  apply bind_ok in H. destruct H as (w1 & t1 & col & t2 & H1 & H & _). apply lift_ok in H1. destruct H1 as (HC & -> & _).
  apply bind_ok in H. destruct H as (w2 & t3 & idx & t4 & H1 & H & _). apply ext_ok in H1. destruct H1 as (EC & _).
  apply bind_ok in H. destruct H as (w3 & t5 & vals & t6 & H2 & H & _). apply lift_ok in H2. destruct H2 as (HV & -> & _).
  apply ret_ok in H. destruct H as (<- & _).
  exists col, vals. split; [exact HC|]. split.
  - intros L k a b Ha Hb. destruct (CC EC) as (LI & FI & ND). specialize (ND eq_refl).
    assert (LB : (Datatypes.S k < List.length (np_unique N col))%nat) by (apply nth_error_Some; congruence).
    rewrite (proj2 (Nat.ltb_lt 1 (List.length (np_unique N col)))) in * by lia.
    rewrite Nat.min_r in LI by lia.
    assert (I : In k idx) by (apply (full_choice LI FI ND); lia).
    apply mapM_ok_iff in HV. apply in_nth_error in I. destruct I as (j & Ej). destruct (Forall2_nth_l j HV Ej) as (v & Ev & E).
    unfold split_value in E. rewrite (proj2 (Nat.ltb_lt 1 (List.length (np_unique N col)))) in E by lia.
    assert (E1 := nth_error_skipn (np_unique N col) k 0). assert (E2 := nth_error_skipn (np_unique N col) k 1).
    rewrite Nat.add_0_r, Ha in E1. rewrite Nat.add_1_r, Hb in E2.
    destruct (skipn k (np_unique N col)) as [|x [|y q]]; cbn in E1, E2; try discriminate. inversion E1; inversion E2; subst x y.
    apply Ok_inj in E. subst v. eapply nth_error_In; eauto.
  - eapply best_of_ext; [|apply (@fold_best S d vals None (fun _ => False)); cbn; intros c []].
    intros c. cbn beta. tauto.
Qed.

Lemma features_best S fs : forall cur seen w w' t b, best_of cur seen ->
  split_features N W choice uniform S false fs cur w = (w', t, Ok b) ->
  exists s, best_of b s /\ (forall c, s c -> seen c \/ exists d v, In d fs /\ c = split_at N S d v) /\ (forall c, seen c -> s c) /\
    forall d, In d fs -> exists col vals, column N S d = Ok col /\ midpoints_in col vals /\ forall v, In v vals -> s (split_at N S d v).
Proof.
  induction fs as [|d fs IH]; cbn [split_features]; intros cur seen w w' t b HB H.
  - apply ret_ok in H. destruct H as (<- & _). exists seen. split; [exact HB|]. split; [auto|]. split; [auto|]. intros d [].
  - apply bind_ok in H. destruct H as (w1 & t1 & oc & t2 & H1 & H & _).
    destruct (deterministic_best H1) as (col & vals & HC & HM & HD).
    destruct (IH _ _ _ _ _ _ (better_feature_best HB HD) H) as (s & B & SI & SS & SF).
    exists s. split; [exact B|]. split; [|split].
    + intros c Hc. destruct (SI c Hc) as [[K|(v & I & ->)]|(d' & v & I & ->)]; [auto|right; exists d, v; cbn; auto|right; exists d', v; cbn; auto].
    + intros c Hc. apply SS. auto.
    + intros d' [<-|I]; [|now apply SF]. exists col, vals. split; [exact HC|]. split; [exact HM|]. intros v Hv. apply SS. right. eauto.
Qed.

Lemma node_best nd S nf w w' t c : split_node N W choice uniform nd S nf false w = (w', t, Ok (Some c)) ->
  exists fs i v, List.length fs = nf /\ NoDup fs /\ Forall (fun d => (d < nd)%nat) fs /\ In i fs /\ c = split_at N S i v /\
    forall d, In d fs -> exists col vals, column N S d = Ok col /\ midpoints_in col vals /\ forall v, In v vals -> nlt N (c_score N (split_at N S d v)) (c_score N c) = false.
Proof.
  intros H. unfold split_node in H. apply massert_inv in H. destruct H as (_ & t' & H).
  apply bind_ok in H. destruct H as (w1 & t1 & fs & t2 & H1 & H & _). apply ext_ok in H1. destruct H1 as (EC & _). destruct (CC EC) as (LF & FF & ND).
  destruct (@features_best S fs None (fun _ => False) w1 w' t2 (Some c)) as (s & B & SI & _ & SF); [cbn; intros ? []|exact H|].
  cbn [best_of] in B. destruct B as (_ & Sc & M). destruct (SI c Sc) as [[]|(i & v & I & ->)].
  exists fs, i, v. split; [exact LF|]. split; [auto|]. split; [exact FF|]. split; [exact I|]. split; [reflexivity|].
  intros d Hd. destruct (SF d Hd) as (col & vals & HC & HM & HS). exists col, vals. split; [exact HC|]. split; [exact HM|]. intros u Hu. apply M, HS, Hu.
Qed.
End Best.

(** ** exact reals *)
Local Open Scope R_scope.
Fixpoint increasing (l : list R) : Prop := match l with a :: ((b :: _) as r) => a < b /\ increasing r | _ => True end.

Lemma increasing_head a l : increasing (a :: l) -> forall x, In x l -> a < x.
Proof. revert a. induction l as [|b l IH]; intros a H x Hx; [destruct Hx|]. destruct H as (H1 & H2). destruct Hx as [<-|Hx]; [exact H1|]. specialize (IH b H2 x Hx). lra. Qed.
Lemma increasing_cons a l : (forall x, In x l -> a < x) -> increasing l -> increasing (a :: l).
Proof. intros H I. destruct l as [|b l]; [exact Logic.I|]. split; [apply H; now left|exact I]. Qed.

Lemma insert_unique_R x (l : list R) : increasing l -> increasing (insert_unique NumR x l) /\ forall y, In y (insert_unique NumR x l) <-> y = x \/ In y l.
Proof.
  induction l as [|a l IH]; intros H.
  - cbn. split; [exact I|]. intros y. split; intros [?|[]]; subst; auto.
  - cbn [insert_unique]. cbn [nisnan nlt neqb NumR].
    assert (HL : increasing l) by (destruct l; [exact I|apply H]). assert (HA := increasing_head H).
    destruct (Rlt_bool_spec x a) as [L|L].
    + split; [split; assumption|]. intros y. cbn. intuition.
    + destruct (Req_bool_spec x a) as [E|E].
      * split; [exact H|]. intros y. cbn. subst. intuition.
      * destruct (IH HL) as (I1 & I2). split.
        -- apply increasing_cons; [|exact I1]. intros y Hy. apply I2 in Hy. destruct Hy as [->|Hy]; [lra|auto].
        -- intros y. cbn [In]. rewrite I2. intuition.
Qed.

Lemma np_unique_R (l : list R) : increasing (np_unique NumR l) /\ forall y, In y (np_unique NumR l) <-> In y l.
Proof.
  unfold np_unique.
  assert (G : forall (l acc : list R), increasing acc -> increasing (fold_left (fun acc x => insert_unique NumR x acc) l acc) /\
     forall y, In y (fold_left (fun acc x => insert_unique NumR x acc) l acc) <-> In y l \/ In y acc).
  { clear l. induction l as [|x l IH]; intros acc H; cbn [fold_left]; [split; [exact H|]; intros y; cbn; tauto|].
    destruct (insert_unique_R x H) as (I1 & I2). destruct (IH _ I1) as (J1 & J2). split; [exact J1|]. intros y. rewrite J2, I2. cbn. intuition. }
  destruct (G l [] I) as (G1 & G2). split; [exact G1|]. intros y. rewrite G2. cbn. tauto.
Qed.

Lemma straddle (l : list R) u : increasing l -> (exists x, In x l /\ x < u) -> (exists y, In y l /\ u <= y) ->
  exists k a b, nth_error l k = Some a /\ nth_error l (S k) = Some b /\ a < u <= b /\ forall x, In x l -> x <= a \/ b <= x.
Proof.
  induction l as [|a l IH]; intros H (x & Hx & Lx) (y & Hy & Ly); [destruct Hx|].
  assert (HA := increasing_head H). destruct l as [|b l].
  - destruct Hx as [->|[]]. destruct Hy as [->|[]]. lra.
  - destruct (Rlt_or_le b u) as [B|B].
    + assert (HL : increasing (b :: l)) by apply H. destruct IH as (k & a' & b' & E1 & E2 & M & C).
      * exact HL.
      * exists b. split; [now left|exact B].
      * exists y. split; [|exact Ly]. destruct Hy as [->|Hy]; [|exact Hy]. assert (y < b) by (apply H). lra.
      * exists (S k), a', b'. split; [exact E1|]. split; [exact E2|]. split; [exact M|]. intros z [<-|Hz]; [|auto]. left.
        assert (a < a') by (apply HA; eapply nth_error_In; eauto). lra.
    + exists 0%nat, a, b. split; [reflexivity|]. split; [reflexivity|].
      assert (a < u).
      { destruct Hx as [->|Hx]; [exact Lx|]. assert (HL : increasing (b :: l)) by apply H. assert (b <= x) by (destruct Hx as [->|Hx]; [lra|left; now apply (increasing_head HL)]). lra. }
      split; [lra|]. intros z [<-|[<-|Hz]]; [lra|lra|]. right. assert (HL : increasing (b :: l)) by apply H. left. now apply (increasing_head HL).
Qed.

Lemma mse_R (s : list (row NumR)) d (v : R) : c_score NumR (split_at NumR s d v) = split_cost s d v.
Proof.
  unfold c_score, split_at, mse, split_cost. cbn [fst snd]. change (nadd NumR) with Rplus.
  assert (E : forall l, mse_ NumR (get_outputs_from_leaf NumR l) = impurity l).
  { intros l. unfold mse_, get_outputs_from_leaf, impurity. destruct l as [|r l]; [reflexivity|].
    set (Y := map snd (r :: l)). assert (EY : nmean NumR Y = Ravg (fun u => u) Y) by apply nmean_Ravg.
    transitivity (nmean NumR (map (fun y => nsq NumR (nsub NumR y (nmean NumR Y))) Y)); [reflexivity|]. rewrite EY.
    exact (@nmean_map R (fun y => (y - Ravg (fun u => u) Y)²) Y). }
  rewrite !E. reflexivity.
Qed.

Section Exact.
Context (W : Type).
Context (choice : nat -> nat -> bool -> W -> W * res (list nat)).
Context (uniform : R -> R -> W -> W * res R).
Context (CC : choice_contract choice).

(** a threshold that leaves rows on both sides *)
Definition separates (s : list (row NumR)) (d : nat) (u : R) : Prop :=
  (exists r, In r s /\ nth d (fst r) 0 < u) /\ (exists r, In r s /\ u <= nth d (fst r) 0).

Lemma filter_ext_in' {A} (f g : A -> bool) l : (forall x, In x l -> f x = g x) -> filter f l = filter g l.
Proof. intros H. now apply filter_ext_in. Qed.

Lemma node_optimal nd (s : list (row NumR)) nf w w' t c :
  split_node NumR W choice uniform nd s nf false w = (w', t, Ok (Some c)) ->
  exists fs i v, c = (i, v, split_cost s i v, split_left_right NumR s i v) /\ In i fs /\
    List.length fs = nf /\ NoDup fs /\ Forall (fun d => (d < nd)%nat) fs /\
    forall d u, In d fs -> (List.length (nodup Req_EM_T (map (fun r => nth d (fst r) 0%R) s)) <= 21)%nat -> separates s d u ->
      split_cost s i v <= split_cost s d u.
Proof.
  intros H. destruct (node_best NumR_ord CC H) as (fs & i & v & LF & ND & FF & I & -> & B).
  exists fs, i, v. split; [unfold split_at; rewrite <- mse_R; reflexivity|]. split; [exact I|]. split; [exact LF|]. split; [exact ND|]. split; [exact FF|].
  intros d u Hd Hn (SL & SR). destruct (B d Hd) as (col & vals & HC & HM & HS).
  destruct (np_unique_R col) as (U1 & U2).
  assert (EC : forall r, In r s -> nth_error (fst r) d = Some (nth d (fst r) 0) /\ In (nth d (fst r) 0) col).
  { intros r Hr. assert (E := column_nth HC Hr). split; [exact E|].
    unfold column in HC. apply mapM_ok_iff in HC. apply in_nth_error in Hr. destruct Hr as (k & Hk). destruct (Forall2_nth_l k HC Hk) as (y & Hy & Ey).
    rewrite E in Ey. apply Ok_inj in Ey. subst y. eapply nth_error_In; exact Hy. }
  assert (EC2 : forall x, In x col -> exists r, In r s /\ nth d (fst r) 0 = x).
  { intros x Hx. destruct (column_in HC Hx) as (r & Hr & E). exists r. split; [exact Hr|]. destruct (EC r Hr) as (E2 & _). rewrite E in E2. now inversion E2. }
  assert (L21 : (List.length (np_unique NumR col) <= 21)%nat).
  { eapply Nat.le_trans; [|exact Hn]. apply NoDup_incl_length.
    - clear - U1. generalize (np_unique NumR col : list R), U1. clear. induction l as [|a l IH]; intros H; constructor.
      + intros Hi. assert (K := increasing_head H Hi). lra.
      + apply IH. destruct l; [exact I|apply H].
    - intros x Hx. apply nodup_In. apply U2 in Hx. destruct (EC2 x Hx) as (r & Hr & <-). now apply (in_map (fun r : row NumR => nth d (fst r) 0)). }
  destruct (straddle U1 (u := u)) as (k & a & b & Ea & Eb & AB & C).
  { destruct SL as (r & Hr & L). exists (nth d (fst r) 0). split; [apply U2, (EC r Hr)|exact L]. }
  { destruct SR as (r & Hr & L). exists (nth d (fst r) 0). split; [apply U2, (EC r Hr)|exact L]. }
  assert (HV := HS _ (HM L21 k a b Ea Eb)). rewrite !mse_R in HV. cbn [nlt NumR] in HV.
  assert (EM : nmean NumR [a; b] = ((a + b) / 2)%R) by (rewrite nmean_R; cbn; lra).
  assert (Q : split_cost s i v <= split_cost s d (nmean NumR [a; b])).
  { assert (HV' : Rlt_bool (split_cost s d (nmean NumR [a; b])) (split_cost s i v) = false) by exact HV.
    destruct (Rlt_bool_spec (split_cost s d (nmean NumR [a; b])) (split_cost s i v)) as [K|K]; [discriminate HV'|exact K]. }
  eapply Rle_trans; [exact Q|]. right. rewrite EM. unfold split_cost. 
  assert (AB2 : a < b) by lra.
  rewrite (@filter_ext_in' (row NumR) (fun r => Rlt_bool (nth d (fst r) 0) ((a + b) / 2)) (fun r => Rlt_bool (nth d (fst r) 0) u)).
  rewrite (@filter_ext_in' (row NumR) (fun r => Rle_bool ((a + b) / 2) (nth d (fst r) 0)) (fun r => Rle_bool u (nth d (fst r) 0))).
  - reflexivity.
  - intros r Hr. assert (X : In (nth d (fst r) 0) (np_unique NumR col)) by (apply U2, (EC r Hr)). apply C in X.
    destruct (Rle_bool_spec ((a + b) / 2) (nth d (fst r) 0)), (Rle_bool_spec u (nth d (fst r) 0)); try reflexivity; exfalso; cbn [NumR car] in *; lra.
  - intros r Hr. assert (X : In (nth d (fst r) 0) (np_unique NumR col)) by (apply U2, (EC r Hr)). apply C in X.
    destruct (Rlt_bool_spec (nth d (fst r) 0) ((a + b) / 2)), (Rlt_bool_spec (nth d (fst r) 0) u); try reflexivity; exfalso; cbn [NumR car] in *; lra.
Qed.
End Exact.
