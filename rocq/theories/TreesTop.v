(** Top-level facts about forests. *)
From Verif Require Import Base Lists Num NumLaws NumFin Monad UtilsSpec TreesModel TreesSpec TreesProofs TreesRProofs TreesPool TreesTotal.
From Coq Require Import List ZArith Bool Arith Permutation Reals Lra Lia.
Set Implicit Arguments. Unset Strict Implicit.

Section Gen.
Context (N : Num) (O : NumOrd N) (F : NumFin N) (W : Type).
Context (choice : nat -> nat -> bool -> W -> W * res (list nat)).
Context (uniform : N -> N -> W -> W * res N).
Context (trunc : N -> option Z).
Context (UC : uniform_contract N uniform).

(** what is known of every tree of a forest *)
Definition tree_ok (X : mat N) (Y : list N) (dm m : Z) (bt : list (row N) * tree N) : Prop :=
  drawn_from N X Y (fst bt) /\ Holds N (snd bt) (fst bt) /\ (Z.of_nat (depth N (snd bt)) <= Z.max 1 dm)%Z /\ below_root N m (snd bt).

Lemma grow_tree_tree_ok X Y dm m ratio rep nf rl w w' t bt :
  (forall x, In x (mrows X) -> Forall (fin F) x) ->
  grow_tree N W choice uniform trunc X Y dm m ratio rep nf rl w = (w', t, Ok bt) -> tree_ok X Y dm m bt.
Proof.
  intros HX H. destruct bt as [boot tr]. destruct (grow_tree_ok O UC HX H) as (D & HH & DP & B & _).
  split; [exact D|]. split; [exact HH|]. split; [|exact B]. cbn [snd]. lia.
Qed.

Lemma forest_of {A} X Y dm m ratio rep nf rl (l : list A) w w' t ts :
  (forall x, In x (mrows X) -> Forall (fin F) x) ->
  mmapM (fun _ : A => grow_tree N W choice uniform trunc X Y dm m ratio rep nf rl) l w = (w', t, Ok ts) ->
  List.length ts = List.length l /\ Forall (tree_ok X Y dm m) ts.
Proof.
  intros HX H. apply mmapM_ok in H. split; [symmetry; apply (Forall2_len H)|].
  apply Forall_forall. intros bt Hb. apply in_nth_error in Hb. destruct Hb as [k Hk]. destruct (Forall2_nth k H Hk) as (a & _ & w1 & w2 & t' & E).
  eapply grow_tree_tree_ok; eauto.
Qed.

Lemma generic_ok X Y nt dm m ratio rep nf rl w w' t ts :
  (forall x, In x (mrows X) -> Forall (fin F) x) ->
  get_generic_trees N W choice uniform trunc X Y nt dm m ratio rep nf rl w = (w', t, Ok ts) ->
  List.length ts = Z.to_nat nt /\ Forall (tree_ok X Y dm m) ts.
Proof.
  intros HX H. unfold get_generic_trees in H. apply massert_inv in H. destruct H as (_ & t1 & H). apply massert_inv in H. destruct H as (_ & t2 & H).
  apply (forest_of HX) in H. now rewrite seq_length in H.
Qed.

Lemma random_forest_ok X Y nt dm m nf w w' t ts :
  (forall x, In x (mrows X) -> Forall (fin F) x) ->
  get_random_forest N W choice uniform trunc X Y nt dm m nf w = (w', t, Ok ts) ->
  List.length ts = Z.to_nat nt /\ Forall (tree_ok X Y dm m) ts.
Proof.
  intros HX H. unfold get_random_forest in H. apply massert_inv in H. destruct H as (_ & t1 & H).
  apply (forest_of HX) in H. now rewrite seq_length in H.
Qed.
End Gen.

(** ** exact arithmetic *)
Lemma tree_ok_between X Y dm m bt a b : @tree_ok NumR X Y dm m bt -> (forall y, In y Y -> a <= y <= b)%R -> leaves_between a b (snd bt).
Proof.
  intros (D & H & _ & _) B l Hl. destruct (leaves_held H Hl) as (NE & I). split; [exact NE|]. intros r Hr.
  destruct (D r (I r Hr)) as (i & _ & E). apply B. eapply nth_error_In; eauto.
Qed.

Lemma predict_between X Y dm m ts a b Xq sched out :
  Forall (@tree_ok NumR X Y dm m) ts -> (forall y, In y Y -> a <= y <= b)%R ->
  Permutation sched (seq 0 ((List.length Xq + 99) / 100)) ->
  predict_by_trees NumR Xq (map snd ts) sched = Ok out ->
  List.length out = List.length Xq /\ Forall (fun p : R * R => (a <= fst p <= b /\ 0 <= snd p <= (b - a) / 2)%R) out.
Proof.
  intros HT B P H.
  assert (U : unit_predict_by_trees NumR Xq (map snd ts) = Ok out).
  { destruct (Nat.leb_spec (List.length Xq) 100) as [L|L].
    - unfold predict_by_trees in H. rewrite (proj2 (Nat.leb_le _ _) L) in H. exact H.
    - assert (S := predict_sequential (map snd ts) L P). destruct (unit_predict_by_trees NumR Xq (map snd ts)) as [o|e].
      + rewrite H in S. now symmetry.
      + destruct S as (e' & S). rewrite H in S. discriminate S. }
  split; [apply (mapM_ok_length _ _ U)|]. apply mapM_ok_iff in U. apply Forall_forall. intros p Hp.
  apply in_nth_error in Hp. destruct Hp as [k Hk]. destruct (Forall2_nth k U Hk) as (x & _ & E).
  eapply forest_pred; [|exact E]. intros t Ht. apply in_map_iff in Ht. destruct Ht as (bt & <- & Hb).
  rewrite Forall_forall in HT. eapply tree_ok_between; eauto.
Qed.

Lemma mapM_all_ok {A B} (f : A -> res B) l : (forall a, In a l -> exists b, f a = Ok b) -> exists r, mapM f l = Ok r.
Proof.
  induction l as [|a l IH]; intros H; [exists []; auto|]. cbn [mapM]. destruct (H a (or_introl eq_refl)) as (b & ->). cbn [rbind].
  destruct IH as (r & ->); [intros; apply H; now right|]. cbn. eauto.
Qed.

Lemma predict_succeeds X Y dm m ts Xq sched :
  Forall (@tree_ok NumR X Y dm m) ts -> ts <> [] -> mat_wf X -> (forall x, In x Xq -> List.length x = mcols X) ->
  Permutation sched (seq 0 ((List.length Xq + 99) / 100)) ->
  exists out, predict_by_trees NumR Xq (map snd ts) sched = Ok out.
Proof.
  intros HT NE WF HQ P.
  assert (U : exists out, unit_predict_by_trees NumR Xq (map snd ts) = Ok out).
  { apply mapM_all_ok. intros x Hx. unfold predict_by_trees_one.
    assert (E : exists ps, mapM (predict_by_tree NumR x) (map snd ts) = Ok ps).
    { apply mapM_all_ok. intros t Ht. apply in_map_iff in Ht. destruct Ht as (bt & <- & Hb). rewrite Forall_forall in HT.
      destruct (HT bt Hb) as (D & HH & _).
      destruct (@route_some NumR (mcols X) (snd bt) (fst bt) HH) with (x := x) as (l & El).
      - intros r Hr. destruct (D r Hr) as (i & E & _). apply WF. eapply nth_error_In; eauto.
      - now apply HQ.
      - assert (PR := predict_route x HH). rewrite El in PR. eauto. }
    destruct E as (ps & E). rewrite E. cbn [rbind]. apply mapM_ok_length in E. rewrite map_length in E.
    destruct ps as [|p ps]; [destruct ts; [congruence|discriminate E]|].
    assert (LE : List.length (map fst (p :: ps)) = List.length (map snd (p :: ps))) by now rewrite !map_length.
    rewrite (@compute_sigma_eq (map fst (p :: ps)) (map snd (p :: ps)) _ ltac:(discriminate) LE). cbn [rbind]. eauto. }
  destruct U as (out & U). destruct (Nat.leb_spec (List.length Xq) 100) as [L|L].
  - exists out. unfold predict_by_trees. rewrite (proj2 (Nat.leb_le _ _) L). exact U.
  - assert (S := predict_sequential (map snd ts) L P). rewrite U in S. eauto.
Qed.
