(** Proofs about Thompson sampling and sampled functions. *)
From Verif Require Import Base Num Monad UtilsModel HypsModel CovModel GPModel HypOptModel WrapperModel BOModel ThompsonModel ThompsonSpec.
From Coq Require Import List ZArith Bool String Lia Arith.
Set Implicit Arguments.

Section Sample.
Context (N : Num) (W G : Type).
Context (mvn : list N -> list (list N) -> W -> W * res G) (rvs : G -> W -> W * res (list N)).
Context (chisquare : N -> Z -> W -> W * res (list N)).

Lemma draw_ok rv w w1 t v : draw N rvs rv w = (w1, t, Ok v) -> rvs rv w = (w1, Ok v) /\ t = [TsDraw v].
Proof. unfold draw. destruct (rvs rv w) as [w' r]. intros H. injection H as <- <- ->. auto. Qed.
Lemma draw_raise rv w w1 t e : draw N rvs rv w = (w1, t, Raise e) -> t = [].
Proof. unfold draw. destruct (rvs rv w) as [w' r]. intros H. injection H as <- <- ->. auto. Qed.

Lemma draws_list rv (l : list nat) : forall w w1 t r, mmapM (fun _ => draw N rvs rv) l w = (w1, t, Ok r) ->
  t = map TsDraw r /\ List.length r = List.length l /\ Forall (fun v => exists w2 w3, rvs rv w2 = (w3, Ok v)) r.
Proof.
  induction l as [|x l IH]; intros w w1 t r H; cbn in H; minv; subst.
  - auto.
  - match goal with K : draw _ _ _ _ = _ |- _ => apply draw_ok in K as (K & ->) end.
    match goal with K : mmapM _ _ _ = _ |- _ => apply IH in K as (-> & L & F) end.
    cbn. rewrite L, app_nil_r. split; [reflexivity|]. split; [reflexivity|]. constructor; eauto.
Qed.
Lemma draws_ok rv num w w1 t r : draws N rvs rv num w = (w1, t, Ok r) ->
  t = map TsDraw r /\ List.length r = Z.to_nat num /\ Forall (fun v => exists w2 w3, rvs rv w2 = (w3, Ok v)) r.
Proof. intros H. apply draws_list in H. now rewrite seq_length in H. Qed.

Lemma assert_ok_inv b (u : unit) : assert_ b = Ok u -> b = true.
Proof. destruct b; [auto|discriminate]. Qed.

Lemma sample_functions_ok mu Sg num w w1 t a : sample_functions N mvn rvs mu Sg num w = (w1, t, Ok a) ->
  exists r, t = map TsDraw r /\ a = np_stack N (List.length mu) r /\ List.length r = Z.to_nat num /\
    (draw_contract mvn rvs -> Forall (fun v => List.length v = List.length mu) r).
Proof.
  intros H. unfold sample_functions in H. minv. subst.
  match goal with K : draws _ _ _ _ _ = _ |- _ => apply draws_ok in K as (-> & L & F) end.
  cbn [app]. rewrite app_nil_r. eexists. split; [reflexivity|]. split; [reflexivity|]. split; [exact L|].
  intros C. apply Forall_forall. intros v I. rewrite Forall_forall in F. destruct (F v I) as (w4 & w5 & E). eauto.
Qed.

Lemma sample_one_raise mu Sg w w1 t e : sample_functions N mvn rvs mu Sg 1 w = (w1, t, Raise e) -> t = [].
Proof.
  unfold sample_functions. intros H.
  apply bind_raise in H as [H|(w2 & t1 & u & t2 & H1 & H & ->)]; [apply lift_raise in H; tauto|].
  apply lift_ok in H1 as (_ & _ & ->).
  apply bind_raise in H as [H|(w3 & t3 & rv & t4 & H1 & H & ->)]; [apply ext_raise in H as (_ & ->); reflexivity|].
  apply ext_ok in H1 as (_ & ->).
  apply bind_raise in H as [H|(w4 & t5 & l & t6 & H1 & H & ->)]; [|now apply ret_raise in H].
  unfold draws in H. change (seq 0 (Z.to_nat 1)) with [0] in H. cbn [mmapM] in H.
  apply bind_raise in H as [H|(w5 & t7 & v & t8 & H1 & H & ->)]; [apply draw_raise in H; now subst|].
  apply bind_raise in H as [H|(w6 & t9 & v' & t10 & H2 & H & ->)]; now apply ret_raise in H.
Qed.

Lemma ladder_ok lae mu Sg js : forall w w1 t a, sample_ladder N mvn rvs lae mu Sg js w = (w1, t, Ok a) ->
  exists v, t = [TsDraw v] /\ a = np_stack N (List.length mu) [v] /\ (draw_contract mvn rvs -> List.length v = List.length mu).
Proof.
  induction js as [|j js IH]; intros w w1 t a H; cbn [sample_ladder] in H; [discriminate H|].
  destruct (sample_functions _ _ _ _ _ _ _) as [[w2 t2] [x|e]] eqn:E.
  - injection H as <- <- <-. apply sample_functions_ok in E as (r & -> & -> & L & F).
    destruct r as [|v [|? ?]]; try discriminate L. exists v. split; [reflexivity|]. split; [reflexivity|].
    intros C. specialize (F C). now inversion F.
  - destruct (caught lae e); [|discriminate H].
    apply sample_one_raise in E as ->. destruct (sample_ladder _ _ _ _ _ _ _ w2) as [[w3 t3] y] eqn:E2.
    cbn in H. injection H as <- <- ->. now apply IH in E2.
Qed.

(** shapes of sampled functions *)
Lemma stack_two n r : 1 <= List.length r -> n <> 1 -> np_stack N n r = V2 (mkmat r n).
Proof. intros L Hn. destruct r; [cbn in L; lia|]. unfold np_stack. now apply Nat.eqb_neq in Hn as ->. Qed.
Lemma stack_one r : 1 <= List.length r -> exists l, np_stack N 1 r = V1 l /\ List.length l = List.length r.
Proof. intros L. destruct r; [cbn in L; lia|]. eexists. split; [reflexivity|]. now rewrite map_length. Qed.

Lemma map2_length {A B C} (f : A -> B -> C) a b : List.length a = List.length b -> List.length (map2 f a b) = List.length a.
Proof. intros E. unfold map2. rewrite map_length, combine_length. lia. Qed.
Lemma map2_nth {A B C} (f : A -> B -> C) a b i x y : nth_error a i = Some x -> nth_error b i = Some y -> nth_error (map2 f a b) i = Some (f x y).
Proof.
  revert b i. induction a as [|a0 a IH]; intros [|b0 b] [|i]; cbn; try discriminate.
  - intros [= ->] [= ->]. reflexivity.
  - apply IH.
Qed.

(** the scale factors of the Student-t draws, with what they cost *)
Definition scales (nu : N) (num : Z) : M W (tsev N) (list N) :=
  if is_inf N nu then ret (repeat (nofZ N 1) (Z.to_nat num))
  else mlet c <- ext (chisquare nu num); ret (map (fun v => ndiv N v nu) c).
Lemma scales_ok nu num w w1 t x : scales nu num w = (w1, t, Ok x) -> chi_contract chisquare -> (0 <= num)%Z ->
  t = [] /\ List.length x = Z.to_nat num.
Proof.
  intros H C P. unfold scales in H. destruct (is_inf N nu); minv; subst.
  - now rewrite repeat_length.
  - match goal with K : chisquare _ _ _ = _ |- _ => apply C in K end. rewrite map_length. split; [reflexivity|lia].
Qed.

Lemma tp_sample_ok nu mu Sg num w w1 t s : chi_contract chisquare -> (0 <= num)%Z ->
  tp_sample_functions N mvn rvs chisquare nu mu Sg num w = (w1, t, Ok s) ->
  exists x r, t = map TsDraw r /\ List.length x = Z.to_nat num /\ List.length r = Z.to_nat num /\
    (draw_contract mvn rvs -> Forall (fun v => List.length v = List.length mu) r) /\
    Z.of_nat (nrows s) = num /\ mcols s = List.length mu /\
    (do a <- div_rows (np_stack N (List.length mu) r) x; add_row N mu a) = Ok s.
Proof.
  intros C P H. unfold tp_sample_functions in H.
  apply bind_ok in H as (w2 & t1 & u & t2 & H1 & H & ->). apply lift_ok in H1 as (_ & -> & ->).
  apply bind_ok in H as (w3 & t3 & x & t4 & H1 & H & ->). apply scales_ok in H1 as (-> & Lx); [|exact C|exact P].
  minv. subst.
  match goal with K : draws _ _ _ _ _ = _ |- _ => apply draws_ok in K as (-> & L & F) end.
  match goal with K : assert_ _ = Ok _ |- _ => apply assert_ok_inv in K; apply andb_true_iff in K as (E1 & E2) end.
  apply Z.eqb_eq in E1. apply Nat.eqb_eq in E2.
  rewrite !app_nil_l, !app_nil_r. eexists x, _. split; [reflexivity|]. split; [exact Lx|]. split; [exact L|]. split.
  { intros D. apply Forall_forall. intros v I. rewrite Forall_forall in F. destruct (F v I) as (w4 & w5 & E).
    erewrite D; [|eassumption|eassumption]. now rewrite repeat_length. }
  split; [exact E1|]. split; [exact E2|].
  match goal with K : div_rows _ _ = _ |- _ => rewrite K end. cbn [rbind]. congruence.
Qed.

(** n >= 2, at least one draw: every entry *)
Lemma tp_rows nu mu Sg num w w1 t s : chi_contract chisquare -> draw_contract mvn rvs -> (1 <= num)%Z -> 2 <= List.length mu ->
  tp_sample_functions N mvn rvs chisquare nu mu Sg num w = (w1, t, Ok s) ->
  exists x r, t = map TsDraw r /\ List.length r = Z.to_nat num /\ List.length x = Z.to_nat num /\
    nrows s = Z.to_nat num /\ mcols s = List.length mu /\ Forall (fun row => List.length row = List.length mu) (mrows s) /\
    forall i j xi ri row m v, nth_error x i = Some xi -> nth_error r i = Some ri -> nth_error (mrows s) i = Some row ->
      nth_error mu j = Some m -> nth_error ri j = Some v -> nth_error row j = Some (nadd N m (ndiv N v (nsqrt N xi))).
Proof.
  intros C D P Hn H. apply tp_sample_ok in H as (x & r & -> & Lx & Lr & F & E1 & E2 & E); [|exact C|lia].
  specialize (F D). rewrite stack_two in E by lia. cbn [div_rows rbind nrows mrows mcols] in E.
  unfold nrows in E. cbn [mrows] in E. rewrite Lr, Lx, Nat.eqb_refl in E. cbn [rbind] in E. unfold add_row in E. cbn [mcols mrows] in E.
  rewrite Nat.eqb_refl in E.
  assert (Es : s = mkmat (map (map2 (nadd N) mu) (map2 (fun r0 xi => map (fun v => ndiv N v (nsqrt N xi)) r0) r x)) (List.length mu)) by congruence.
  exists x, r. split; [reflexivity|]. split; [exact Lr|]. split; [exact Lx|]. split; [lia|]. split; [exact E2|]. subst s. cbn [mrows]. split.
  - apply Forall_forall. intros row I. apply in_map_iff in I as (a & <- & I). unfold map2 in I. apply in_map_iff in I as ((r0 & xi) & <- & I).
    apply in_combine_l in I. rewrite Forall_forall in F. apply F in I. rewrite map2_length; [reflexivity|]. cbn. now rewrite map_length.
  - intros i j xi ri row m v Ex Er Erow Em Ev.
    rewrite nth_error_map in Erow. rewrite (map2_nth _ _ _ _ Er Ex) in Erow. cbn in Erow. injection Erow as <-.
    apply map2_nth; [exact Em|]. now rewrite nth_error_map, Ev.
Qed.

(** n = 1: only single draws are returned *)
Lemma tp_one nu m0 Sg num w w1 t s : chi_contract chisquare -> (2 <= num)%Z ->
  tp_sample_functions N mvn rvs chisquare nu [m0] Sg num w <> (w1, t, Ok s).
Proof.
  intros C P H. apply tp_sample_ok in H as (x & r & _ & Lx & Lr & _ & _ & E2 & E); [|exact C|lia].
  destruct (@stack_one r) as (l & El & Ll); [lia|]. cbn [List.length] in E. rewrite El in E. cbn [div_rows rbind] in E.
  unfold add_row in E. cbn [mcols List.length] in E.
  replace (1 =? List.length l)%nat with false in E by (symmetry; apply Nat.eqb_neq; lia). cbn [Nat.eqb] in E.
  apply (f_equal (fun q => match q with Ok a => mcols a | _ => O end)) in E. cbn [mcols] in E. cbn in E2. lia.
Qed.

(** n >= 2: an exception comes from scipy or numpy *)
Lemma draws_raise rv (l : list nat) : forall w w1 t e, mmapM (fun _ => draw N rvs rv) l w = (w1, t, Raise e) ->
  exists w2 w3, rvs rv w2 = (w3, Raise e).
Proof.
  induction l as [|a l IH]; intros w w1 t e H; cbn in H; [now apply ret_raise in H|].
  apply bind_raise in H as [H|(w5 & t7 & v & t8 & H1 & H & ->)].
  - unfold draw in H. destruct (rvs rv w) as [w' r] eqn:E. injection H as <- <- ->. eauto.
  - apply bind_raise in H as [H|(w6 & t9 & v' & t10 & H2 & H & ->)]; [eauto|now apply ret_raise in H].
Qed.
Definition library_raises (nu : N) (mu : list N) (Sg : list (list N)) (num : Z) (e : exn) : Prop :=
  (exists w w', chisquare nu num w = (w', Raise e)) \/ (exists w w', mvn mu Sg w = (w', Raise e)) \/
  (exists rv w w', rvs rv w = (w', Raise e)).
Lemma gp_sample_raise mu Sg num w w1 t e : has_shape N (List.length mu) (List.length mu) Sg = true ->
  sample_functions N mvn rvs mu Sg num w = (w1, t, Raise e) ->
  (exists w w', mvn mu Sg w = (w', Raise e)) \/ (exists rv w w', rvs rv w = (w', Raise e)).
Proof.
  intros HS H. unfold sample_functions in H. rewrite HS in H.
  apply bind_raise in H as [H|(w2 & t1 & u & t2 & H1 & H & ->)]; [apply lift_raise in H as (H & _); discriminate H|].
  apply bind_raise in H as [H|(w3 & t3 & rv & t4 & H2 & H & ->)]; [apply ext_raise in H as (H & _); left; eauto|].
  apply bind_raise in H as [H|(w4 & t5 & l & t6 & H3 & H & ->)]; [|now apply ret_raise in H].
  apply draws_raise in H as (? & ? & H). right. eauto.
Qed.
Lemma tp_sample_raise nu mu Sg num w w1 t e : chi_contract chisquare -> (1 <= num)%Z -> 2 <= List.length mu ->
  has_shape N (List.length mu) (List.length mu) Sg = true ->
  tp_sample_functions N mvn rvs chisquare nu mu Sg num w = (w1, t, Raise e) ->
  library_raises nu (repeat (nofZ N 0) (List.length mu)) Sg num e.
Proof.
  intros C P Hn HS H. unfold tp_sample_functions in H. rewrite HS in H.
  apply bind_raise in H as [H|(w2 & t1 & u & t2 & H1 & H & ->)]; [apply lift_raise in H as (H & _); discriminate H|].
  apply bind_raise in H as [H|(w3 & t3 & x & t4 & Hx & H & ->)].
  { destruct (is_inf N nu); [now apply ret_raise in H|].
    apply bind_raise in H as [H|(w4 & t5 & c & t6 & H2 & H & ->)]; [|now apply ret_raise in H].
    apply ext_raise in H as (H & _). left. eauto. }
  apply scales_ok in Hx as (_ & Lx); [|exact C|lia].
  apply bind_raise in H as [H|(w4 & t5 & rv & t6 & H2 & H & ->)]; [apply ext_raise in H as (H & _); right; left; eauto|].
  apply bind_raise in H as [H|(w5 & t7 & l & t8 & H3 & H & ->)]; [apply draws_raise in H as (? & ? & H); right; right; eauto|].
  apply draws_ok in H3 as (_ & Lr & _). exfalso.
  rewrite stack_two in H by lia.
  assert (E : div_rows (V2 (mkmat l (List.length mu))) x
    = Ok (mkmat (map2 (fun r0 xi => map (fun v => ndiv N v (nsqrt N xi)) r0) l x) (List.length mu))).
  { unfold div_rows, nrows. cbn [mrows mcols]. now rewrite Lr, Lx, Nat.eqb_refl. }
  rewrite E in H. clear E.
  apply bind_raise in H as [H|(w6 & t9 & s & t10 & H4 & H & ->)]; [apply lift_raise in H as (H & _); discriminate H|].
  apply lift_ok in H4 as (H4 & _). apply (f_equal (fun q => match q with Ok a => a | _ => mkmat [] 0 end)) in H4. cbv beta iota in H4. subst s.
  unfold add_row in H. cbn [mcols mrows] in H. rewrite Nat.eqb_refl in H.
  apply bind_raise in H as [H|(w7 & t11 & s & t12 & H4 & H & ->)]; [apply lift_raise in H as (H & _); discriminate H|].
  apply lift_ok in H4 as (H4 & _). apply (f_equal (fun q => match q with Ok a => a | _ => mkmat [] 0 end)) in H4. cbv beta iota in H4. subst s.
  unfold nrows in H. cbn [mcols mrows] in H. rewrite map_length, map2_length, Nat.eqb_refl, Lr in H by lia.
  rewrite Z2Nat.id, Z.eqb_refl in H by lia.
  apply bind_raise in H as [H|(w8 & t13 & s & t14 & H4 & H & ->)]; [apply lift_raise in H as (H & _); discriminate H|now apply ret_raise in H].
Qed.
End Sample.
