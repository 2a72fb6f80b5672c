(** binary64: forests of bounded responses are grown and predict finite numbers. *)
From Verif Require Import Base Lists Num NumLaws NumFin Monad TreesModel TreesSpec TreesProofs TreesPool TreesTotal TreesTop TreesTotalN SamplingFloat FloatSpec FloatOps FloatNorm.
From Coq Require Import Reals ZArith Bool List Permutation Lra Lia FunctionalExtensionality Floats.SpecFloat.
From Flocq Require Import Core IEEE754.BinarySingleNaN.
Import ListNotations.
Local Open Scope R_scope.
#[local] Existing Instance vexp64.
#[local] Existing Instance vrndE.

Lemma few_le n m : (n <= m)%nat -> few m -> few n.
Proof. unfold few. lia. Qed.
Lemma bounded_le e e' y : (e <= e')%Z -> within e y -> within e' y.
Proof. intros H B. eapply fbnd_le; [exact B|]. now apply bpow_le. Qed.

Lemma mse__bnd (l : list f64) : Forall (within 480) l -> few (length l) -> fbnd (bpow radix2 962) (mse_ NumF l).
Proof.
  intros HF L. destruct l as [|y l].
  - destruct (fofZ_val 100000000 ltac:(reflexivity)) as (F & E). split; [exact F|]. change (mse_ NumF []) with (fofZ 100000000). rewrite E, Rabs_pos_eq by lra.
    apply Rle_trans with (bpow radix2 27); [cbn; lra|apply bpow_le; lia].
  - destruct (squares_bnd 480 (y :: l) ltac:(lia) ltac:(discriminate) HF L) as (A & _).
    apply (nmean_bnd 962 (squares (y :: l))); [lia|discriminate|exact A|]. unfold squares. rewrite map_length. exact L.
Qed.
Lemma bounded_ltinf B (x : f64) : fbnd B x -> nltinf NumF x = true.
Proof.
  intros (F & _). cbn. rewrite Bltb_key. cbn [is_nan negb fkey]. rewrite (finite_notnan _ F). cbn [negb andb]. apply Rlt_bool_true. apply fkey_bound, F.
Qed.
Lemma split_scores (l r : list (row NumF)) : okrows NumF_fin (within 480) few l -> okrows NumF_fin (within 480) few r -> nltinf NumF (mse NumF (l, r)) = true.
Proof.
  intros (L1 & H1) (L2 & H2). apply (bounded_ltinf (bpow radix2 963)). unfold mse, get_outputs_from_leaf. cbn [fst snd].
  apply (add_bnd 962); [lia|lia| |]; apply mse__bnd; try (unfold few; rewrite map_length; assumption);
    apply Forall_forall; intros y Hy; apply in_map_iff in Hy as (q & <- & Hq); [now apply H1|now apply H2].
Qed.

(** ** predictions *)

Lemma Forall_bounded_le e e' l : (e <= e')%Z -> Forall (within e) l -> Forall (within e') l.
Proof. intros H. apply Forall_impl. intros y. now apply bounded_le. Qed.

Lemma npmax2_cases (a b : f64) : is_nan a = false -> is_nan b = false -> npmax2 NumF a b = a \/ npmax2 NumF a b = b.
Proof. intros A B. unfold npmax2. cbn [nisnan NumF]. rewrite A, B. destruct (nlt NumF a b); auto. Qed.

Lemma add00 : fbnd 0 (fadd (fofZ 0) (fofZ 0)).
Proof. eapply fadd_bnd; [apply (zero_bnd 0); lra|apply (zero_bnd 0); lra|apply generic_format_0|apply bpow_gt_0|lra]. Qed.

Lemma compute_sigma_bnd e (mus sigmas : list f64) : (0 <= e <= 480)%Z -> mus <> [] -> length mus = length sigmas -> few (length mus) ->
  Forall (within e) mus -> Forall (fun s => within (e + 1) s /\ 0 <= B2R s) sigmas ->
  exists s, compute_sigma NumF mus sigmas (nofZ NumF 0) = Ok s /\ within (e + 2) s /\ 0 <= B2R (s : f64).
Proof.
  intros E NE L FW HM HS. unfold compute_sigma. change (car NumF) with f64. rewrite (proj2 (Nat.eqb_eq _ _) L). cbn [assert_ rbind].
  destruct mus as [|m0 mus0] eqn:EM; [congruence|]. rewrite <- EM in *. clear EM m0 mus0.
  match goal with |- context [nmean NumF (map ?f ?l)] => set (terms := map f l) end.
  assert (LT : length terms = length mus) by (unfold terms; rewrite map_length, combine_length, map_length; lia).
  assert (FT : few (length terms)) by (rewrite LT; exact FW).
  assert (BT : Forall (fbnd (bpow radix2 (2 * e + 3))) terms).
  { apply Forall_forall. intros x Hx. apply in_map_iff in Hx as ((m & s) & <- & Hp). cbn [fst snd].
    pose proof (in_combine_l _ _ _ _ Hp) as Hm. apply in_combine_r in Hp. apply in_map_iff in Hp as (s0 & <- & Hs).
    rewrite Forall_forall in HM, HS. specialize (HM m Hm). specialize (HS s0 Hs). destruct HS as (HS & _).
    replace (2 * e + 3)%Z with (2 * e + 2 + 1)%Z by lia. apply (add_bnd (2 * e + 2)); [lia|lia| |].
    - eapply fbnd_le; [apply (nsq_bnd e); [lia|lia|exact HM]|apply bpow_le; lia].
    - replace (2 * e + 2)%Z with (2 * (e + 1))%Z by lia. apply nsq_bnd; [lia|lia|].
      destruct (npmax2_cases s0 (fadd (fofZ 0) (fofZ 0))) as [Q|Q]; [eapply fbnd_notnan; exact HS|eapply fbnd_notnan, add00| |].
      + change (nadd NumF (nofZ NumF 0) (nofZ NumF 0)) with (fadd (fofZ 0) (fofZ 0)). rewrite Q. exact HS.
      + change (nadd NumF (nofZ NumF 0) (nofZ NumF 0)) with (fadd (fofZ 0) (fofZ 0)). rewrite Q. eapply fbnd_le; [apply add00|apply bpow_ge_0]. }
  assert (NT : terms <> []) by (intros Q; rewrite Q in LT; destruct mus; [congruence|discriminate LT]).
  destruct (nmean_bnd (2 * e + 3) terms ltac:(lia) NT BT FT) as (B1 & _).
  destruct (nmean_bnd e mus ltac:(lia) NE HM FW) as (B2 & _).
  assert (B3 : fbnd (bpow radix2 (2 * e + 4)) (nsub NumF (nmean NumF terms) (nsq NumF (nmean NumF mus)))).
  { replace (2 * e + 4)%Z with (2 * e + 3 + 1)%Z by lia. apply (sub_bnd (2 * e + 3)); [lia|lia|exact B1|].
    eapply fbnd_le; [apply (nsq_bnd e); [lia|lia|exact B2]|apply bpow_le; lia]. }
  set (v := nsub NumF (nmean NumF terms) (nsq NumF (nmean NumF mus))) in *.
  assert (B4 : fbnd (bpow radix2 (2 * e + 4)) (if nlt NumF v (nofZ NumF 0) then nofZ NumF 0 else v) /\ 0 <= B2R (if nlt NumF v (nofZ NumF 0) then nofZ NumF 0 else v : f64)).
  { destruct (fofZ_val 0 ltac:(reflexivity)) as (F0 & E0). destruct B3 as (FV & BV).
    change (nlt NumF v (nofZ NumF 0)) with (nlt NumF v (fofZ 0)). rewrite (flt_R v (fofZ 0) FV F0). destruct (Rlt_bool_spec (B2R (v : f64)) (B2R (fofZ 0))) as [Q|Q].
    - split; [apply zero_bnd, bpow_ge_0|]. change (nofZ NumF 0) with (fofZ 0). rewrite E0. lra.
    - split; [split; assumption|]. rewrite E0 in Q. exact Q. }
  set (u := if nlt NumF v (nofZ NumF 0) then nofZ NumF 0 else v) in *. eexists. split; [reflexivity|].
  destruct B4 as ((FU & BU) & PU). rewrite Rabs_pos_eq in BU by exact PU.
  destruct (fsqrt_val u (bpow radix2 (e + 2)) FU PU) as (R1 & _ & R2).
  - apply F64_bpow. lia.
  - rewrite <- (sqrt_Rsqr (bpow radix2 (e + 2))) by apply bpow_ge_0. apply sqrt_le_1_alt. unfold Rsqr. rewrite <- bpow_plus.
    replace (e + 2 + (e + 2))%Z with (2 * e + 4)%Z by lia. exact BU.
  - split; [exact R1|exact R2].
Qed.

Lemma leaf_len (N : Num) t s : Holds N t s -> forall l, In l (leaves N t) -> (length l <= length s)%nat.
Proof.
  induction 1 as [l|i v a b s1 s2 s Ha IHa Hb IHb _ _ P|i v l s NE _ P]; intros q Hq; cbn [leaves] in Hq.
  - destruct Hq as [<-|[]]. lia.
  - apply Permutation_length in P. rewrite app_length in P. apply in_app_or in Hq as [Hq|Hq]; [specialize (IHa q Hq)|specialize (IHb q Hq)]; lia.
  - apply Permutation_length in P. destruct Hq as [<-|[<-|[]]]; lia.
Qed.

Definition grown (e : Z) (nd : nat) (t : tree NumF) : Prop :=
  exists boot, Holds NumF t boot /\ few (length boot) /\ forall r, In r boot -> length (fst r) = nd /\ within e (snd r).

Lemma predict_tree_bnd e nd (t : tree NumF) x : (0 <= e <= 480)%Z -> grown e nd t -> length x = nd ->
  exists m s, predict_by_tree NumF x t = Ok (m, s) /\ within e m /\ within (e + 1) s /\ 0 <= B2R (s : f64).
Proof.
  intros E (boot & HH & FB & HB) LX.
  destruct (@route_some NumF nd t boot HH) with (x := x) as (l & El); [intros r Hr; now apply HB|exact LX|].
  assert (PR := @predict_route NumF x t boot HH). rewrite El in PR. pose proof (@route_leaf NumF x t l El) as HL.
  destruct (@leaves_held NumF t boot HH l HL) as (NE & I). pose proof (leaf_len NumF t boot HH l HL) as LL.
  assert (BL : Forall (within e) (map snd l)) by (apply Forall_forall; intros y Hy; apply in_map_iff in Hy as (q & <- & Hq); now apply HB, I).
  assert (NM : map snd l <> []) by (destruct l; [congruence|discriminate]).
  assert (FM : few (length (map snd l))) by (rewrite map_length; apply few_le with (length boot); assumption).
  exists (nmean NumF (map snd l)), (nstd NumF 0 (map snd l)). split; [exact PR|].
  split; [apply (nmean_bnd e); [lia|exact NM|exact BL|exact FM]|]. now apply (nstd_bnd e).
Qed.

Lemma predict_one_bnd e nd (ts : list (tree NumF)) x : (0 <= e <= 480)%Z -> ts <> [] -> few (length ts) -> Forall (grown e nd) ts -> length x = nd ->
  exists p, predict_by_trees_one NumF x ts = Ok p /\ pred_ok e p.
Proof.
  intros E NE FW HT LX. unfold predict_by_trees_one.
  assert (G : exists ps, mapM (predict_by_tree NumF x) ts = Ok ps /\ length ps = length ts /\
    Forall (fun p : f64 * f64 => within e (fst p) /\ within (e + 1) (snd p) /\ 0 <= B2R (snd p)) ps).
  { clear NE FW. induction HT as [|t ts Ht HT IH]; [exists []; auto|]. cbn [mapM].
    destruct (predict_tree_bnd e nd t x E Ht LX) as (m & s & -> & Q). cbn [rbind]. destruct IH as (ps & -> & L & HP). cbn [rbind].
    exists ((m, s) :: ps). cbn. auto. }
  destruct G as (ps & -> & L & HP). cbn [rbind]. destruct ps as [|p0 ps0] eqn:EP; [destruct ts; [congruence|discriminate L]|]. rewrite <- EP in *.
  assert (NP : map fst ps <> []) by (rewrite EP; discriminate). clear EP.
  assert (BM : Forall (within e) (map fst ps)) by (apply Forall_forall; intros y Hy; apply in_map_iff in Hy as (q & <- & Hq); rewrite Forall_forall in HP; now apply HP).
  destruct (compute_sigma_bnd e (map fst ps) (map snd ps)) as (s & -> & BS & PS); [exact E|exact NP|now rewrite !map_length|rewrite map_length, L; exact FW|exact BM| |].
  { apply Forall_forall; intros y Hy; apply in_map_iff in Hy as (q & <- & Hq); rewrite Forall_forall in HP; now apply HP. }
  cbn [rbind]. eexists. split; [reflexivity|]. split; [|split; [exact BS|exact PS]]. cbn [fst].
  apply (nmean_bnd e); [lia|exact NP|exact BM|rewrite map_length, L; exact FW].
Qed.

Lemma mapM_all {A B} (f : A -> res B) (P : B -> Prop) l : (forall a, In a l -> exists b, f a = Ok b /\ P b) -> exists r, mapM f l = Ok r /\ length r = length l /\ Forall P r.
Proof.
  induction l as [|a l IH]; intros H; [exists []; auto|]. cbn [mapM]. destruct (H a (or_introl eq_refl)) as (b & -> & Pb). cbn [rbind].
  destruct IH as (r & -> & L & F); [intros; apply H; now right|]. exists (b :: r). cbn. auto.
Qed.

Lemma predict_bnd e nd (ts : list (tree NumF)) Xq sched : (0 <= e <= 480)%Z -> ts <> [] -> few (length ts) -> Forall (grown e nd) ts ->
  (forall x, In x Xq -> length x = nd) -> Permutation sched (seq 0 ((length Xq + 99) / 100)) ->
  exists out, predict_by_trees NumF Xq ts sched = Ok out /\ length out = length Xq /\ Forall (pred_ok e) out.
Proof.
  intros E NE FW HT HX HP. destruct (mapM_all (fun bx => predict_by_trees_one NumF bx ts) (pred_ok e) Xq) as (out & U & L & Q).
  { intros x Hx. apply (predict_one_bnd e nd); auto. }
  exists out. split; [|auto]. destruct (Nat.leb_spec (length Xq) 100) as [K|K].
  - unfold predict_by_trees. rewrite (proj2 (Nat.leb_le _ _) K). exact U.
  - assert (S := predict_sequential ts K HP). unfold unit_predict_by_trees in S. rewrite U in S. exact S.
Qed.

(** ** without random locations np.random.uniform is not called *)
Section Unused.
Context (N : Num) (W : Type) (choice : nat -> nat -> bool -> W -> W * res (list nat)) (u v : N -> N -> W -> W * res N) (trunc : N -> option Z).
Lemma split_features_unif S fs : forall cur, split_features N W choice u S false fs cur = split_features N W choice v S false fs cur.
Proof. induction fs as [|d fs IH]; intros cur; cbn [split_features]; [reflexivity|]. f_equal. apply functional_extensionality. intros c. apply IH. Qed.
Lemma split_node_unif nd S nf : split_node N W choice u nd S nf false = split_node N W choice v nd S nf false.
Proof. unfold split_node. f_equal. apply functional_extensionality. intros _. f_equal. apply functional_extensionality. intros fs. apply split_features_unif. Qed.
Lemma grow_split_unif nd nf m rem : forall c, grow_split N W choice u nd nf false m rem c = grow_split N W choice v nd nf false m rem c.
Proof.
  induction rem as [|rem IH]; intros [[[[i x] s] (l & r)]|]; cbn [grow_split]; try reflexivity.
  assert (E : forall s, (if (Z.of_nat (length s) <=? m)%Z then ret (TLeaf s) else bind (split_node N W choice u nd s nf false) (fun c => grow_split N W choice u nd nf false m rem c)) =
    (if (Z.of_nat (length s) <=? m)%Z then ret (TLeaf s) else bind (split_node N W choice v nd s nf false) (fun c => grow_split N W choice v nd nf false m rem c))).
  { intros q. destruct (_ <=? _)%Z; [reflexivity|]. rewrite split_node_unif. f_equal. apply functional_extensionality. intros c. apply IH. }
  destruct l; [reflexivity|]. destruct r; [reflexivity|]. rewrite E. f_equal. apply functional_extensionality. intros a. rewrite E. reflexivity.
Qed.
Lemma get_random_forest_unif X Y nt dm m nf : get_random_forest N W choice u trunc X Y nt dm m nf = get_random_forest N W choice v trunc X Y nt dm m nf.
Proof.
  unfold get_random_forest. f_equal. apply functional_extensionality. intros _. f_equal. apply functional_extensionality. intros _. unfold grow_tree.
  f_equal. apply functional_extensionality. intros boot. rewrite split_node_unif. f_equal. apply functional_extensionality. intros c. rewrite grow_split_unif. reflexivity.
Qed.
End Unused.
Definition no_uniform {W} (lo hi : f64) (w : W) : W * res f64 := (w, Ok (fofZ 0)).

Section Forest.
Context (W : Type).
Context (choice : nat -> nat -> bool -> W -> W * res (list nat)).
Context (uniform : f64 -> f64 -> W -> W * res f64).
Context (trunc : f64 -> option Z).
Context (CC : choice_contract choice) (CT : choice_total choice).

Lemma trees_grown (X : mat f64) Y dm m ts e : mat_wf X -> (forall y, In y Y -> within e y) ->
  Forall (fun bt : list (row NumF) * tree NumF => few (length (fst bt))) ts -> Forall (@tree_ok NumF X Y dm m) ts -> Forall (grown e (mcols X)) (map snd ts).
Proof.
  intros WF HY HL HT. apply Forall_forall. intros t Ht. apply in_map_iff in Ht as (bt & <- & Hb). rewrite Forall_forall in HL, HT.
  destruct (HT bt Hb) as (D & HH & _). exists (fst bt). split; [exact HH|]. split; [now apply HL|]. intros r Hr. destruct (D r Hr) as (i & E1 & E2).
  split; [apply WF; eapply nth_error_In; exact E1|apply HY; eapply nth_error_In; exact E2].
Qed.

Definition fdata_ok (X : mat f64) (Y : list f64) (nf : nat) : Prop :=
  mat_wf X /\ length (mrows X) = length Y /\ (0 < nrows X)%nat /\ few (nrows X) /\ (0 < nf <= mcols X)%nat /\
  (forall x, In x (mrows X) -> Forall finite x).

Lemma of1 n : few n -> fmul (fofZ (Z.of_nat n)) (fofZ 1) = fofZ (Z.of_nat n).
Proof.
  intros H. destruct (fofZ_val (Z.of_nat n) ltac:(unfold few in H; lia)) as (F & E). destruct (fofZ_val 1 ltac:(reflexivity)) as (F1 & E1).
  assert (S1 : Bsign (fofZ 1 : f64) = false) by (vm_compute; reflexivity).
  assert (K := Bmult_correct prec64 emax64 prec64_gt_0 prec64_lt_emax mode_NE (fofZ (Z.of_nat n)) (fofZ 1)).
  change (round radix2 (SpecFloat.fexp prec64 emax64) (round_mode mode_NE)) with rnd64 in K. rewrite E, E1, Rmult_1_r in K.
  rewrite (rnd64_id (IZR (Z.of_nat n))) in K by (apply F64_Z; unfold few in H; lia).
  rewrite Rlt_bool_true in K by (rewrite <- E; apply abs_B2R_lt_emax). destruct K as (V & FF & SS). rewrite F, F1 in FF.
  apply B2R_Bsign_inj; [exact FF|exact F|etransitivity; [exact V|now symmetry]|].
  unfold fmul. rewrite SS; [rewrite S1; now rewrite xorb_false_r|].
  apply finite_notnan, FF.
Qed.

Lemma forest_float (X : mat f64) Y nt dm m nf : fdata_ok X Y nf -> (forall y, In y Y -> within 480 y) ->
  trunc (fofZ (Z.of_nat (nrows X))) = Some (Z.of_nat (nrows X)) ->
  forall w, exists w' t ts, get_random_forest NumF W choice uniform trunc X Y nt dm m nf w = (w', t, Ok ts) /\
    length ts = Z.to_nat nt /\ Forall (@tree_ok NumF X Y dm m) ts /\ Forall (fun bt : list (row NumF) * tree NumF => few (length (fst bt))) ts.
Proof.
  intros (WF & L & NR & FW & NF & FX) HY TR w. rewrite (get_random_forest_unif NumF W choice uniform no_uniform).
  assert (UT : uniform_total NumF (@no_uniform W)) by (intros lo hi w0; unfold no_uniform; eauto).
  assert (UC : uniform_contract NumF (@no_uniform W)) by (intros lo hi w0 w1 x; unfold no_uniform; intros K; injection K as _ <-; vm_compute; reflexivity).
  assert (D : data_ok NumF_fin trunc (within 480) few X Y (nofZ NumF 1) true nf).
  { split; [exact WF|]. split; [exact L|]. split; [exact NR|]. split; [exact NF|]. split; [vm_compute; reflexivity|]. split; [exact FX|]. split; [exact HY|].
    exists (Z.of_nat (nrows X)). split; [|split; [lia|split; [rewrite Nat2Z.id; exact FW|discriminate]]].
    etransitivity; [|exact TR]. f_equal. apply (of1 _ FW). }
  destruct (@forest_suc NumF NumF_ord NumF_fin W choice no_uniform trunc CC CT UT (within 480) few few_le split_scores UC X Y nt dm m nf D w) as (w' & t & ts & ER & LT & FT).
  exists w', t, ts. split; [exact ER|]. split; [exact LT|].
  split; [apply (@random_forest_ok NumF NumF_ord NumF_fin W choice no_uniform trunc UC X Y nt dm m nf w w' t ts FX ER)|].
  eapply Forall_impl; [|exact FT]. intros bt (C & _). exact C.
Qed.
End Forest.

Lemma forest_predicts W choice uniform trunc (CC : choice_contract choice) (CT : choice_total choice) (TI : int_of_floats trunc) (X : mat f64) Y nt dm m nf e Xq sched :
  mat_wf X -> length (mrows X) = length Y -> (0 < nrows X)%nat -> few (nrows X) -> (0 < nf <= mcols X)%nat -> (forall x, In x (mrows X) -> Forall finite x) ->
  (0 <= e <= 480)%Z -> (forall y, In y Y -> within e y) -> (0 < nt)%Z -> few (Z.to_nat nt) ->
  (forall x, In x Xq -> length x = mcols X) -> Permutation sched (seq 0 ((length Xq + 99) / 100)) ->
  forall w, exists w' t ts out, get_random_forest NumF W choice uniform trunc X Y nt dm m nf w = (w', t, Ok ts) /\ length ts = Z.to_nat nt /\
    predict_by_trees NumF Xq (map snd ts) sched = Ok out /\ length out = length Xq /\ Forall (pred_ok e) out.
Proof.
  intros WF L NR FW NF FX E HY PT FT HQ HP w.
  destruct (forest_float W choice uniform trunc CC CT X Y nt dm m nf (conj WF (conj L (conj NR (conj FW (conj NF FX))))) (fun y Hy => bounded_le e 480 y (proj2 E) (HY y Hy)) (TI _ FW) w)
    as (w' & t & ts & ER & LT & OKT & FB).
  pose proof (trees_grown X Y dm m ts e WF HY FB OKT) as GR.
  destruct (predict_bnd e (mcols X) (map snd ts) Xq sched E) as (out & EO & LO & HO).
  - destruct ts; [cbn in LT; lia|discriminate].
  - rewrite map_length, LT. exact FT.
  - exact GR.
  - exact HQ.
  - exact HP.
  - exists w', t, ts, out. auto.
Qed.
